(** What glm.logistic and glm.cloglog return where the documented value is not computed. *)
From Coq Require Import Reals ZArith List Arith Lra Lia.
From Verif Require Import Vec Spec M_quad M_buffer M_affine M_loss SpecLoss SpecSmooth P_quad P_loss P_loss2 P_loss4 P_loss5 M_mglm M_factory SpecFactory P_factory P_factory3.
Import ListNotations.
Local Open Scope R_scope.

Lemma sum_below : forall n F G, (forall i, (i < n)%nat -> F i <= G i) -> sum_over n F <= sum_over n G /\ (sum_over n F = sum_over n G <-> forall i, (i < n)%nat -> F i = G i).
Proof.
  unfold sum_over. intros n F G H. assert (H' : forall i, In i (seq 0 n) -> F i <= G i) by (intros i Hi; apply in_seq in Hi; apply H; lia).
  assert (K : vsum (map F (seq 0 n)) <= vsum (map G (seq 0 n)) /\ (vsum (map F (seq 0 n)) = vsum (map G (seq 0 n)) <-> forall i, In i (seq 0 n) -> F i = G i)).
  { clear H. revert H'. generalize (seq 0 n). induction l as [|a l IH]; intros H.
    - cbn. split; [unfold vsum; cbn; lra|]. split; [intros _ i []|reflexivity].
    - unfold vsum in *. cbn [map fold_right]. destruct (IH (fun i Hi => H i (or_intror Hi))) as [A B]. assert (Ha := H a (or_introl eq_refl)). split; [lra|]. split.
      + intros E i [->|Hi]; [lra|]. apply B; [lra|auto].
      + intros E. rewrite (E a (or_introl eq_refl)). f_equal. apply B. intros i Hi. apply E. right. auto. }
  destruct K as [A B]. split; [auto|]. rewrite B. split; intros E i Hi; apply E; [apply in_seq; lia|apply in_seq in Hi; lia].
Qed.
Lemma log_exp1_below : forall a, log_exp1 a <= ln (1 + exp a) /\ (log_exp1 a = ln (1 + exp a) <-> a <= 100).
Proof.
  intros a. unfold log_exp1. destruct (Rle_dec a 100) as [H|H]; [split; [lra|tauto]|].
  assert (P := exp_pos a). assert (L : a < ln (1 + exp a)) by (rewrite <- (ln_exp a) at 1; apply ln_increasing; lra). split; [lra|]. split; intros; lra.
Qed.
Theorem logistic_overflow : forall h X s t n p c soff off q w h1 g b, let D := DLogistic s t in
  data_fits D n -> good_design X p n -> off_fits n soff -> off_fits p off -> length b = p -> 0 < c ->
  (forall i, (i < n)%nat -> 0 < nth i (weights_of h n w) 0) -> (forall i, (i < n)%nat -> 0 < nth i (trials_of (doc_family D)) 0) ->
  glm_make h X D c soff off q w = (h1, Ok g) ->
  exists F, glm_eval h1 g b EvFunc = (h1, Ok (VFunc F)) /\ F <= doc_loss (doc_family D) n c (weights_of h n w) (minus (t_lin X (minus b off)) soff) /\
    (F = doc_loss (doc_family D) n c (weights_of h n w) (minus (t_lin X (minus b off)) soff) <-> Forall (fun e => e <= 100) (minus (t_lin X (minus b off)) soff)).
Proof.
  intros h X s t n p c soff off q w h1 g b D Fd G So Ho Lb Hc Hw Ht E. assert (G' := G). destruct G' as ((A1 & A2 & A3) & _ & En & Em). assert (B := make_built h X D n c soff off q w h1 g Fd Em E).
  assert (Le : length (t_lin X (minus b off)) = n) by (rewrite A1; [auto|]; rewrite En; apply minus_length; auto).
  assert (Lw : length (weights_of h n w) = n) by (apply (b_weights _ _ _ _ _ _ _ _ _ _ _ B)).
  exists (loss_func (doc_family D) c soff (weights_of h n w) (t_lin X (minus b off))). split.
  { rewrite (built_eval h h1 X D n c soff off q w g b EvFunc B Em So Le); [reflexivity|rewrite En; auto|congruence]. }
  rewrite (loss_func_cases (doc_family D) n) by auto. assert (Lm := minus_length _ soff n Le So). unfold doc_loss. change (predictor (doc_family D) soff (t_lin X (minus b off))) with (minus (t_lin X (minus b off)) soff).
  set (e := minus (t_lin X (minus b off)) soff) in *. set (cw := weights_of h n w) in *.
  destruct (sum_below n (fun i => nth i cw 0 * val_case (doc_family D) i (nth i e 0)) (fun i => nth i cw 0 * doc_case (doc_family D) i (nth i e 0))) as [K1 K2].
  { intros i Hi. apply Rmult_le_compat_l; [specialize (Hw i Hi); lra|]. unfold D. cbn [doc_family val_case doc_case]. specialize (Ht i Hi). cbn [D doc_family trials_of] in Ht. destruct (log_exp1_below (nth i e 0)) as [L _].
    apply Rplus_le_compat_r. apply Rmult_le_compat_l; [unfold D in Ht; cbn in Ht; lra|exact L]. }
  split; [apply Rmult_le_compat_l; [lra|exact K1]|]. split.
  - intros Eq. apply Rmult_eq_reg_l in Eq; [|lra]. assert (P := proj1 K2 Eq). apply Forall_forall. intros a Ha. destruct (In_nth e a 0 Ha) as (i & Hi & <-). rewrite Lm in Hi. specialize (P i Hi). cbn beta in P.
    apply Rmult_eq_reg_l in P; [|specialize (Hw i Hi); lra]. unfold D in P. cbn [doc_family val_case doc_case] in P. specialize (Ht i Hi). unfold D in Ht. cbn [doc_family trials_of] in Ht.
    apply (proj2 (log_exp1_below (nth i e 0))). apply Rplus_eq_reg_r in P. apply Rmult_eq_reg_l in P; [exact P|apply Rgt_not_eq; exact Ht].
  - intros Fa. f_equal. apply K2. intros i Hi. f_equal. unfold D. cbn [doc_family val_case doc_case]. do 2 f_equal. apply log_exp1_below. rewrite Forall_forall in Fa. apply Fa. apply nth_In. unfold vec in *. lia.
Qed.

Lemma cloglog_decreasing : forall a b, a < b -> - ln (1 - exp (- exp b)) < - ln (1 - exp (- exp a)).
Proof.
  intros a b H. apply Ropp_lt_contravar. assert (E := exp_increasing a b H). assert (P := exp_pos a). assert (exp (- exp b) < exp (- exp a)) by (apply exp_increasing; lra).
  assert (exp (- exp a) < 1) by (rewrite <- exp_0; apply exp_increasing; lra). apply ln_increasing; lra.
Qed.
(** one success in one trial *)
Lemma cloglog_one : forall c soff o h1 g b, 0 < c -> minus [b] soff = [o] -> off_fits 1 soff -> glm_make [] (one_by_one 1) (DCloglog [1] None) c soff None None None = (h1, Ok g) ->
  glm_eval h1 g [b] EvFunc = (h1, Ok (VFunc (c * - ln (1 - exp (- exp (clip5 b)))))) /\
  doc_loss (doc_family (DCloglog [1] None)) 1 c (weights_of [] 1 None) [o] = c * - ln (1 - exp (- exp o)).
Proof.
  intros c soff o h1 g b Hc Eo So E. assert (Fd : data_fits (DCloglog [1] None) 1) by (split; reflexivity). assert (B := make_built [] (one_by_one 1) (DCloglog [1] None) 1 c soff None None None h1 g Fd eq_refl E).
  assert (Lx : t_lin (one_by_one 1) (minus [b] None) = [b]) by (cbn; unfold dot, vsum; cbn; f_equal; ring).
  split.
  - rewrite (built_eval [] h1 (one_by_one 1) (DCloglog [1] None) 1 c soff None None None g [b] EvFunc B eq_refl So); [|rewrite Lx; reflexivity|exact Logic.I|reflexivity].
    cbn [M_loss.smooth_value rbind]. rewrite (loss_func_cases _ 1) by (auto; apply Lx || rewrite Lx; reflexivity). rewrite Lx. do 4 f_equal. unfold sum_over, vsum. cbn. ring.
  - unfold doc_loss, sum_over, vsum. cbn. ring.
Qed.
Theorem cloglog_accepts : forall c soff, 0 < c -> exists h1 g, glm_make [] (one_by_one 1) (DCloglog [1] None) c soff None None None = (h1, Ok g).
Proof.
  intros c soff Hc. assert (Fd : data_fits (DCloglog [1] None) 1) by (split; reflexivity).
  apply (make_accepts [] (one_by_one 1) (DCloglog [1] None) 1 c soff None None None Fd eq_refl). split; [lra|]. split; [constructor; [right; reflexivity|constructor]|]. split; [reflexivity|repeat constructor; cbn; lra].
Qed.
Theorem cloglog_clipped : forall c b, 0 < c -> exists h1 g F, glm_make [] (one_by_one 1) (DCloglog [1] None) c None None None None = (h1, Ok g) /\
  glm_eval h1 g [b] EvFunc = (h1, Ok (VFunc F)) /\ (F = doc_loss (doc_family (DCloglog [1] None)) 1 c (weights_of [] 1 None) [b] <-> -5 <= b <= 5).
Proof.
  intros c b Hc. destruct (cloglog_accepts c None Hc) as (h1 & g & E). destruct (cloglog_one c None b h1 g b Hc eq_refl Logic.I E) as [V D]. exists h1, g. eexists. split; [exact E|]. split; [exact V|]. rewrite D. split.
  - intros Eq. apply Rmult_eq_reg_l in Eq; [|lra]. unfold clip5 in Eq.
    destruct (Rlt_le_dec b (-5)) as [L|L]; [exfalso|destruct (Rlt_le_dec 5 b) as [U|U]; [exfalso|lra]].
    + unfold Rmax, Rmin in Eq. repeat destruct (Rle_dec _ _); try lra; assert (K := cloglog_decreasing b (-5) L); lra.
    + unfold Rmax, Rmin in Eq. repeat destruct (Rle_dec _ _); try lra; assert (K := cloglog_decreasing 5 b U); lra.
  - intros H. do 2 f_equal. unfold clip5. unfold Rmax, Rmin. repeat destruct (Rle_dec _ _); try lra; repeat f_equal; lra.
Qed.
Theorem cloglog_offset : forall c b o, 0 < c -> -5 <= b <= 5 -> exists h1 g F, glm_make [] (one_by_one 1) (DCloglog [1] None) c (Some [o]) None None None = (h1, Ok g) /\
  glm_eval h1 g [b] EvFunc = (h1, Ok (VFunc F)) /\ (F = doc_loss (doc_family (DCloglog [1] None)) 1 c (weights_of [] 1 None) [b - o] <-> o = 0).
Proof.
  intros c b o Hc Hb. destruct (cloglog_accepts c (Some [o]) Hc) as (h1 & g & E). destruct (cloglog_one c (Some [o]) (b - o) h1 g b Hc eq_refl eq_refl E) as [V D]. exists h1, g. eexists. split; [exact E|]. split; [exact V|]. rewrite D.
  assert (Cb : clip5 b = b) by (unfold clip5, Rmax, Rmin; repeat destruct (Rle_dec _ _); lra). rewrite Cb. split.
  - intros Eq. apply Rmult_eq_reg_l in Eq; [|lra]. destruct (Rtotal_order o 0) as [L|[L|L]]; auto; exfalso.
    + assert (K := cloglog_decreasing b (b - o) ltac:(lra)). lra.
    + assert (K := cloglog_decreasing (b - o) b ltac:(lra)). lra.
  - intros ->. rewrite Rminus_0_r. reflexivity.
Qed.

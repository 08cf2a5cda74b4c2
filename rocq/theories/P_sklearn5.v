(** R2 scores. *)
From Coq Require Import Reals List Arith Lra Lia Bool.
From Verif Require Import M_affine M_loss M_buffer Vec Spec M_quad M_semi M_shift M_mode M_cox SpecCox SpecCoxObj SpecLoss M_sklearn SpecSklearn P_quad P_buffer P_sep P_cox2 P_multi P_loss P_loss2 P_loss4 P_loss5 P_sklearn1 P_sklearn4 T_cox.
Import ListNotations.
Local Open Scope R_scope.

Lemma observes_data : forall h e n y v w o, observes h e n y v w o -> (2 <= n)%nat -> exists k, doc_data (e_fam e) n [v] = Some k /\ holds h e n y k w o /\ length v = n /\ exists wr or, check_y h (e_cw e) (e_off e) y = Ok (RVec v, wr, or).
Proof.
  intros h e n y v w o (D & L & N) Hn. destruct (check_y_ok _ _ _ _ _ _ _ _ D Hn) as (wr & or & E & _ & _ & _ & _ & _ & F).
  assert (K : exists k, doc_data (e_fam e) n [v] = Some k) by (destruct (e_fam e); cbn; eauto). destruct K as [k K]. exists k. split; [exact K|]. split; [exists [v]; auto|]. split; [apply (Forall_inv F)|]. exists wr, or. exact E.
Qed.
Lemma no_offset : forall k u, predictor k None u = u.
Proof. intros k u. destruct k; reflexivity. Qed.
Lemma nth_const : forall n c i, (i < n)%nat -> nth i (const_vec n c) 0 = c.
Proof. intros n c i Hi. rewrite (nth_indep _ 0 c) by (unfold const_vec; rewrite repeat_length; auto). unfold const_vec. apply nth_repeat. Qed.
Theorem score_R2 : forall h e n p X y v w o b sw k c, observes h e n y v w o -> (2 <= n)%nat -> design n p X -> e_coefs e = Some b -> e_classifier e = false -> legal_sample n sw ->
  e_method e = R2 -> doc_data (e_fam e) n [v] = Some k -> null_predictor (e_fam e) (average v) = Ok c -> Forall (exact_case k) (minus (mat_vec X b) o) -> exact_case k c ->
  let W := weights n (reweighted w sw) in
  snd (score h e X y sw) = if Req_EM_T (doc_loss k n 1 W (const_vec n c)) 0 then Err NaNResult else Ok (1 - doc_loss k n 1 W (minus (mat_vec X b) o) / doc_loss k n 1 W (const_vec n c)).
Proof.
  intros h e n p X y v w o b sw k c O Hn D Eb Ecl Ls Em Ed Ec Ex Exc W. destruct (observes_data _ _ _ _ _ _ _ O Hn) as (k' & Ed' & H & Lv & wr0 & or0 & Ey). assert (k' = k) by congruence. subst k'.
  destruct (score_unfold h e n p X y k w o b sw H Hn D Eb Ecl Ls) as (h1 & r & wr & E & (or & Ey') & _ & _ & Ef & Fk & Off & V).
  rewrite Ey in Ey'. injection Ey' as <- <- <-. assert (Lu := predictions_length X b o n (proj1 D) Off). assert (LW : length W = n) by (eapply reweighted_facts; eauto).
  assert (LC : length (const_vec (length v) c) = n) by (unfold const_vec; rewrite repeat_length; auto).
  rewrite E, Em. cbn [snd regressor_score]. rewrite V by auto. cbn [rbind]. change (mean v) with (average v). rewrite Ec. cbn [rbind]. rewrite V by auto. cbn [rbind].
  fold W. rewrite (loss_value k n 1 None W (minus (mat_vec X b) o)); auto; [|exact I|rewrite no_offset; auto].
  rewrite (loss_value k n 1 None W (const_vec (length v) c)); auto; [|exact I|rewrite no_offset; apply Forall_forall; intros a Ha; apply repeat_spec in Ha; subst; auto]. rewrite !no_offset, Lv.
  assert (F : dev_factor (e_fam e) <> 0) by (destruct (e_fam e); cbn; lra). set (A := doc_loss k n 1 W (minus (mat_vec X b) o)). set (B := doc_loss k n 1 W (const_vec n c)).
  destruct (Req_EM_T B 0) as [Z|Z].
  - rewrite Z, Rmult_0_r. destruct (Req_EM_T 0 0); [reflexivity|lra].
  - destruct (Req_EM_T (dev_factor (e_fam e) * B) 0) as [Q|Q]; [apply Rmult_integral in Q; lra|]. f_equal. f_equal. field. auto.
Qed.
(** ** Gaussian *)
Lemma ones_nth : forall n i, (i < n)%nat -> nth i (ones n) 0 = 1.
Proof. intros. apply nth_const. auto. Qed.
Lemma gaussian_doc : forall v u, doc_loss (Gaussian v) (length v) 1 (ones (length v)) u = sum_of_squares v u / 2.
Proof.
  intros v u. unfold doc_loss, sum_of_squares. rewrite Rmult_1_l. replace (sum_over (length v) (fun i => (nth i u 0 - nth i v 0) * (nth i u 0 - nth i v 0)) / 2) with (/ 2 * sum_over (length v) (fun i => (nth i u 0 - nth i v 0) * (nth i u 0 - nth i v 0))) by (unfold Rdiv; ring).
  rewrite <- sum_over_scal. apply sum_over_ext. intros i Hi. rewrite ones_nth by auto. cbn. lra.
Qed.
Lemma vsum_over : forall v, vsum v = sum_over (length v) (fun i => nth i v 0).
Proof. intros v. unfold sum_over. f_equal. apply (nth_ext _ _ 0 0); [rewrite map_length, seq_length; auto|]. intros i Hi. rewrite (nth_indep (map _ _) 0 (nth 0 v 0)) by (rewrite map_length, seq_length; auto). rewrite (map_nth (fun i => nth i v 0)), seq_nth by auto. reflexivity. Qed.
Lemma sum_over_const : forall n a, sum_over n (fun _ => a) = INR n * a.
Proof. induction n as [|n IH]; intros a; [cbn; unfold sum_over; cbn; lra|]. rewrite sum_over_S, IH, S_INR. ring. Qed.
Lemma squares_const : forall v c, v <> [] -> sum_of_squares v (const_vec (length v) c) = sum_of_squares v (const_vec (length v) (average v)) + INR (length v) * ((c - average v) * (c - average v)).
Proof.
  intros v c Ne. assert (Np : 0 < INR (length v)) by (apply lt_0_INR; destruct v; [contradiction|cbn; lia]).
  assert (X : forall a, sum_of_squares v (const_vec (length v) a) = INR (length v) * (a * a) - 2 * a * vsum v + sum_over (length v) (fun i => nth i v 0 * nth i v 0)).
  { intros a. unfold sum_of_squares. rewrite (vsum_over v), <- sum_over_scal, <- (sum_over_const (length v) (a * a)), <- sum_over_minus, <- sum_over_plus. apply sum_over_ext. intros i Hi. rewrite nth_const by auto. ring. }
  rewrite !X. assert (S : vsum v = INR (length v) * average v) by (unfold average; field; lra). rewrite S. ring.
Qed.
Theorem gaussian_R2 : forall h e n p X y v o b sw, observes h e n y v None o -> (2 <= n)%nat -> design n p X -> e_coefs e = Some b -> e_classifier e = false -> legal_sample n sw ->
  e_method e = R2 -> e_fam e = EGaussian ->
  let u := minus (mat_vec X b) o in let total := sum_of_squares v (const_vec n (average v)) in
  (total = 0 -> snd (score h e X y sw) = Err NaNResult) /\
  (total <> 0 -> exists r, snd (score h e X y sw) = Ok r /\ r = 1 - sum_of_squares v u / total /\ r <= 1 /\ forall c, u = const_vec n c -> r <= 0 /\ (c = average v -> r = 0)).
Proof.
  intros h e n p X y v o b sw O Hn D Eb Ecl Ls Em Ef u total. destruct (observes_data _ _ _ _ _ _ _ O Hn) as (k & Ed & H & Lv & _).
  assert (Ek : k = Gaussian v) by (rewrite Ef in Ed; cbn in Ed; congruence). subst k.
  assert (E := score_R2 h e n p X y v None o b sw (Gaussian v) (average v) O Hn D Eb Ecl Ls Em Ed). rewrite Ef in E. specialize (E eq_refl). cbv zeta in E.
  rewrite E; [|apply Forall_forall; intros; exact I|exact I]. fold u. clear E. assert (W : weights n (reweighted None sw) = ones n) by (destruct sw; reflexivity). rewrite W.
  subst n. rewrite !gaussian_doc. fold total. assert (Ne : v <> []) by (destruct v; cbn in Hn; [lia|discriminate]).
  split; intros Z.
  - rewrite Z. destruct (Req_EM_T (0 / 2) 0); [reflexivity|lra].
  - destruct (Req_EM_T (total / 2) 0); [lra|]. eexists. split; [reflexivity|].
    assert (P : 0 <= total) by (unfold total, sum_of_squares; apply sum_over_nonneg; intros; apply Rle_0_sqr). assert (P2 : 0 < total) by lra.
    assert (Q : 0 <= sum_of_squares v u) by (unfold sum_of_squares; apply sum_over_nonneg; intros; apply Rle_0_sqr).
    assert (Sm : sum_of_squares v u / 2 / (total / 2) = sum_of_squares v u / total) by (field; lra). rewrite Sm. split; [reflexivity|].
    assert (D1 : sum_of_squares v u / total * total = sum_of_squares v u) by (field; lra). split; [nra|].
    intros c Ec. rewrite Ec in *. rewrite squares_const in * by auto. fold total in D1, Q |- *. split.
    + assert (0 <= INR (length v) * ((c - average v) * (c - average v))) by (apply Rmult_le_pos; [apply pos_INR|apply Rle_0_sqr]). nra.
    + intros ->. field. lra.
Qed.
(** ** Logistic *)
Lemma logistic_const : forall v c, v <> [] -> doc_loss (Logistic v (ones (length v))) (length v) 1 (ones (length v)) (const_vec (length v) c) = INR (length v) * (ln (1 + exp c) - average v * c).
Proof.
  intros v c Ne. assert (Np : 0 < INR (length v)) by (apply lt_0_INR; destruct v; [contradiction|cbn; lia]). unfold doc_loss. rewrite Rmult_1_l.
  rewrite (sum_over_ext _ _ (fun i => ln (1 + exp c) - c * nth i v 0)). 2:{ intros i Hi. cbn. rewrite !ones_nth, nth_const by auto. ring. }
  rewrite sum_over_minus, sum_over_const, sum_over_scal, <- vsum_over. unfold average. field. lra.
Qed.
Lemma ln_le : forall x, 0 < x -> ln x <= x - 1.
Proof. intros x Hx. assert (E := exp_ineq1_le (ln x)). rewrite exp_ln in E by auto. lra. Qed.
Lemma gibbs : forall m c, 0 < m < 1 -> ln (1 + exp (ln (m / (1 - m)))) - m * ln (m / (1 - m)) <= ln (1 + exp c) - m * c.
Proof.
  intros m c Hm. assert (P : 0 < m / (1 - m)) by (apply Rdiv_lt_0_compat; lra). rewrite exp_ln by auto.
  replace (1 + m / (1 - m)) with (/ (1 - m)) by (field; lra). rewrite ln_Rinv by lra. unfold Rdiv. rewrite ln_mult, ln_Rinv; try lra; [|apply Rinv_0_lt_compat; lra].
  assert (Ep := exp_pos c). set (q := exp c / (1 + exp c)). assert (Hq : 0 < q) by (apply Rdiv_lt_0_compat; lra). assert (Hq' : 1 - q = / (1 + exp c)) by (unfold q; field; lra).
  assert (Hq2 : 0 < 1 - q) by (rewrite Hq'; apply Rinv_0_lt_compat; lra).
  assert (L1 : ln (1 - q) = - ln (1 + exp c)) by (rewrite Hq', ln_Rinv by lra; auto). assert (L2 : ln q = c - ln (1 + exp c)).
  { unfold q, Rdiv. rewrite ln_mult, ln_Rinv, ln_exp; try lra; apply Rinv_0_lt_compat; lra. }
  assert (G1 := ln_le (q / m) ltac:(apply Rdiv_lt_0_compat; lra)). assert (G2 := ln_le ((1 - q) / (1 - m)) ltac:(apply Rdiv_lt_0_compat; lra)).
  unfold Rdiv in G1, G2. rewrite ln_mult, ln_Rinv in G1 by (try lra; apply Rinv_0_lt_compat; lra). rewrite ln_mult, ln_Rinv in G2 by (try lra; apply Rinv_0_lt_compat; lra).
  rewrite L1 in G2. rewrite L2 in G1. assert (M1 : m * (q * / m - 1) = q - m) by (field; lra). assert (M2 : (1 - m) * ((1 - q) * / (1 - m) - 1) = m - q) by (field; lra). nra.
Qed.
Lemma entropy_pos : forall m, 0 < m < 1 -> 0 < ln (1 + exp (ln (m / (1 - m)))) - m * ln (m / (1 - m)).
Proof.
  intros m Hm. assert (P : 0 < m / (1 - m)) by (apply Rdiv_lt_0_compat; lra). rewrite exp_ln by auto.
  replace (1 + m / (1 - m)) with (/ (1 - m)) by (field; lra). rewrite ln_Rinv by lra. unfold Rdiv. rewrite ln_mult, ln_Rinv; try lra; [|apply Rinv_0_lt_compat; lra].
  assert (A := ln_le m ltac:(lra)). assert (B := ln_le (1 - m) ltac:(lra)). nra.
Qed.
Theorem logistic_R2 : forall h e n p X y v o b sw, observes h e n y v None o -> (2 <= n)%nat -> design n p X -> e_coefs e = Some b -> e_classifier e = false -> legal_sample n sw ->
  e_method e = R2 -> e_fam e = ELogistic -> Forall (fun a => a <= 100) (minus (mat_vec X b) o) -> 0 < average v < 1 -> ln (average v / (1 - average v)) <= 100 ->
  let u := minus (mat_vec X b) o in let L := doc_loss (Logistic v (ones n)) n 1 (ones n) in
  exists r, snd (score h e X y sw) = Ok r /\ r = 1 - L u / L (const_vec n (ln (average v / (1 - average v)))) /\
    forall c, u = const_vec n c -> r <= 0 /\ (c = ln (average v / (1 - average v)) -> r = 0).
Proof.
  intros h e n p X y v o b sw O Hn D Eb Ecl Ls Em Ef Ex Hm Hl u L. destruct (observes_data _ _ _ _ _ _ _ O Hn) as (k & Ed & H & Lv & _).
  assert (Ek : k = Logistic v (ones n)) by (rewrite Ef in Ed; cbn in Ed; congruence). subst k.
  assert (E := score_R2 h e n p X y v None o b sw _ (ln (average v / (1 - average v))) O Hn D Eb Ecl Ls Em Ed). rewrite Ef in E. cbn [null_predictor] in E.
  destruct (Rlt_dec 0 (average v)) as [G1|G1]; [|lra]. destruct (Rlt_dec (average v) 1) as [G2|G2]; [|lra]. specialize (E eq_refl). cbv zeta in E.
  rewrite E; [|exact Ex|exact Hl]. fold u. clear E. assert (W : weights n (reweighted None sw) = ones n) by (destruct sw; reflexivity). rewrite W. fold L.
  subst n. assert (Ne : v <> []) by (destruct v; cbn in Hn; [lia|discriminate]). assert (Np : 0 < INR (length v)) by (apply lt_0_INR; lia).
  assert (P : 0 < L (const_vec (length v) (ln (average v / (1 - average v))))). { unfold L. rewrite logistic_const by auto. apply Rmult_lt_0_compat; auto. apply entropy_pos; auto. }
  destruct (Req_EM_T _ _) as [Z|Z]; [lra|]. eexists. split; [reflexivity|]. split; [reflexivity|].
  intros c Ec. split; [|intros ->; rewrite Ec; field; lra]. rewrite Ec. set (B := L (const_vec (length v) (ln (average v / (1 - average v))))) in *.
  assert (A : B <= L (const_vec (length v) c)). { unfold B, L. rewrite !logistic_const by auto. apply Rmult_le_compat_l; [lra|]. apply gibbs; auto. }
  assert (L (const_vec (length v) c) / B * B = L (const_vec (length v) c)) by (field; lra). nra.
Qed.
Theorem logistic_R2_one_class : forall h e n p X y v w o b sw, observes h e n y v w o -> (2 <= n)%nat -> design n p X -> e_coefs e = Some b -> e_classifier e = false -> legal_sample n sw ->
  e_method e = R2 -> e_fam e = ELogistic \/ e_fam e = ECloglog -> (average v = 0 \/ average v = 1) -> snd (score h e X y sw) = Err NaNResult.
Proof.
  intros h e n p X y v w o b sw O Hn D Eb Ecl Ls Em Ef Hm. destruct (observes_data _ _ _ _ _ _ _ O Hn) as (k & Ed & H & Lv & wr0 & or0 & Ey).
  destruct (score_unfold h e n p X y k w o b sw H Hn D Eb Ecl Ls) as (h1 & r & wr & E & (or & Ey') & _ & _ & _ & Fk & Off & V).
  rewrite Ey in Ey'. injection Ey' as <- <- <-. assert (Lu := predictions_length X b o n (proj1 D) Off).
  rewrite E, Em. cbn [snd regressor_score]. rewrite V by auto. cbn [rbind]. change (mean v) with (average v).
  destruct Ef as [Ef|Ef]; rewrite Ef; cbn [null_predictor]; destruct (Rlt_dec 0 (average v)); cbn [rbind]; auto; destruct (Rlt_dec (average v) 1); cbn [rbind]; auto; lra.
Qed.
(** ** Where R2 goes wrong *)
Definition gaussian_est (cw : bool) (b : vec) : est := mk_est EGaussian false cw false 1 None R2 (Some b) None.
Theorem weighted_R2_wrong : exists h e n p X y v w b r, observes h e n y v (Some w) None /\ (2 <= n)%nat /\ design n p X /\ e_coefs e = Some b /\ e_classifier e = false /\ e_method e = R2 /\ e_fam e = EGaussian /\
  (exists c, mat_vec X b = const_vec n c) /\ snd (score h e X y None) = Ok r /\ 0 < r.
Proof.
  exists [[0; 1]; [1; 3]], (gaussian_est true [3 / 4]), 2%nat, 1%nat, [[1]; [1]], (Y2 2 [0; 1]%nat), [0; 1], [1; 3], [3 / 4], (1 / 4).
  assert (O : observes [[0; 1]; [1; 3]] (gaussian_est true [3 / 4]) 2 (Y2 2 [0; 1]%nat) [0; 1] (Some [1; 3]) None).
  { split; [|split; [exact I|intros u Eu; injection Eu as <-; constructor; [lra|constructor; [lra|constructor]]]].
    right. split; [|split; [discriminate|left; reflexivity]]. exists [0%nat], (Some 1%nat), None. split; [reflexivity|]. split; [reflexivity|]. split; [reflexivity|]. split; [reflexivity|]. split; [reflexivity|]. split; [reflexivity|]. split.
    - constructor; [cbn; lia|]. constructor; [cbn; lia|constructor].
    - constructor; [intros [Q|[]]; discriminate|]. constructor; [intros []|constructor]. }
  assert (D : design 2 1 [[1]; [1]]) by (split; [reflexivity|constructor; [reflexivity|constructor; [reflexivity|constructor]]]).
  repeat (split; [first [exact O|exact D|reflexivity|lia]|]). split; [exists (3 / 4); cbn; unfold dot; cbn; replace (1 * (3 / 4) + 0) with (3 / 4) by lra; reflexivity|]. split; [|lra].
  assert (E := score_R2 _ _ _ 1%nat [[1]; [1]] _ _ _ _ [3 / 4] None (Gaussian [0; 1]) (average [0; 1]) O ltac:(lia) D eq_refl eq_refl). rewrite E; clear E; [|intros s Es; discriminate|reflexivity|reflexivity|reflexivity|apply Forall_forall; intros; exact I|exact I].
  assert (A : average [0; 1] = 1 / 2) by (unfold average; cbn; lra). rewrite A. cbn [weights reweighted minus].
  assert (T1 : doc_loss (Gaussian [0; 1]) 2 1 [1; 3] (const_vec 2 (1 / 2)) = 1 / 2) by (unfold doc_loss, sum_over; cbn; lra). rewrite T1.
  assert (T2 : doc_loss (Gaussian [0; 1]) 2 1 [1; 3] (mat_vec [[1]; [1]] [3 / 4]) = 3 / 8) by (unfold doc_loss, sum_over, mat_vec, dot; cbn; lra). rewrite T2.
  destruct (Req_EM_T (1 / 2) 0); [lra|]. f_equal. lra.
Qed.
Lemma ln2_small : ln 2 < 0.707.
Proof.
  apply exp_lt_inv. rewrite exp_ln by lra. assert (E : exp 0.707 = exp (0.707 / INR 20) ^ 20). { rewrite <- Rpower_pow by apply exp_pos. unfold Rpower. rewrite ln_exp. f_equal. cbn. lra. }
  rewrite E. apply Rlt_le_trans with ((1 + 0.707 / INR 20) ^ 20); [cbn; lra|]. apply pow_incr. split; [cbn; lra|]. apply exp_ineq1_le.
Qed.
Lemma ln2_big : 1 / 2 < ln 2.
Proof. apply exp_lt_inv. rewrite exp_ln by lra. assert (E : exp (1 / 2) * exp (1 / 2) = exp 1) by (rewrite <- exp_plus; f_equal; lra). assert (A := exp_le_3). assert (P := exp_pos (1 / 2)). nra. Qed.
Definition cloglog_est (b : vec) : est := mk_est ECloglog false false false 1 None R2 (Some b) None.
Theorem cloglog_R2_wrong : exists h e n p X y v b r, observes h e n y v None None /\ (2 <= n)%nat /\ design n p X /\ e_coefs e = Some b /\ e_classifier e = false /\ e_method e = R2 /\ e_fam e = ECloglog /\
  (exists c, mat_vec X b = const_vec n c) /\ snd (score h e X y None) = Ok r /\ 0 < r.
Proof.
  assert (B1 := ln2_small). assert (B2 := ln2_big). set (l := ln 2) in *. assert (Pl : 0 < l) by lra.
  set (c := ln l). assert (Ec : exp c = l) by (apply exp_ln; auto). assert (En : exp (- l) = 1 / 2) by (unfold l; rewrite exp_Ropp, exp_ln; lra).
  assert (Bc : -1 <= c < 0). { split; [|apply exp_lt_inv; rewrite Ec, exp_0; lra]. apply Rnot_lt_le. intros Q. apply exp_increasing in Q. replace (-1) with (- (1)) in Q by lra. rewrite Ec, exp_Ropp in Q. assert (E2 : 2 <= exp 1) by (assert (Z := exp_ineq1_le 1); lra).
    assert (/ exp 1 <= / 2) by (apply Rinv_le_contravar; lra). lra. }
  assert (Ed : exp (- c) = / l) by (rewrite exp_Ropp, Ec; auto).
  set (A := doc_loss (Cloglog [1; 0] (ones 2)) 2 1 (ones 2) [c; c]). set (B := doc_loss (Cloglog [1; 0] (ones 2)) 2 1 (ones 2) (const_vec 2 (- c))).
  assert (EA : A = 2 * l). { unfold A, doc_loss, sum_over, ones, const_vec. cbn. rewrite Ec, En. replace (1 - 1 / 2) with (/ 2) by lra. rewrite ln_Rinv by lra. fold l. lra. }
  assert (EB : 2 * l < B). { unfold B, doc_loss, sum_over, ones, const_vec. cbn. rewrite Ed. assert (Q : ln (1 - exp (- / l)) < 0). { assert (P := exp_pos (- / l)). assert (P2 : exp (- / l) < 1) by (rewrite <- exp_0; apply exp_increasing; assert (0 < / l) by (apply Rinv_0_lt_compat; auto); lra). rewrite <- ln_1. apply ln_increasing; lra. }
    assert (2 * l < / l). { apply (Rmult_lt_reg_r l); auto. rewrite Rinv_l by lra. nra. } lra. }
  exists [[1; 0]], (cloglog_est [c]), 2%nat, 1%nat, [[1]; [1]], (Y1 0%nat), [1; 0], [c], (1 - A / B).
  assert (O : observes [[1; 0]] (cloglog_est [c]) 2 (Y1 0%nat) [1; 0] None None).
  { split; [left; repeat (split; [reflexivity|]); exists 0%nat; cbn; repeat split; auto|split; [|intros u Eu; discriminate]]. cbn. constructor; [auto|]. constructor; [auto|constructor]. }
  assert (D : design 2 1 [[1]; [1]]) by (split; [reflexivity|constructor; [reflexivity|constructor; [reflexivity|constructor]]]).
  assert (Mv : mat_vec [[1]; [1]] [c] = [c; c]) by (cbn; unfold dot; cbn; replace (1 * c + 0) with c by lra; reflexivity).
  repeat (split; [first [exact O|exact D|reflexivity|lia]|]). split; [exists c; rewrite Mv; reflexivity|]. split.
  2:{ assert (A / B * B = A) by (field; lra). nra. }
  assert (E := score_R2 _ _ _ 1%nat [[1]; [1]] _ _ _ _ [c] None (Cloglog [1; 0] (ones 2)) (- c) O ltac:(lia) D eq_refl eq_refl). rewrite E; try reflexivity.
  - cbn [weights reweighted minus]. rewrite Mv. fold A B. destruct (Req_EM_T B 0); [lra|reflexivity].
  - intros s Es. discriminate.
  - cbn [e_fam cloglog_est null_predictor]. assert (Av : average [1; 0] = 1 / 2) by (unfold average; cbn; lra). rewrite Av. destruct (Rlt_dec 0 (1 / 2)); [|lra]. destruct (Rlt_dec (1 / 2) 1); [|lra]. f_equal.
    replace (1 / 2) with (/ 2) by lra. rewrite ln_Rinv by lra. rewrite Ropp_involutive. reflexivity.
  - cbn [minus]. rewrite Mv. cbn. constructor; [cbn; lra|]. constructor; [cbn; lra|constructor].
  - cbn. lra.
Qed.
(** ** Cox *)
Lemma cox_const : forall T cens w c, covered T w -> Forall (fun a => 0 <= a) w -> cox_loss T cens w (const_vec (length T) c) = cox_loss T cens w (const_vec (length T) 0).
Proof.
  intros T cens w c Cv Nw. unfold cox_loss. apply sum_over_ext. intros i Hi. rewrite !nth_const by auto. f_equal.
  assert (R : forall a, at_risk T w (const_vec (length T) a) i = exp a * at_risk T w (const_vec (length T) 0) i).
  { intros a. unfold at_risk. rewrite <- sum_over_scal. apply sum_over_ext. intros j Hj. rewrite !nth_const, exp_0 by auto. destruct (Rle_dec _ _); ring. }
  assert (P : 0 < at_risk T w (const_vec (length T) 0) i).
  { destruct (Cv i Hi) as (j & Hj & Hle & Hw). unfold at_risk. apply (sum_over_pos _ _ j); auto.
    - intros m Hm. destruct (Rle_dec _ _); [|lra]. apply Rmult_le_pos; [apply nonneg_nth; auto|left; apply exp_pos].
    - destruct (Rle_dec _ _); [|lra]. apply Rmult_lt_0_compat; auto. apply exp_pos. }
  rewrite R. rewrite ln_mult, ln_exp by (auto; apply exp_pos). lra.
Qed.
Theorem cox_scores : forall T cens ord w b u, sorts T ord -> cox_shapes T cens w u -> nonneg w -> covered T w -> sized (length T) b -> 
  cox_score Deviance T cens ord b w u = Ok (- 2 * cox_loss T cens w u) /\ cox_score MeanDeviance T cens ord b w u = Ok (- 2 * cox_loss T cens w u / INR (length T)).
Proof.
  intros T cens ord w b u St Sh Nw Cv Sz. cbn [cox_score]. unfold cox_value. rewrite (C37_value T cens ord w b u St Sh Nw Cv Sz). cbn. destruct Sh as (_ & _ & ->). auto.
Qed.
Theorem cox_R2_wrong : forall T cens ord w b c, sorts T ord -> cox_shapes T cens w (const_vec (length T) c) -> nonneg w -> covered T w -> sized (length T) b ->
  cox_loss T cens w (const_vec (length T) 0) <> 0 -> cox_score R2 T cens ord b w (const_vec (length T) c) = Ok (-1).
Proof.
  intros T cens ord w b c St Sh Nw Cv Sz N0. cbn [cox_score]. unfold cox_value. rewrite (C37_value T cens ord w b _ St Sh Nw Cv Sz). cbn [rbind].
  rewrite (C37_value T cens ord w b _ St); auto. 2:{ destruct Sh as (A & B & _). repeat split; auto. unfold const_vec. apply repeat_length. }
  cbn [rbind]. rewrite (cox_const T cens w c), (cox_const T cens w (mean _)) by auto. destruct (Req_EM_T _ 0); [contradiction|]. f_equal. field. auto.
Qed.

(** Classifiers. *)
From Coq Require Import Reals List Arith Lra Lia Bool.
From Verif Require Import M_affine M_loss M_buffer Vec Spec M_quad M_semi M_shift M_mode SpecLoss M_sklearn SpecSklearn P_quad P_buffer P_sep P_loss P_loss2 P_loss4 P_loss5 P_sklearn1 P_sklearn4 P_sklearn5.
Import ListNotations.
Local Open Scope R_scope.

Lemma nth_map_in : forall {A} (f : R -> A) (l : vec) i d, (i < length l)%nat -> nth i (map f l) d = f (nth i l 0).
Proof. intros A f l i d Hi. rewrite (nth_indep _ d (f 0)) by (rewrite map_length; auto). apply map_nth. Qed.
Theorem labels : forall e X b, has_coefs e b -> exists l, predict_labels e X = Ok l /\ length l = length X /\
  forall i, (i < length X)%nat -> (nth i l false = true <-> 0 < nth i (mat_vec X b) 0).
Proof.
  intros e X b Hb. unfold predict_labels, linpred, fitted_coefs. rewrite Hb. cbn [rmap]. eexists. split; [reflexivity|]. split; [rewrite map_length; apply mat_vec_length|].
  intros i Hi. rewrite nth_map_in by (rewrite mat_vec_length; auto). unfold positive. destruct (Rlt_dec 0 _); split; auto; try discriminate; contradiction.
Qed.
Theorem unfitted : forall h e X, e_coefs e = None -> predict_labels e X = Err AttributeError /\ (forall q, predict_proba e X = Ok q -> False) /\
  forall y s, snd (score h e X y s) = Err AttributeError \/ exists x, check_y h (e_cw e) (e_off e) y = Err x /\ snd (score h e X y s) = Err x.
Proof.
  intros h e X E. unfold predict_labels, predict_proba, score, linpred, fitted_coefs. rewrite E. cbn. split; [reflexivity|]. split; [discriminate|].
  intros y s. destruct (check_y h (e_cw e) (e_off e) y) as [[[r w] o]|x]; cbn; eauto.
Qed.
Theorem logistic_proba : forall e X b, has_coefs e b -> e_fam e = ELogistic -> exists q, predict_proba e X = Ok q /\ length q = length X /\
  forall i, (i < length X)%nat -> 0 < nth i q 0 < 1 /\ nth i q 0 = / (1 + exp (- nth i (mat_vec X b) 0)) /\ (1 / 2 < nth i q 0 <-> 0 < nth i (mat_vec X b) 0).
Proof.
  intros e X b Hb Ef. unfold predict_proba, linpred, fitted_coefs. rewrite Hb. cbn [rmap rbind]. rewrite Ef. eexists. split; [reflexivity|]. split; [rewrite map_length; apply mat_vec_length|].
  intros i Hi. rewrite (nth_map_in (fun a => exp a / (1 + exp a))) by (rewrite mat_vec_length; auto). set (a := nth i (mat_vec X b) 0). assert (P := exp_pos a).
  assert (D : exp a / (1 + exp a) * (1 + exp a) = exp a) by (field; lra). split; [split; nra|]. split; [rewrite exp_Ropp; field; split; lra|].
  rewrite <- exp_0 in D at 2. split; intros Q.
  - apply exp_lt_inv. rewrite exp_0. rewrite exp_0 in D. nra.
  - apply exp_increasing in Q. rewrite exp_0 in *. nra.
Qed.
Theorem cloglog_proba : forall e X b, has_coefs e b -> e_fam e = ECloglog -> exists q, predict_proba e X = Ok q /\ length q = length X /\
  forall i, (i < length X)%nat -> 0 < nth i q 0 < 1 /\ nth i q 0 = 1 - exp (- exp (nth i (mat_vec X b) 0)) /\ (1 / 2 < nth i q 0 <-> ln (ln 2) < nth i (mat_vec X b) 0).
Proof.
  intros e X b Hb Ef. unfold predict_proba, linpred, fitted_coefs. rewrite Hb. cbn [rmap rbind]. rewrite Ef. eexists. split; [reflexivity|]. split; [rewrite map_length; apply mat_vec_length|].
  intros i Hi. rewrite (nth_map_in (fun a => 1 - exp (- exp a))) by (rewrite mat_vec_length; auto). set (a := nth i (mat_vec X b) 0). assert (P := exp_pos a). assert (P2 := exp_pos (- exp a)).
  assert (P3 : exp (- exp a) < 1) by (rewrite <- exp_0; apply exp_increasing; lra). split; [lra|]. split; [reflexivity|].
  assert (L := ln2_big). assert (E1 : exp (- ln 2) = 1 / 2) by (rewrite exp_Ropp, exp_ln; lra). assert (E2 : exp (ln (ln 2)) = ln 2) by (apply exp_ln; lra). split; intros Q.
  - apply exp_lt_inv. rewrite E2. assert (exp (- exp a) < exp (- ln 2)) by lra. apply exp_lt_inv in H. lra.
  - apply exp_increasing in Q. rewrite E2 in Q. assert (H : exp (- exp a) < exp (- ln 2)) by (apply exp_increasing; lra). lra.
Qed.
(** probability above one half, label 0 *)
Theorem cloglog_labels_disagree : forall e X b i, has_coefs e b -> e_fam e = ECloglog -> (i < length X)%nat -> ln (ln 2) < nth i (mat_vec X b) 0 <= 0 ->
  exists q l, predict_proba e X = Ok q /\ predict_labels e X = Ok l /\ 1 / 2 < nth i q 0 /\ nth i l false = false.
Proof.
  intros e X b i Hb Ef Hi (A & B). destruct (cloglog_proba e X b Hb Ef) as (q & Eq & _ & Q). destruct (labels e X b Hb) as (l & El & _ & L). exists q, l. repeat (split; [assumption|]). split; [apply Q; auto|].
  destruct (nth i l false) eqn:En; auto. apply L in En; auto. lra.
Qed.
Lemma disagree_range : ln (ln 2) < -1 / 10 <= 0.
Proof.
  split; [|lra]. apply exp_lt_inv. assert (L := ln2_small). assert (L2 := ln2_big). rewrite exp_ln by lra. apply Rlt_le_trans with (1 + -1 / 10); [lra|]. apply exp_ineq1_le.
Qed.
(** ** Accuracy *)
Lemma count_spec : forall l (P : nat -> bool) n, length l = n -> (forall i, (i < n)%nat -> nth i l false = P i) -> count_true l = how_many n P.
Proof.
  intros l P n L H. unfold count_true, how_many. f_equal. assert (E : l = map P (seq 0 n)).
  { apply (nth_ext _ _ false (P 0%nat)); [rewrite map_length, seq_length; auto|]. intros i Hi. rewrite L in Hi. rewrite H, map_nth, seq_nth by auto. reflexivity. }
  rewrite E. clear. generalize (seq 0 n). induction l as [|a l IH]; cbn; auto. destruct (P a); cbn; auto.
Qed.
Lemma vzip_with_spec : forall A (f : A -> R -> bool) x y d i, length x = length y -> (i < length y)%nat -> nth i (vzip_with f x y) false = f (nth i x d) (nth i y 0).
Proof. intros A f x. induction x as [|a x IH]; intros [|b y] d i L Hi; cbn in *; try lia. destruct i; auto. apply IH; lia. Qed.
Lemma vzip_with_length : forall A (f : A -> R -> bool) x y, length x = length y -> length (vzip_with f x y) = length y.
Proof. intros A f x. induction x as [|a x IH]; intros [|b y] L; cbn in *; try lia. rewrite IH; lia. Qed.
Lemma agree_spec : forall l a, agree l a = true <-> a = (if l then 1 else 0).
Proof. intros l a. unfold agree. destruct (Req_EM_T _ a); split; intros E; auto; try discriminate; exfalso; auto. Qed.
Theorem regressor_accuracy : forall h e n p X y v w o b sw, observes h e n y v w o -> (2 <= n)%nat -> design n p X -> e_coefs e = Some b -> e_classifier e = false -> legal_sample n sw ->
  e_method e = Accuracy -> e_fam e = ELogistic \/ e_fam e = ECloglog ->
  forall right, (forall i, (i < n)%nat -> (right i = true <-> nth i v 0 = (if Rlt_dec 0 (nth i (minus (mat_vec X b) o) 0) then 1 else 0))) ->
  snd (score h e X y sw) = Ok (how_many n right / INR n).
Proof.
  intros h e n p X y v w o b sw O Hn D Eb Ecl Ls Em Ef right Hr. destruct (observes_data _ _ _ _ _ _ _ O Hn) as (k & Ed & H & Lv & wr0 & or0 & Ey).
  destruct (score_unfold h e n p X y k w o b sw H Hn D Eb Ecl Ls) as (h1 & r & wr & E & (or & Ey') & _ & _ & _ & Fk & Off & V).
  rewrite Ey in Ey'. injection Ey' as <- <- <-. assert (Lu := predictions_length X b o n (proj1 D) Off).
  rewrite E, Em. cbn [snd regressor_score]. set (u := minus (mat_vec X b) o) in *. set (l := vzip_with agree (map positive u) v).
  assert (Lm : length (map positive u) = length v) by (rewrite map_length; congruence). assert (Ll : length l = n) by (unfold l; rewrite vzip_with_length; auto).
  assert (M : mean_true l = Ok (how_many n right / INR n)).
  { assert (C : count_true l = how_many n right).
    { apply count_spec; auto. intros i Hi.
      assert (Nl : nth i l false = agree (positive (nth i u 0)) (nth i v 0)). { unfold l. rewrite (vzip_with_spec _ agree _ _ false) by (auto; lia). rewrite nth_map_in by lia. reflexivity. }
      rewrite Nl. destruct (right i) eqn:Er.
      - apply Hr in Er; auto. apply agree_spec. rewrite Er. unfold positive. destruct (Rlt_dec _ _); reflexivity.
      - destruct (agree (positive (nth i u 0)) (nth i v 0)) eqn:Ag; auto. apply agree_spec in Ag. assert (right i = true); [|congruence]. apply Hr; auto. rewrite Ag. unfold positive. destruct (Rlt_dec _ _); reflexivity. }
    unfold mean_true. destruct l as [|a l'] eqn:El; [cbn in Ll; lia|]. rewrite C, Ll. reflexivity. }
  destruct Ef as [-> | ->]; exact M.
Qed.

(** the classifier's accuracy compares the numbers X b themselves with the labels *)
Theorem classifier_accuracy_wrong : forall h e n p X y v w o b sw, observes h e n y v w o -> (2 <= n)%nat -> design n p X -> e_coefs e = Some b -> e_classifier e = true -> legal_sample n sw ->
  e_method e = Accuracy -> e_fam e = ELogistic \/ e_fam e = ECloglog ->
  (forall i, (i < n)%nat -> nth i (minus (mat_vec X b) o) 0 <> 0 /\ nth i (minus (mat_vec X b) o) 0 <> 1) ->
  snd (score h e X y sw) = Ok 0.
Proof.
  intros h e n p X y v w o b sw O Hn D Eb Ecl Ls Em Ef Hu. destruct (observes_data _ _ _ _ _ _ _ O Hn) as (k & Ed & H & Lv & wr0 & or0 & Ey).
  destruct (holds_read _ _ _ _ _ _ _ H Hn) as (r & wr & or & Ey' & _ & _ & _ & _ & _ & _ & Eo & _ & Bo & _). rewrite Ey in Ey'. injection Ey' as <- <- <-.
  assert (Off : off_fits n o). { rewrite Eo. destruct or0 as [ro|]; cbn; auto. apply (Bo ro eq_refl). } assert (Lu := predictions_length X b o n (proj1 D) Off).
  assert (Bin : forall i, (i < n)%nat -> nth i v 0 = 0 \/ nth i v 0 = 1). { destruct O as (_ & L & _). intros i Hi. assert (F : Forall (fun a => a = 0 \/ a = 1) v) by (destruct Ef as [Ef|Ef]; rewrite Ef in L; exact L).
    rewrite Forall_forall in F. apply F. apply nth_In. lia. }
  unfold score. rewrite Ey. unfold linpred, fitted_coefs. rewrite Eb, Ecl. cbn [rmap snd]. set (u := match or0 with Some o0 => vsub (mat_vec X b) (read h o0) | None => mat_vec X b end).
  assert (Eu : u = minus (mat_vec X b) o) by (unfold u; rewrite Eo; destruct or0; reflexivity). rewrite Eu. clear u Eu. set (u := minus (mat_vec X b) o) in *.
  assert (C : mean_true (vzip_with same_number u v) = Ok 0).
  { assert (Ll : length (vzip_with same_number u v) = n) by (rewrite vzip_with_length by lia; auto).
    assert (Ct : count_true (vzip_with same_number u v) = 0).
    { rewrite (count_spec _ (fun _ => false) n Ll). unfold how_many. clear. generalize (seq 0 n). induction l; cbn; auto.
      intros i Hi. rewrite (vzip_with_spec _ same_number _ _ 0) by lia. unfold same_number. destruct (Hu i Hi) as (A & B). destruct (Bin i Hi) as [Z|Z]; rewrite Z; destruct (Req_EM_T _ _); auto; contradiction. }
    unfold mean_true. destruct (vzip_with same_number u v) as [|a l] eqn:El; [cbn in Ll; lia|]. rewrite Ct. f_equal. unfold Rdiv. ring. }
  unfold classifier_score. rewrite Em. destruct Ef as [-> | ->]; cbn [family_of rbind]; exact C.
Qed.
Theorem classifier_needs_accuracy : forall h e n p X y v w o b sw, observes h e n y v w o -> (2 <= n)%nat -> design n p X -> e_coefs e = Some b -> e_classifier e = true ->
  e_method e <> Accuracy -> snd (score h e X y sw) = Err NaNResult.
Proof.
  intros h e n p X y v w o b sw O Hn D Eb Ecl Em. destruct (observes_data _ _ _ _ _ _ _ O Hn) as (k & Ed & H & Lv & wr0 & or0 & Ey).
  unfold score. rewrite Ey. unfold linpred, fitted_coefs. rewrite Eb, Ecl. cbn [rmap snd]. unfold classifier_score. destruct (e_fam e); cbn [family_of rbind]; destruct (e_method e); try reflexivity; contradiction.
Qed.
(** ** Several classes *)
Lemma argmax_from_spec : forall r i best m, (best < i)%nat -> let k := argmax_from i best m r in
  (k = best /\ (forall j, (j < length r)%nat -> nth j r 0 <= m)) \/
  (exists j, k = (i + j)%nat /\ (j < length r)%nat /\ m < nth j r 0 /\ (forall l, (l < length r)%nat -> nth l r 0 <= nth j r 0) /\ forall l, (l < j)%nat -> nth l r 0 < nth j r 0).
Proof.
  induction r as [|a r IH]; intros i best m Hb k; [left; split; auto; intros j Hj; cbn in Hj; lia|]. unfold k. cbn [argmax_from]. destruct (Rlt_dec m a) as [Q|Q].
  - destruct (IH (S i) i a ltac:(lia)) as [(E & F)|(j & E & Hj & Hm & F & G)]; right.
    + exists 0%nat. rewrite E. split; [lia|]. split; [cbn; lia|]. split; [exact Q|]. split; [|intros; lia]. intros [|l] Hl; cbn in *; [lra|]. apply F. lia.
    + exists (S j). rewrite E. split; [lia|]. split; [cbn; lia|]. cbn. split; [lra|]. split; intros [|l] Hl; cbn in *; try lra; [apply F; lia|apply G; lia].
  - destruct (IH (S i) best m ltac:(lia)) as [(E & F)|(j & E & Hj & Hm & F & G)].
    + left. rewrite E. split; auto. intros [|j] Hj; cbn in *; [lra|]. apply F. lia.
    + right. exists (S j). rewrite E. split; [lia|]. split; [cbn; lia|]. cbn. split; [lra|]. split; intros [|l] Hl; cbn in *; try lra; [apply F; lia|apply G; lia].
Qed.
Theorem argmax_first : forall r, r <> [] -> (argmax_row r < length r)%nat /\ (forall j, (j < length r)%nat -> nth j r 0 <= nth (argmax_row r) r 0) /\
  forall j, (j < argmax_row r)%nat -> nth j r 0 < nth (argmax_row r) r 0.
Proof.
  intros [|a r] Ne; [contradiction|]. unfold argmax_row. destruct (argmax_from_spec r 1 0 a ltac:(lia)) as [(E & F)|(j & E & Hj & Hm & F & G)]; rewrite E.
  - split; [cbn; lia|]. split; [|intros; lia]. intros [|j] Hj; cbn in *; [lra|]. apply F. lia.
  - cbn [Nat.add]. split; [cbn; lia|]. cbn. split; intros [|l] Hl; cbn in *; try lra; [apply F; lia|apply G; lia].
Qed.
Lemma vsum_scal_r : forall v c, vsum (map (fun a => a / c) v) = vsum v / c.
Proof. induction v as [|a v IH]; intros c; [cbn; unfold Rdiv; ring|]. change (a / c + vsum (map (fun a => a / c) v) = (a + vsum v) / c). rewrite IH. unfold Rdiv. ring. Qed.
Lemma vsum_exp_pos : forall r, r <> [] -> 0 < vsum (map exp r).
Proof. intros [|a r] Ne; [contradiction|]. clear Ne. revert a. induction r as [|b r IH]; intros a; cbn in *; assert (P := exp_pos a); [lra|]. specialize (IH b). lra. Qed.
Theorem proba_one_row : forall q r, length r = q -> (2 <= q)%nat -> exists s, mn_predict_proba q [r] = Ok [s] /\ length s = q /\ vsum s = 1 /\
  forall j, (j < q)%nat -> nth j s 0 = exp (nth j r 0) / vsum (map exp r).
Proof.
  intros q r L Hq. unfold mn_predict_proba. cbn [map length]. assert (E : Nat.eqb 1 q = false) by (apply Nat.eqb_neq; lia). rewrite E. cbn [Nat.eqb nth]. eexists. split; [reflexivity|].
  assert (Ne : r <> []) by (destruct r; cbn in *; [lia|discriminate]). assert (P := vsum_exp_pos r Ne). split; [rewrite !map_length; auto|]. split; [rewrite vsum_scal_r; field; lra|].
  intros j Hj. rewrite nth_map_in by (rewrite map_length; lia). rewrite nth_map_in by lia. reflexivity.
Qed.
Theorem proba_refused : forall q lin, length lin <> q -> length lin <> 1%nat -> q <> 1%nat -> mn_predict_proba q lin = Err ValueError.
Proof. intros q lin A B C. unfold mn_predict_proba. replace (length (map (map exp) lin)) with (length lin) by (symmetry; apply map_length). apply Nat.eqb_neq in A, B, C. cbv zeta. rewrite A, B, C. reflexivity. Qed.
Theorem proba_square_wrong : exists lin s, length lin = 2%nat /\ Forall (fun r => length r = 2%nat) lin /\ mn_predict_proba 2 lin = Ok s /\ vsum (nth 0 s []) <> 1.
Proof.
  exists [[0; 0]; [ln 3; ln 3]]. eexists. split; [reflexivity|]. split; [constructor; [reflexivity|constructor; [reflexivity|constructor]]|]. split; [reflexivity|]. cbn. rewrite exp_0, exp_ln by lra. lra.
Qed.

(** Every matrix has a singular value decomposition. *)
From Coq Require Import Reals List Lra Lia Psatz Arith Classical.
From Verif Require Import M_affine P_affine P_affine2 Vec Spec SpecLoss P_sep P_cv P_cox2 M_linear SpecLinear P_linear SpecBlock SpecSvd P_compact P_svd1.
Import ListNotations.
Local Open Scope R_scope.

Lemma rank1s_length : forall us vs, length us = length vs -> length (rank1s us vs) = length us.
Proof. induction us as [|u us IH]; intros [|v vs] L; try discriminate; cbn; auto. Qed.
Lemma row_rank1s : forall us vs i, length us = length vs -> (i < length us)%nat -> row (rank1s us vs) i = rank1 (row us i) (row vs i).
Proof. unfold row. induction us as [|u us IH]; intros [|v vs] [|i] L Hi; try discriminate; cbn in *; try lia; auto. apply IH; lia. Qed.
Lemma rank1s_orth : forall r c us vs, length us = length vs -> orthonormal r us -> orthonormal c vs -> orthonormal (r * c) (rank1s us vs).
Proof.
  intros r c us vs L Ou Ov. split; intros i; rewrite rank1s_length by auto.
  - intros Hi. rewrite row_rank1s by auto. rewrite rank1_length, (proj1 Ou), (proj1 Ov) by (auto; lia). auto.
  - intros j Hi Hj. rewrite !row_rank1s by auto. rewrite dot_rank1 by (rewrite ?(proj1 Ou), ?(proj1 Ov) by (auto; lia); auto). rewrite (proj2 Ou), (proj2 Ov) by (auto; lia). destruct (Nat.eq_dec i j); ring.
Qed.
Lemma usv_length : forall r c us d vs, length us = length vs -> orthonormal r us -> orthonormal c vs -> length (usv (r * c) us d vs) = (r * c)%nat.
Proof. intros. unfold usv. apply mat_tvec_length. eapply rows_length, rank1s_orth; eauto. Qed.
(** tr(Z^T U diag(d) V) *)
Lemma dot_usv : forall r c us d vs Z, length us = length vs -> length d = length us -> orthonormal r us -> orthonormal c vs -> length Z = (r * c)%nat ->
  dot Z (usv (r * c) us d vs) = sum_over (length us) (fun i => nth i d 0 * dot Z (rank1 (row us i) (row vs i))).
Proof.
  intros r c us d vs Z L Ld Ou Ov LZ. unfold usv. pose proof (rank1s_orth r c us vs L Ou Ov) as O. rewrite <- (mat_adjoint (r * c)) by (auto; first [eapply rows_length; eauto; fail|rewrite rank1s_length; auto]).
  rewrite (dot_index (length us)) by (auto; unfold mat_vec; rewrite map_length; apply rank1s_length; auto). apply sum_over_ext. intros i Hi.
  rewrite (nth_mat_vec (rank1s us vs)) by (rewrite rank1s_length; auto). rewrite row_rank1s by auto. rewrite (dot_comm _ Z). ring.
Qed.
Lemma usv_bil : forall r c us d vs u v, length us = length vs -> length d = length us -> orthonormal r us -> orthonormal c vs -> length u = r -> length v = c ->
  dot (usv (r * c) us d vs) (rank1 u v) = sum_over (length us) (fun i => nth i d 0 * (dot (row us i) u * dot (row vs i) v)).
Proof.
  intros r c us d vs u v L Ld Ou Ov Lu Lv. rewrite dot_comm. rewrite dot_usv by (auto; rewrite rank1_length; congruence). apply sum_over_ext. intros i Hi.
  rewrite dot_rank1 by (rewrite ?(proj1 Ou), ?(proj1 Ov) by (auto; lia); auto). rewrite (dot_comm u), (dot_comm v). ring.
Qed.
Lemma zero_concat : forall c (l : list vec), Forall (fun y => norm y <= 0) l -> Forall (fun y => length y = c) l -> concat l = zeros (length l * c).
Proof.
  intros c. induction l as [|y l IH]; intros Z FL; [reflexivity|]. inversion Z; inversion FL; subst. cbn [concat length Nat.mul]. rewrite IH by auto.
  pose proof (norm_nonneg y). assert (E : norm y = 0) by lra. apply norm_eq_zero in E. rewrite E at 1. unfold zeros. rewrite <- repeat_app. auto.
Qed.
Lemma bil_zero : forall r c W, length W = (r * c)%nat -> (forall u v, length u = r -> length v = c -> dot W (rank1 u v) = 0) -> W = zeros (r * c).
Proof.
  intros r c W LW H. pose proof (row_le r c W 0 ltac:(lra) LW) as F. assert (Z : Forall (fun y => norm y <= 0) (rows r c W)) by (apply F; intros t (u & v & Lu & Lv & _ & _ & ->); rewrite H; auto; lra). clear F.
  pose proof (P_block.rows_lengths r c W LW) as FL. pose proof (zero_concat c _ Z FL) as E. rewrite P_block.concat_rows, P_block.rows_length in E by auto. auto.
Qed.
Lemma bil_ext : forall r c X Y, length X = (r * c)%nat -> length Y = (r * c)%nat -> (forall u v, length u = r -> length v = c -> dot X (rank1 u v) = dot Y (rank1 u v)) -> X = Y.
Proof.
  intros r c X Y LX LY H. assert (Z : vsub X Y = zeros (r * c)).
  { apply bil_zero; [rewrite vsub_length; congruence|]. intros u v Lu Lv. rewrite dot_sub_l by (rewrite ?rank1_length; congruence). rewrite H by auto. ring. }
  apply vsub_eq_zero; [congruence|]. rewrite Z, sqn_zeros. lra.
Qed.

Section Exists.
Variables (r c : nat) (X : vec).
Hypothesis LX : length X = (r * c)%nat.
Let A := rows r c X.
Lemma A_rows : Forall (fun y => length y = c) A. Proof. apply P_block.rows_lengths; auto. Qed.
Lemma A_len : length A = r. Proof. apply P_block.rows_length. Qed.
Lemma bil_l : forall u v, length u = r -> length v = c -> dot X (rank1 u v) = dot u (mat_vec A v).
Proof. intros. apply bil_rows; auto. Qed.
Lemma bil_r : forall u v, length u = r -> length v = c -> dot X (rank1 u v) = dot v (mat_tvec c A u).
Proof. intros u v Lu Lv. rewrite bil_l by auto. rewrite dot_comm. apply mat_adjoint; auto; [apply A_rows|transitivity r; auto; symmetry; apply A_len]. Qed.
Record partial_svd (us : list vec) (d : vec) (vs : list vec) : Prop := mk_partial {
  ps_d : length d = length us; ps_v : length vs = length us; ps_ou : orthonormal r us; ps_ov : orthonormal c vs;
  ps_pos : Forall (fun a => 0 <= a) d; ps_desc : descending d;
  ps_av : forall i, (i < length us)%nat -> mat_vec A (row vs i) = vscal (nth i d 0) (row us i);
  ps_au : forall i, (i < length us)%nat -> mat_tvec c A (row us i) = vscal (nth i d 0) (row vs i);
  ps_bound : forall u v b, off_rows r us u -> off_rows c vs v -> In b d -> dot X (rank1 u v) <= b * norm u * norm v }.

Lemma off_zeros : forall n B, orthonormal n B -> off_rows n B (zeros n).
Proof. intros n B O. split; [apply zeros_length|]. intros i Hi. rewrite dot_zeros_r. auto. Qed.
Lemma off_scal : forall n B a x, off_rows n B x -> off_rows n B (vscal a x).
Proof. intros n B a x [L H]. split; [rewrite vscal_length; auto|]. intros i Hi. rewrite dot_scal_r, H by auto. ring. Qed.
Lemma coord_le : forall (x : vec) i, nth i x 0 * nth i x 0 <= sqn x.
Proof.
  induction x as [|a x IH]; intros i; [destruct i; cbn; lra|]. rewrite sqn_cons. pose proof (sqn_nonneg x). destruct i as [|i]; cbn [nth]; [nra|]. pose proof (IH i). nra.
Qed.
(** the largest value of u^T X v over the unit balls of two complements *)
Lemma best_pair : forall us vs, orthonormal r us -> orthonormal c vs -> exists u v, off_rows r us u /\ off_rows c vs v /\ sqn u <= 1 /\ sqn v <= 1 /\
  forall u' v', off_rows r us u' -> off_rows c vs v' -> sqn u' <= 1 -> sqn v' <= 1 -> dot X (rank1 u' v') <= dot X (rank1 u v).
Proof.
  intros us vs Ou Ov. set (K := fun w : vec => length w = (r + c)%nat /\ off_rows r us (firstn r w) /\ off_rows c vs (skipn r w) /\ sqn (firstn r w) <= 1 /\ sqn (skipn r w) <= 1).
  set (f := fun w => dot (firstn r w) (mat_vec A (skipn r w))).
  pose proof (vcont_first r c) as V1. pose proof (vcont_skip r c) as V2.
  assert (Cf : cont (r + c) f). { unfold f. apply (cont_dot (r + c) r); auto. pose proof (vcont_mat (r + c) c A (skipn r) A_rows V2) as V3. assert (LA := A_len). unfold vec in *. rewrite LA in V3. exact V3. }
  assert (Pair : forall u v : vec, length u = r -> length v = c -> firstn r (u ++ v) = u /\ skipn r (u ++ v) = v).
  { intros u v Lu Lv. subst r. rewrite firstn_app, skipn_app, Nat.sub_diag, firstn_all, skipn_all. cbn. rewrite app_nil_r. auto. }
  destruct (attains (r + c) 1 K f) as (w & (Lw & O1 & O2 & S1 & S2) & Max).
  - lra.
  - exists (zeros r ++ zeros c). destruct (Pair (zeros r) (zeros c)) as [E1 E2]; try apply zeros_length. unfold K. rewrite E1, E2, app_length, !zeros_length, !sqn_zeros. repeat split; auto; try lra; try (apply off_zeros; auto); try apply zeros_length; intros; rewrite dot_zeros_r; auto.
  - intros w (Lw & _ & _ & S1 & S2). split; auto. intros i Hi. rewrite <- (firstn_skipn r w). assert (Lf : length (firstn r w) = r) by (rewrite firstn_length; lia).
    assert (Sq : forall a : R, a * a <= 1 -> Rabs a <= 1) by (intros a Ha; apply Rabs_le; split; nra). apply Sq.
    destruct (Nat.lt_ge_cases i r); [rewrite app_nth1 by lia|rewrite app_nth2 by lia]; eapply Rle_trans; try apply coord_le; auto.
  - intros w [Lw _] NK.
    destruct (classic (exists i, (i < length us)%nat /\ dot (row us i) (firstn r w) <> 0)) as [(i & Hi & H)|N1].
    { assert (C : cont (r + c) (fun w => dot (row us i) (firstn r w))) by (apply (cont_dot (r + c) r); auto; rewrite <- (proj1 Ou i Hi); apply vcont_const).
      destruct (closed_eq _ _ 0 C w Lw H) as (d & Hd & G). exists d. split; auto. intros y Cy (_ & (_ & Z) & _). apply (G y Cy). auto. }
    destruct (classic (exists i, (i < length vs)%nat /\ dot (row vs i) (skipn r w) <> 0)) as [(i & Hi & H)|N2].
    { assert (C : cont (r + c) (fun w => dot (row vs i) (skipn r w))) by (apply (cont_dot (r + c) c); auto; rewrite <- (proj1 Ov i Hi); apply vcont_const).
      destruct (closed_eq _ _ 0 C w Lw H) as (d & Hd & G). exists d. split; auto. intros y Cy (_ & _ & (_ & Z) & _). apply (G y Cy). auto. }
    destruct (Rle_dec (sqn (firstn r w)) 1) as [H1|H1].
    2: { destruct (closed_le _ (fun w => sqn (firstn r w)) 1 (cont_dot (r + c) r _ _ V1 V1) w Lw H1) as (d & Hd & G). exists d. split; auto. intros y Cy (_ & _ & _ & Z & _). apply (G y Cy). auto. }
    destruct (Rle_dec (sqn (skipn r w)) 1) as [H2|H2].
    2: { destruct (closed_le _ (fun w => sqn (skipn r w)) 1 (cont_dot (r + c) c _ _ V2 V2) w Lw H2) as (d & Hd & G). exists d. split; auto. intros y Cy (_ & _ & _ & _ & Z). apply (G y Cy). auto. }
    exfalso. apply NK. unfold K. repeat split; auto; try (rewrite firstn_length; lia); try (rewrite skipn_length; lia); intros i Hi; apply NNPP; intros H; [apply N1|apply N2]; exists i; auto.
  - intros x (Lx & _) e He. destruct (Cf x Lx e He) as (d & Hd & H). exists d. split; auto. intros y Cy _. specialize (H y Cy). apply Rabs_def2 in H. lra.
  - exists (firstn r w), (skipn r w). assert (L1 := proj1 O1). assert (L2 := proj1 O2). split; [auto|]. split; [auto|]. split; [auto|]. split; [auto|].
    intros u' v' Ou' Ov' Su Sv. destruct (Pair u' v' (proj1 Ou') (proj1 Ov')) as [E1 E2].
    pose proof (Max (u' ++ v')) as G. unfold K, f in G. rewrite E1, E2, app_length, (proj1 Ou'), (proj1 Ov') in G. rewrite !bil_l by (auto; apply Ou' || apply Ov'). apply G. auto.
Qed.
Lemma best_unit : forall us vs, orthonormal r us -> orthonormal c vs -> (length us < r)%nat -> (length vs < c)%nat -> exists u v s, 0 <= s /\ off_rows r us u /\ off_rows c vs v /\ norm u = 1 /\ norm v = 1 /\ dot X (rank1 u v) = s /\
  forall u' v', off_rows r us u' -> off_rows c vs v' -> dot X (rank1 u' v') <= s * norm u' * norm v'.
Proof.
  intros us vs Ou Ov Hu Hv. destruct (best_pair us vs Ou Ov) as (u & v & Fu & Fv & Su & Sv & Max). set (s := dot X (rank1 u v)) in *.
  assert (Hs : 0 <= s). { pose proof (Max (zeros r) (zeros c) (off_zeros _ _ Ou) (off_zeros _ _ Ov)) as G. rewrite !sqn_zeros in G. rewrite bil_l, dot_zeros_l in G by apply zeros_length. lra. }
  assert (N1 : forall x : vec, sqn x <= 1 <-> norm x <= 1) by (intros x; rewrite norm_le_iff by lra; rewrite Rmult_1_r; tauto).
  assert (Hom : forall u' v', off_rows r us u' -> off_rows c vs v' -> dot X (rank1 u' v') <= s * norm u' * norm v').
  { intros u' v' Fu' Fv'. pose proof (norm_nonneg u') as Pu. pose proof (norm_nonneg v') as Pv.
    assert (Z : norm u' * norm v' = 0 \/ 0 < norm u' * norm v') by (assert (0 <= norm u' * norm v') by nra; lra). destruct Z as [Z|Z].
    - pose proof (cauchy_schwarz X (rank1 u' v') ltac:(rewrite rank1_length, (proj1 Fu'), (proj1 Fv'); congruence)) as C. rewrite norm_rank1, Z in C. rewrite Rmult_assoc, Z. lra.
    - assert (0 < norm u') by nra. assert (0 < norm v') by nra.
      assert (T : dot X (rank1 (vscal (/ norm u') u') (vscal (/ norm v') v')) <= s) by (apply Max; try (apply off_scal; auto); apply N1; rewrite norm_scal, Rabs_inv, Rabs_right by lra; rewrite Rinv_l by lra; lra).
      rewrite rank1_scal, dot_scal_r in T. apply (Rmult_le_compat_l (norm u' * norm v')) in T; [|lra]. rewrite <- Rmult_assoc in T.
      replace (norm u' * norm v' * (/ norm u' * / norm v')) with 1 in T by (field; lra). lra. }
  destruct (Req_EM_T s 0) as [Z|Z].
  - destruct (room r us Ou Hu) as (u0 & F0 & E0). destruct (room c vs Ov Hv) as (v0 & G0 & E1). exists u0, v0, s. repeat split; auto; try (apply F0); try (apply G0).
    pose proof (Hom u0 v0 F0 G0) as H1. pose proof (Hom (vscal (-1) u0) v0 (off_scal _ _ _ _ F0) G0) as H2. rewrite <- (vscal_1 v0), rank1_scal, dot_scal_r, vscal_1 in H2. rewrite Z in *. lra.
  - exists u, v, s. pose proof (Hom u v Fu Fv) as H. fold s in H. apply N1 in Su. apply N1 in Sv. pose proof (norm_nonneg u). pose proof (norm_nonneg v).
    assert (norm u * norm v >= 1) by (apply Rle_ge; apply (Rmult_le_reg_l s); lra). assert (norm u = 1) by nra. assert (norm v = 1) by nra. repeat split; auto; try apply Fu; try apply Fv.
Qed.
Lemma descending_app : forall d a, descending d -> (forall b, In b d -> a <= b) -> descending (d ++ [a]).
Proof.
  induction d as [|x d IH]; intros a D H; [cbn; auto|]. destruct d as [|y d]; [cbn; split; auto; apply H; left; auto|]. cbn [app] in *. destruct D as [D1 D2]. split; auto. apply IH; auto. intros b Hb. apply H. right. auto.
Qed.
Lemma grow : forall us d vs, partial_svd us d vs -> (length us < r)%nat -> (length us < c)%nat -> exists u s v, partial_svd (us ++ [u]) (d ++ [s]) (vs ++ [v]).
Proof.
  intros us d vs P Hr Hc. destruct P as [Ld Lv Ou Ov Pos Desc AV AU Bd]. destruct (best_unit us vs Ou Ov Hr ltac:(lia)) as (u & v & s & Hs & Fu & Fv & Nu & Nv & E & Max).
  assert (Lu := proj1 Fu). assert (Lvv := proj1 Fv). assert (LAv : length (mat_vec A v) = r) by (unfold mat_vec; rewrite map_length; exact A_len). assert (LAu : length (mat_tvec c A u) = c) by (apply mat_tvec_length, A_rows).
  assert (Su : sqn u = 1) by (rewrite <- norm_sq, Nu; ring). assert (Sv : sqn v = 1) by (rewrite <- norm_sq, Nv; ring).
  assert (FAv : off_rows r us (mat_vec A v)).
  { split; auto. intros i Hi. pose proof (proj1 Ou i Hi). rewrite <- bil_l, bil_r, AU, dot_scal_r, dot_comm by auto. rewrite (proj2 Fv) by lia. ring. }
  assert (FAu : off_rows c vs (mat_tvec c A u)).
  { split; auto. intros i Hi. pose proof (proj1 Ov i Hi). rewrite <- bil_r, bil_l, AV, dot_scal_r, dot_comm by (auto; lia). rewrite (proj2 Fu) by lia. ring. }
  assert (KV : mat_vec A v = vscal s u).
  { pose proof (Max _ _ FAv Fv) as H. rewrite bil_l, Nv in H by auto. fold (sqn (mat_vec A v)) in H. assert (N : norm (mat_vec A v) <= s). { pose proof (norm_nonneg (mat_vec A v)). rewrite <- norm_sq in H. nra. }
    apply norm_le_iff in N; auto. apply vsub_eq_zero; [rewrite vscal_length; congruence|].
    rewrite sqn_sub by (rewrite vscal_length; congruence). rewrite sqn_scal, dot_scal_r, Su, dot_comm, <- bil_l, E by auto. pose proof (sqn_nonneg (vsub (mat_vec A v) (vscal s u))) as Q. rewrite sqn_sub in Q by (rewrite vscal_length; congruence). rewrite sqn_scal, dot_scal_r, Su, dot_comm, <- bil_l, E in Q by auto. nra. }
  assert (KU : mat_tvec c A u = vscal s v).
  { pose proof (Max _ _ Fu FAu) as H. rewrite bil_r, Nu in H by auto. fold (sqn (mat_tvec c A u)) in H. assert (N : norm (mat_tvec c A u) <= s). { pose proof (norm_nonneg (mat_tvec c A u)). rewrite <- norm_sq in H. nra. }
    apply norm_le_iff in N; auto. apply vsub_eq_zero; [rewrite vscal_length; congruence|].
    rewrite sqn_sub by (rewrite vscal_length; congruence). rewrite sqn_scal, dot_scal_r, Sv, dot_comm, <- bil_r, E by auto. pose proof (sqn_nonneg (vsub (mat_tvec c A u) (vscal s v))) as Q. rewrite sqn_sub in Q by (rewrite vscal_length; congruence). rewrite sqn_scal, dot_scal_r, Sv, dot_comm, <- bil_r, E in Q by auto. nra. }
  assert (Ro : forall (l : list vec) a i, (i < length l)%nat -> row (l ++ [a]) i = row l i) by (intros; apply app_nth1; auto).
  assert (Re : forall (l : list vec) a, row (l ++ [a]) (length l) = a) by (intros; unfold row; rewrite app_nth2, Nat.sub_diag; auto).
  exists u, s, v. constructor.
  - rewrite !app_length. cbn. lia.
  - rewrite !app_length. cbn. lia.
  - apply family_add; auto.
  - apply family_add; auto.
  - apply Forall_app. split; auto.
  - apply descending_app; auto. intros b Hb. pose proof (Bd u v b Fu Fv Hb) as H. rewrite Nu, Nv, E in H. lra.
  - intros i Hi. rewrite app_length in Hi. cbn in Hi. destruct (Nat.eq_dec i (length us)) as [->|N].
    + rewrite Re. rewrite <- Lv, Re. rewrite Lv, <- Ld, app_nth2, Nat.sub_diag by lia. auto.
    + rewrite !Ro, app_nth1 by lia. apply AV. lia.
  - intros i Hi. rewrite app_length in Hi. cbn in Hi. destruct (Nat.eq_dec i (length us)) as [->|N].
    + rewrite Re. rewrite <- Lv, Re. rewrite Lv, <- Ld, app_nth2, Nat.sub_diag by lia. auto.
    + rewrite !Ro, app_nth1 by lia. apply AU. lia.
  - intros u' v' b F1 F2 Hb. assert (Dn : forall n (l : list vec) a x, off_rows n (l ++ [a]) x -> off_rows n l x).
    { intros n l a x [L H]. split; auto. intros i Hi. rewrite <- (Ro l a i Hi). apply H. rewrite app_length. cbn. lia. }
    apply in_app_or in Hb. destruct Hb as [Hb|[<-|[]]]; [apply (Bd u' v' b); eauto|apply Max; eauto].
Qed.
Lemma grown : forall j, (j <= r)%nat -> (j <= c)%nat -> exists us d vs, length us = j /\ partial_svd us d vs.
Proof.
  induction j as [|j IH]; intros Hr Hc.
  - exists [], [], []. split; auto. constructor; cbn; auto; try (split; cbn; intros; lia); try (intros; lia); intros; contradiction.
  - destruct IH as (us & d & vs & L & P); try lia. destruct (grow us d vs P ltac:(lia) ltac:(lia)) as (u & s & v & P'). exists (us ++ [u]), (d ++ [s]), (vs ++ [v]). split; auto. rewrite app_length. cbn. lia.
Qed.
Theorem svd_exists : exists us d vs, is_svd r c X us d vs.
Proof.
  destruct (grown (Nat.min r c)) as (us & d & vs & L & P); try lia. destruct P as [Ld Lv Ou Ov Pos Desc AV AU _]. exists us, d, vs. constructor; auto; try congruence.
  assert (LU := usv_length r c us d vs ltac:(congruence) Ou Ov). set (W := vsub X (usv (r * c) us d vs)). assert (LW : length W = (r * c)%nat) by (unfold W; rewrite vsub_length; congruence).
  assert (W0 : forall i u v, (i < length us)%nat -> length u = r -> length v = c -> dot W (rank1 (row us i) v) = 0 /\ dot W (rank1 u (row vs i)) = 0).
  { intros i u v Hi Lu Lvv. pose proof (proj1 Ou i Hi) as L1. pose proof (proj1 Ov i ltac:(lia)) as L2. unfold W.
    rewrite !dot_sub_l by (rewrite ?rank1_length; congruence). rewrite !usv_bil by (auto; congruence). split.
    - rewrite bil_r, AU, dot_scal_r by auto. rewrite (sum_over_single _ i) by first [assumption | intros m Hm N; rewrite (proj2 Ou m i) by auto; destruct (Nat.eq_dec m i); [congruence|ring]].
      rewrite (proj2 Ou i i) by auto. destruct (Nat.eq_dec i i); [|congruence]. rewrite (dot_comm v). ring.
    - rewrite bil_l, AV, dot_scal_r by auto. rewrite (sum_over_single _ i) by first [assumption | intros m Hm N; rewrite (proj2 Ov m i) by lia; destruct (Nat.eq_dec m i); [congruence|ring]].
      rewrite (proj2 Ov i i) by lia. destruct (Nat.eq_dec i i); [|congruence]. rewrite (dot_comm u). ring. }
  assert (WZ : W = zeros (r * c)).
  { apply bil_zero; auto. intros u v Lu Lvv. pose proof (P_block.rows_lengths r c W LW) as FW. assert (LR : forall u : vec, length u = r -> length u = length (rows r c W)) by (intros w Hw; rewrite Hw; symmetry; apply P_block.rows_length). destruct (Nat.le_ge_cases r c) as [H|H].
    - rewrite (bil_rows r c) by auto. rewrite (family_full r us Ou) with (x := mat_vec (rows r c W) v); [apply dot_zeros_r|lia|]. split; [unfold mat_vec; rewrite map_length; apply P_block.rows_length|].
      intros i Hi. pose proof (proj1 Ou i Hi). rewrite <- (bil_rows r c) by auto. exact (proj1 (W0 i u v Hi Lu Lvv)).
    - rewrite (bil_rows r c), dot_comm, (mat_adjoint c) by auto. rewrite (family_full c vs Ov) with (x := mat_tvec c (rows r c W) u); [apply dot_zeros_r|lia|]. split; [apply mat_tvec_length; auto|].
      intros i Hi. pose proof (proj1 Ov i Hi). rewrite <- (mat_adjoint c), dot_comm, <- (bil_rows r c) by auto. exact (proj2 (W0 i u v ltac:(lia) Lu Lvv)). }
  apply vsub_eq_zero; [congruence|]. fold W. rewrite WZ, sqn_zeros. lra.
Qed.
End Exists.

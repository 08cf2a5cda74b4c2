(** iszero and true_center of quadratics (C112). *)
From Coq Require Import Reals List Lra Lia Arith Bool.
From Verif Require Import Vec Spec M_quad P_quad.
Import ListNotations.
Local Open Scope R_scope.

Lemma fiszero_spec : forall n f, fshape n f -> (1 <= n)%nat -> (fiszero f = true <-> fbcast n f = zeros n).
Proof.
  intros n f S Hn. destruct f as [|c|v]; cbn in *.
  - tauto.
  - destruct (Req_EM_T c 0) as [->|N]; [split; auto; intros _; apply const_vec_0|]. split; [discriminate|]. intros E. exfalso. apply N. destruct n as [|n]; [lia|]. unfold const_vec, zeros in E. cbn in E. congruence.
  - rewrite all_zero_spec, S. tauto.
Qed.
Lemma zero_function : forall n q, (1 <= n)%nat -> q_shape n q -> ((forall x, length x = n -> q_denot n q x = 0) <-> coef q = 0 /\ fbcast n (linear_term q) = zeros n /\ constant_term q = 0).
Proof.
  intros n q Hn [S1 S2]. set (mu := fbcast n (center q)). set (eta := fbcast n (linear_term q)). assert (Lm : length mu = n) by (apply fbcast_length; auto). assert (Le : length eta = n) by (apply fbcast_length; auto).
  unfold q_denot, quad_fun. fold mu eta. split.
  - intros H. assert (V : forall d t, length d = n -> coef q / 2 * (t * t * sqn d) + (dot eta mu + t * dot eta d) + constant_term q = 0).
    { intros d t Ld. specialize (H (vadd mu (vscal t d))). rewrite dot_add_r, dot_scal_r in H by vlen. replace (vsub (vadd mu (vscal t d)) mu) with (vscal t d) in H.
      - rewrite sqn_scal in H. apply H. vlen.
      - clearbody mu. clear - Lm Ld. revert d mu Lm Ld. induction n as [|m IH]; intros [|b d] [|a mu] Lm Ld; try discriminate; auto. unfold vsub, vadd, vscal in *. cbn [map vzip]. rewrite <- IH by (cbn in *; congruence). f_equal. ring. }
    assert (U : exists d, length d = n /\ 0 < sqn d). { exists (1 :: zeros (n - 1)). split; [cbn; rewrite zeros_length; lia|]. unfold sqn. cbn. assert (E := sqn_zeros (n - 1)). unfold sqn, dot in *. cbn. unfold vsum in *. cbn. lra. }
    destruct U as (d & Ld & Pd). assert (V0 := V d 0 Ld). assert (V1 := V d 1 Ld). assert (V2 := V d (-1) Ld). assert (C : coef q = 0) by nra. split; auto.
    assert (K : dot eta eta = 0). { assert (W := V eta 1 Le). assert (W0 := V eta 0 Le). rewrite C in *. lra. }
    assert (E : eta = zeros n) by (rewrite <- Le; apply sqn_eq_zero; exact K). split; auto. rewrite C, E in V0. rewrite !dot_zeros_l in V0. lra.
  - intros (C & E & K) x Lx. rewrite C, E, K, dot_zeros_l. lra.
Qed.
Lemma iszero_meaning : forall n q, (1 <= n)%nat -> q_shape n q -> (iszero q = true <-> (forall x, length x = n -> q_denot n q x = 0) /\ fbcast n (center q) = zeros n).
Proof.
  intros n q Hn S. rewrite zero_function by auto. destruct S as [S1 S2]. unfold iszero. rewrite !andb_true_iff, (fiszero_spec n (center q)), (fiszero_spec n (linear_term q)) by auto.
  destruct (Req_EM_T (coef q) 0), (Req_EM_T (constant_term q) 0); intuition (try discriminate).
Qed.
Lemma complete_square : forall n L l c x, 0 < L -> length l = n -> length x = n -> quad_fun L (zeros n) l c x = quad_fun L (zeros n) l c (vscal (- / L) l) + L / 2 * sqn (vsub x (vscal (- / L) l)).
Proof.
  intros n L l c x P Ll Lx. unfold quad_fun. rewrite !vsub_zeros_r by vlen. rewrite sqn_sub by vlen. rewrite !dot_scal_r, !sqn_scal, (dot_comm x l). change (dot l l) with (sqn l). field. lra.
Qed.
Lemma center_minimizes : forall n q c, q_shape n q -> true_center q = Some c -> fshape n c /\ is_unique_argmin n (fun x => Fin (q_denot n q x)) (fbcast n c).
Proof.
  intros n q c S. unfold true_center. destruct (Rlt_dec 0 (coef (collapsed q))) as [P|]; [|discriminate]. intros E. assert (Ec : c = fscale (/ coef (collapsed q)) (fscale (-1) (linear_term (collapsed q)))) by congruence. clear E. subst c. assert (Sc := collapsed_shape n q S). destruct Sc as [Sa Sl].
  split; [repeat apply fscale_shape; auto|]. set (l := fbcast n (linear_term (collapsed q))). assert (Ll : length l = n) by (apply fbcast_length; auto). set (L := coef (collapsed q)) in *.
  assert (Eb : fbcast n (fscale (/ L) (fscale (-1) (linear_term (collapsed q)))) = vscal (/ L) (vscal (-1) l)) by (rewrite !fscale_bcast; reflexivity).
  assert (Ev : vscal (/ L) (vscal (-1) l) = vscal (- / L) l). { unfold vscal. rewrite map_map. apply map_ext. intros a. ring. } rewrite Eb, Ev. set (p := vscal (- / L) l). assert (Lp : length p = n) by (unfold p; vlen).
  assert (K : forall x, length x = n -> q_denot n q x = q_denot n q p + L / 2 * sqn (vsub x p)).
  { intros x Lx. assert (C1 := collapsed_denot_const n q x S Lx). assert (C2 := collapsed_denot_const n q p S Lp). unfold q_denot in C1, C2. rewrite collapsed_center in C1, C2. cbn [fbcast] in C1, C2. rewrite const_vec_0 in C1, C2. fold l L in C1, C2.
    rewrite (complete_square n L l _ x P Ll Lx) in C1. fold p in C1. unfold q_denot. lra. }
  split.
  - split; auto. split; [eauto|]. intros v Lv. cbn. rewrite (K v Lv). assert (N := sqn_nonneg (vsub v p)). assert (0 <= L / 2 * sqn (vsub v p)) by (apply Rmult_le_pos; lra). lra.
  - intros v Lv H. cbn in H. rewrite (K v Lv) in H. assert (N := sqn_nonneg (vsub v p)). assert (Z : sqn (vsub v p) = 0) by nra. apply sqn_eq_zero in Z. rewrite vsub_length in Z by congruence.
    clearbody p. clear - Z Lv Lp. assert (E : v = vadd p (vsub v p)). { clear Z. revert v p Lv Lp. induction n as [|m IH]; intros [|a v] [|b p] Lv Lp; try discriminate; auto. unfold vsub, vadd in *. cbn [vzip]. rewrite <- IH by (cbn in *; congruence). f_equal. ring. }
    rewrite Z in E. rewrite E. apply vadd_zeros_r. congruence.
Qed.
Lemma no_center : forall n q, (1 <= n)%nat -> q_shape n q -> (true_center q = None <-> ~ exists p, is_unique_argmin n (fun x => Fin (q_denot n q x)) p).
Proof.
  intros n q Hn S. split.
  - intros E (p & (Lp & _ & M) & U). unfold true_center in E. destruct (Rlt_dec 0 (coef (collapsed q))) as [|P]; [discriminate|]. change (coef (collapsed q)) with (coef q) in P.
    destruct S as [S1 S2]. set (mu := fbcast n (center q)) in *. set (eta := fbcast n (linear_term q)) in *. assert (Lm : length mu = n) by (apply fbcast_length; auto). assert (Le : length eta = n) by (apply fbcast_length; auto).
    set (d := 1 :: zeros (n - 1)). assert (Ld : length d = n) by (unfold d; cbn; rewrite zeros_length; lia).
    assert (V : forall t, q_denot n q (vadd p (vscal t d)) = q_denot n q p + t * (coef q * dot (vsub p mu) d + dot eta d) + coef q / 2 * (t * t) * sqn d).
    { intros t. unfold q_denot, quad_fun. fold mu eta. replace (vsub (vadd p (vscal t d)) mu) with (vsub (vsub p mu) (vscal (- t) d)).
      - rewrite sqn_sub by vlen. rewrite dot_add_r, !dot_scal_r, sqn_scal by vlen. field.
      - clearbody mu d. clear - Lp Lm Ld. revert p mu d Lp Lm Ld. induction n as [|m IH]; intros [|a p] [|b mu] [|e d] Lp Lm Ld; try discriminate; auto. unfold vsub, vadd, vscal in *. cbn [map vzip]. rewrite IH by (cbn in *; congruence). f_equal. ring. }
    set (s := coef q * dot (vsub p mu) d + dot eta d) in *.
    assert (N : 0 <= sqn d) by apply sqn_nonneg.
    assert (X : exists t, (t = 1 \/ t = -1) /\ t * s <= 0) by (destruct (Rle_dec s 0); [exists 1|exists (-1)]; split; auto; lra). destruct X as (t & Ht & Hs).
    assert (Q : vadd p (vscal t d) = p). { apply U; [vlen|]. cbv beta. cbn [ext_le]. rewrite V. destruct Ht as [-> | ->]; nra. }
    destruct p as [|a p]; [cbn in Lp; lia|]. unfold d in Q. unfold vadd, vscal in Q. cbn in Q. injection Q as Q _. destruct Ht as [-> | ->]; lra.
  - intros N. destruct (true_center q) as [c|] eqn:E; auto. exfalso. apply N. exists (fbcast n c). apply (center_minimizes n q c S E).
Qed.
Lemma nonzero_center : forall n v, length v = n -> v <> zeros n -> let q := mk_iq 0 (FVec v) (FScal 0) 0 in (forall x, q_denot n q x = 0) /\ iszero q = false.
Proof.
  intros n v Lv N q. split.
  - intros x. unfold q_denot, quad_fun. cbn [coef center linear_term constant_term q fbcast]. rewrite const_vec_0, dot_zeros_l. lra.
  - unfold iszero. cbn. destruct (all_zero v) eqn:E; [|rewrite andb_false_r; auto]. exfalso. apply all_zero_spec in E. congruence.
Qed.

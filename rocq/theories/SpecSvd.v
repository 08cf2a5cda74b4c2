(** Matrices stored row by row, their singular value decompositions, the operator norm and the nuclear norm. *)
From Coq Require Import Reals List Lra Lia Arith.
From Verif Require Import M_affine Vec Spec SpecPart SpecBlock SpecLinear.
Require Verif.P_cones Verif.P_block Verif.P_affine2.
Import ListNotations.
Local Open Scope R_scope.

(** u v^T; [dot X (rank1 u v)] is u^T X v *)
Definition rank1 (u v : vec) : vec := concat (map (fun a => vscal a v) u).
Fixpoint rank1s (us vs : list vec) : list vec := match us, vs with u :: us', v :: vs' => rank1 u v :: rank1s us' vs' | _, _ => [] end.
(** U diag(d) V: the sum of the d_i u_i v_i^T *)
Definition usv (n : nat) (us : list vec) (d : vec) (vs : list vec) : vec := mat_tvec n (rank1s us vs) d.
Fixpoint descending (d : vec) : Prop := match d with a :: ((b :: _) as d') => b <= a /\ descending d' | _ => True end.
(** us: the columns of U, vs: the rows of V. This is what numpy.linalg.svd(X, full_matrices=False) promises. *)
Record is_svd (r c : nat) (X : vec) (us : list vec) (d : vec) (vs : list vec) : Prop := mk_is_svd {
  sv_u : length us = Nat.min r c; sv_d : length d = Nat.min r c; sv_v : length vs = Nat.min r c;
  sv_ou : orthonormal r us; sv_ov : orthonormal c vs;
  sv_pos : Forall (fun a => 0 <= a) d; sv_desc : descending d;
  sv_eq : X = usv (r * c) us d vs }.

(** The operator norm is the largest u^T X v over u, v of norm at most 1 *)
Definition op_set (r c : nat) (X : vec) (s : R) : Prop :=
  exists u v, length u = r /\ length v = c /\ norm u <= 1 /\ norm v <= 1 /\ s = dot X (rank1 u v).
(** The nuclear norm is the largest tr(X^T Y) over Y of operator norm at most 1 *)
Definition nuc_set (r c : nat) (X : vec) (s : R) : Prop :=
  exists Y, length Y = (r * c)%nat /\ (forall t, op_set r c Y t -> t <= 1) /\ s = dot X Y.

(** Both are finite, so that they can be defined as least upper bounds *)
Lemma rank1_length : forall u v, length (rank1 u v) = (length u * length v)%nat.
Proof. induction u as [|a u IH]; intros v; cbn; auto. rewrite app_length, vscal_length. unfold rank1 in IH. rewrite IH. auto. Qed.
Lemma dot_rank1 : forall u v u' v', length u = length u' -> length v = length v' -> dot (rank1 u v) (rank1 u' v') = dot u u' * dot v v'.
Proof.
  intros u v u'. revert u. induction u' as [|a' u' IH]; intros [|a u] v' Lu Lv; try discriminate; cbn [rank1 map concat].
  - rewrite !dot_nil_l. ring.
  - fold (rank1 u v) (rank1 u' v'). rewrite P_cones.dot_app by (rewrite !vscal_length; auto). rewrite IH by (cbn in Lu; auto). rewrite dot_scal_l, dot_scal_r, dot_cons. ring.
Qed.
Lemma norm_rank1 : forall u v, norm (rank1 u v) = norm u * norm v.
Proof. intros u v. unfold norm, sqn. rewrite dot_rank1 by auto. apply sqrt_mult; apply sqn_nonneg. Qed.
Lemma op_bounded : forall r c X, length X = (r * c)%nat -> is_upper_bound (op_set r c X) (norm X).
Proof.
  intros r c X LX s (u & v & Lu & Lv & Nu & Nv & ->). eapply Rle_trans; [apply cauchy_schwarz; rewrite rank1_length; congruence|].
  rewrite norm_rank1. pose proof (norm_nonneg X). pose proof (norm_nonneg u). pose proof (norm_nonneg v). assert (norm u * norm v <= 1) by nra. nra.
Qed.
Lemma op_zero : forall r c X, op_set r c X 0.
Proof.
  intros r c X. exists (zeros r), (zeros c). rewrite !zeros_length, !norm_zeros. repeat split; try lra.
  replace (rank1 (zeros r) (zeros c)) with (zeros (r * c)); [rewrite dot_zeros_r; auto|].
  unfold rank1, zeros. induction r as [|r IH]; cbn; auto. rewrite repeat_app, IH. f_equal. unfold vscal. clear. induction c; cbn; [auto|rewrite <- IHc; f_equal; ring].
Qed.
(** dot X Y row by row *)
Lemma dot_rows : forall r c X Y, length X = (r * c)%nat -> length Y = (r * c)%nat -> dot X Y = vsum (map (fun p => dot (fst p) (snd p)) (combine (rows r c X) (rows r c Y))).
Proof.
  induction r as [|r IH]; intros c X Y LX LY; cbn [rows combine map].
  - destruct X; [|discriminate]. rewrite dot_nil_l. auto.
  - rewrite vsum_cons, <- IH by (rewrite skipn_length; cbn in *; lia). cbn [fst snd]. rewrite <- P_cones.dot_app by (rewrite !firstn_length; cbn in *; lia). rewrite !firstn_skipn. auto.
Qed.
Lemma bil_rows : forall r c X u v, length X = (r * c)%nat -> length u = r -> length v = c -> dot X (rank1 u v) = dot u (mat_vec (rows r c X) v).
Proof.
  induction r as [|r IH]; intros c X [|a u] v LX Lu Lv; try discriminate; cbn [rows mat_vec map rank1 concat].
  - destruct X; [|discriminate]. auto.
  - fold (rank1 u v) (mat_vec (rows r c (skipn c X)) v). rewrite dot_cons, <- IH by (auto; try rewrite skipn_length; cbn in *; lia).
    rewrite <- (firstn_skipn c X) at 1. rewrite P_cones.dot_app by (rewrite firstn_length, vscal_length; cbn in *; lia). rewrite dot_scal_r. auto.
Qed.
Lemma rank1_scal : forall a b u v, rank1 (vscal a u) (vscal b v) = vscal (a * b) (rank1 u v).
Proof.
  intros a b u v. induction u as [|x u IH]; auto. unfold rank1, vscal in *. cbn [map concat]. rewrite map_app, <- IH. f_equal. rewrite !map_map. apply map_ext. intros y. ring.
Qed.
Lemma op_le : forall r c Y s, length Y = (r * c)%nat -> (forall t, op_set r c Y t -> t <= s) -> forall u v, length u = r -> length v = c -> dot Y (rank1 u v) <= s * norm u * norm v.
Proof.
  intros r c Y s LY H u v Lu Lv. pose proof (norm_nonneg u) as Pu. pose proof (norm_nonneg v) as Pv.
  assert (Z : norm u * norm v = 0 \/ 0 < norm u * norm v) by (assert (0 <= norm u * norm v) by nra; lra). destruct Z as [Z|Z].
  - pose proof (cauchy_schwarz Y (rank1 u v) ltac:(rewrite rank1_length; congruence)) as C. rewrite norm_rank1, Z in C. rewrite Rmult_assoc, Z. lra.
  - assert (0 < norm u) by nra. assert (0 < norm v) by nra.
    assert (T : dot Y (rank1 (vscal (/ norm u) u) (vscal (/ norm v) v)) <= s).
    { apply H. exists (vscal (/ norm u) u), (vscal (/ norm v) v). rewrite !vscal_length, !norm_scal, !Rabs_inv, !Rabs_right by lra. rewrite !Rinv_l by lra. repeat split; auto; lra. }
    rewrite rank1_scal, dot_scal_r in T. apply (Rmult_le_compat_l (norm u * norm v)) in T; [|lra]. rewrite <- Rmult_assoc in T.
    replace (norm u * norm v * (/ norm u * / norm v)) with 1 in T by (field; lra). lra.
Qed.
Lemma row_le : forall r c Y s, 0 <= s -> length Y = (r * c)%nat -> (forall t, op_set r c Y t -> t <= s) -> Forall (fun y => norm y <= s) (rows r c Y).
Proof.
  intros r c Y s Hs LY H. pose proof (P_block.rows_lengths r c Y LY) as F. apply Forall_forall. intros y Iy.
  destruct (In_nth _ _ [] Iy) as (i & Hi & E). rewrite P_block.rows_length in Hi. assert (Ly : length y = c) by (exact (proj1 (Forall_forall _ _) F y Iy)).
  assert (Le : forall n j, length (map (fun k => if Nat.eqb k j then 1 else 0) (seq 0 n)) = n) by (intros; rewrite map_length, seq_length; auto).
  pose proof (op_le r c Y s LY H (unit_vec r i) y (Le _ _) Ly) as T. rewrite (bil_rows r c) in T by (auto; apply Le).
  rewrite dot_comm in T. rewrite (P_affine2.dot_unit r i) in T by (auto; unfold mat_vec; rewrite map_length, P_block.rows_length; auto).
  assert (En : nth i (mat_vec (rows r c Y) y) 0 = sqn y).
  { unfold mat_vec. rewrite (nth_indep _ 0 (dot [] y)) by (rewrite map_length, P_block.rows_length; auto). rewrite (map_nth (fun q => dot q y)). unfold sqn. f_equal. exact E. }
  rewrite En in T. assert (N1 : norm (unit_vec r i) = 1).
  { unfold norm, sqn. rewrite (P_affine2.dot_unit r i) by (auto; apply Le). unfold unit_vec. rewrite (nth_indep _ 0 ((fun k => if Nat.eqb k i then 1 else 0) 0%nat)) by (rewrite Le; auto).
    rewrite (map_nth (fun k => if Nat.eqb k i then 1 else 0)), seq_nth by auto. cbn. rewrite Nat.eqb_refl. apply sqrt_1. }
  rewrite N1 in T. rewrite <- norm_sq in T. pose proof (norm_nonneg y). nra.
Qed.
Lemma nuc_bounded : forall r c X, length X = (r * c)%nat -> is_upper_bound (nuc_set r c X) (vsum (map norm (rows r c X))).
Proof.
  intros r c X LX s (Y & LY & HY & ->). rewrite (dot_rows r c) by auto. pose proof (row_le r c Y 1 ltac:(lra) LY HY) as F. pose proof (P_block.rows_lengths r c X LX) as FX. pose proof (P_block.rows_lengths r c Y LY) as FY.
  assert (L : length (rows r c X) = length (rows r c Y)) by (rewrite !P_block.rows_length; auto). revert L FX FY F. generalize (rows r c X) as xs, (rows r c Y) as ys.
  induction xs as [|x xs IH]; intros [|y ys] L FX FY F; try discriminate; cbn [combine map]; [lra|]. rewrite !vsum_cons. cbn [fst snd].
  inversion F; inversion FX; inversion FY; subst. pose proof (cauchy_schwarz x y ltac:(congruence)). pose proof (norm_nonneg x). assert (norm x * norm y <= norm x) by nra. pose proof (IH ys ltac:(cbn in L; lia) ltac:(auto) ltac:(auto) ltac:(auto)). lra.
Qed.
Lemma nuc_zero : forall r c X, length X = (r * c)%nat -> nuc_set r c X 0.
Proof.
  intros r c X LX. exists (zeros (r * c)). rewrite zeros_length, dot_zeros_r. repeat split; auto. intros t (u & v & Lu & Lv & Nu & Nv & ->). rewrite dot_zeros_l. lra.
Qed.
Definition op_norm (r c : nat) (X : vec) : R :=
  match Nat.eq_dec (length X) (r * c) with
  | left L => proj1_sig (completeness (op_set r c X) (ex_intro _ _ (op_bounded r c X L)) (ex_intro _ 0 (op_zero r c X)))
  | right _ => 0
  end.
Definition nuc_norm (r c : nat) (X : vec) : R :=
  match Nat.eq_dec (length X) (r * c) with
  | left L => proj1_sig (completeness (nuc_set r c X) (ex_intro _ _ (nuc_bounded r c X L)) (ex_intro _ 0 (nuc_zero r c X L)))
  | right _ => 0
  end.

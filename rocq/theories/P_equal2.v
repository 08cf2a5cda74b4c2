(** Proofs about == and copy(): where equal objects differ. *)
From Coq Require Import Reals List ZArith Bool Lra Lia Arith.
From Verif Require Import M_affine Vec Spec M_quad P_quad M_prox M_semi SpecAtom M_shift SpecBase SpecMode M_mode SpecModed M_mixed SpecWeighted M_weighted SpecWatom P_weighted
  M_group SpecGatom M_mixed_atom M_simplex M_linear SpecLinear M_slope SpecSlope SpecSlopeAtom P_slope M_sgl P_gauge P_block3 SpecCone M_cones M_equal P_equal.
Import ListNotations.
Local Open Scope R_scope.

Ltac small := unfold Rabs; repeat match goal with |- context[Rcase_abs ?x] => destruct (Rcase_abs x) end; lra.
Lemma line_yes : forall c s c' s', Rabs (c' - c) <= / 10 ^ 8 -> Rabs (s' - s) <= / 10 ^ 8 + / 10 ^ 5 * Rabs s -> lcon_eq (plane_line c s) (plane_line c' s') = Ok true.
Proof.
  intros c s c' s' H1 H2. rewrite line_eq. assert (0 < / 10 ^ 5) by (apply Rinv_0_lt_compat; apply pow_lt; lra). pose proof (Rabs_pos c).
  destruct (Rle_dec (Rabs (c' - c)) _) as [|N]; [|exfalso; apply N; nra]. destruct (Rle_dec (Rabs (s' - s)) _); auto. contradiction.
Qed.
Lemma line_no : forall c s c' s', / 10 ^ 8 + / 10 ^ 5 * Rabs s < Rabs (s' - s) -> lcon_eq (plane_line c s) (plane_line c' s') = Ok false.
Proof. intros c s c' s' H. rewrite line_eq. destruct (Rle_dec (Rabs (c' - c)) _); auto. destruct (Rle_dec (Rabs (s' - s)) _); auto. lra. Qed.
Lemma e8 : / 10 ^ 8 = 1 / 100000000.
Proof. simpl. lra. Qed.
Lemma e5 : / 10 ^ 5 = 1 / 100000.
Proof. simpl. lra. Qed.
(** == between two lines holds in one order and not in the other *)
Theorem lcon_eq_asymmetric : exists a b, orthonormal 2 (l_basis a) /\ orthonormal 2 (l_basis b) /\ lcon_eq a b = Ok true /\ lcon_eq b a = Ok false.
Proof.
  set (d := 39999600001000001). set (c := 39999600000999999 / d). set (s := 2 * 199999000 / d).
  assert (Hd : d = 39999600001000001) by reflexivity. assert (Hc : c = 39999600000999999 / 39999600001000001) by reflexivity. assert (Hs : s = 2 * 199999000 / 39999600001000001) by reflexivity.
  exists (plane_line c s), (plane_line 1 0). split; [apply line_orthonormal; rewrite Hc, Hs; lra|]. split; [apply line_orthonormal; lra|]. split.
  - apply line_yes; rewrite ?e8, ?e5, Hc || rewrite ?e8, ?e5; [small|rewrite Hs; small].
  - apply line_no. rewrite e8, e5, Hs. small.
Qed.
(** and is not transitive *)
Theorem lcon_eq_intransitive : exists a b c, orthonormal 2 (l_basis a) /\ orthonormal 2 (l_basis b) /\ orthonormal 2 (l_basis c) /\
  lcon_eq a b = Ok true /\ lcon_eq b a = Ok true /\ lcon_eq b c = Ok true /\ lcon_eq c b = Ok true /\ lcon_eq a c = Ok false.
Proof.
  set (c := 62499999999999999 / 62500000000000001). set (s := 2 * 250000000 / 62500000000000001).
  assert (Hc : c = 62499999999999999 / 62500000000000001) by reflexivity. assert (Hs : s = 2 * 250000000 / 62500000000000001) by reflexivity.
  clearbody c s.
  assert (U : c * c + s * s = 1) by (rewrite Hc, Hs; lra). assert (C2 : c * c - s * s = 1 - 2 * (s * s)) by lra.
  assert (Bs : 7 / 1000000000 < s < 9 / 1000000000) by (rewrite Hs; lra). assert (Bc : 1 - 1 / 1000000000000 < c < 1) by (rewrite Hc; lra).
  assert (Bss : 0 < s * s < 1 / 1000000000000) by nra. assert (Bcs : 7 / 5 * s < 2 * (c * s) < 2 * s) by nra.
  assert (Bcs' : 2 * (c * s) - s <= s) by lra. assert (G : 2 * (c * s) > 2 * s - 2 / 1000000000000) by nra.
  exists (plane_line 1 0), (plane_line c s), (plane_line (c * c - s * s) (2 * (c * s))).
  split; [apply line_orthonormal; lra|]. split; [apply line_orthonormal; auto|].
  split; [apply line_orthonormal; replace ((c * c - s * s) * (c * c - s * s) + 2 * (c * s) * (2 * (c * s))) with ((c * c + s * s) * (c * c + s * s)) by ring; rewrite U; ring|].
  rewrite C2. repeat split; try (apply line_yes; rewrite ?e8, ?e5; small). apply line_no. rewrite e8, e5. small.
Qed.
(** two different lines that are equal by == *)
Theorem lcon_eq_different : exists a b x, orthonormal 2 (l_basis a) /\ orthonormal 2 (l_basis b) /\ lcon_eq a b = Ok true /\ lcon_eq b a = Ok true /\ in_rows 2 (l_basis a) x /\ ~ in_rows 2 (l_basis b) x.
Proof.
  set (c := 62499999999999999 / 62500000000000001). set (s := 2 * 250000000 / 62500000000000001).
  assert (Hc : c = 62499999999999999 / 62500000000000001) by reflexivity. assert (Hs : s = 2 * 250000000 / 62500000000000001) by reflexivity. clearbody c s.
  exists (plane_line 1 0), (plane_line c s), [1; 0]. split; [apply line_orthonormal; lra|]. split; [apply line_orthonormal; rewrite Hc, Hs; lra|].
  split; [apply line_yes; rewrite e8, ?e5, ?Hc, ?Hs; small|]. split; [apply line_yes; rewrite e8, ?e5, ?Hc, ?Hs; small|]. split.
  - split; auto. exists (fun _ => 1). intros j Hj. destruct j as [|[|j]]; cbn; try lia; lra.
  - intros (_ & a & H). pose proof (H 0%nat ltac:(lia)) as H0. pose proof (H 1%nat ltac:(lia)) as H1. cbn in H0, H1. assert (a 0%nat = 0) by (assert (0 < s) by (rewrite Hs; lra); nra). nra.
Qed.

(** cones, simplex and group cones: offset and quadratic ignored *)
Theorem shape_eq_ignores : forall n o q o' q',
  (forall k, cone_eq (mk_cone k (mk_base n o q)) (mk_cone k (mk_base n o' q')) = true) /\
  (forall c, simplex_eq (mk_simplex c (mk_base n o q)) (mk_simplex c (mk_base n o' q')) = true) /\
  (forall k G w G' w', gcone_eq (mk_gcone k G w (mk_base n o q)) (mk_gcone k G' w' (mk_base n o' q')) = true) /\
  (forall k B, Forall (fun r => length r = n) B -> lcon_eq (mk_lcon k B (mk_base n o q)) (mk_lcon k B (mk_base n o' q')) = Ok true).
Proof.
  intros n o q o' q'. repeat split.
  - intros k. unfold cone_eq. cbn. rewrite Nat.eqb_refl. destruct k; auto.
  - intros c. apply simplex_equality. auto.
  - intros k G w G' w'. unfold gcone_eq. cbn. rewrite Nat.eqb_refl. destruct k; auto.
  - intros k B F. destruct (lcon_equality n (mk_lcon k B (mk_base n o q)) (mk_lcon k B (mk_base n o' q'))) as (e & E & H); auto. rewrite E. f_equal. apply H. cbn. repeat split; auto.
    intros i j Hi Hj. apply near_refl. assert (length (nth i B []) = n). { rewrite Forall_forall in F. apply F. apply nth_In. auto. } unfold vec in *. rewrite H0. exact Hj.
Qed.
Theorem cone_equality : forall a b, cone_eq a b = true <-> c_class a = c_class b /\ b_shape (c_base a) = b_shape (c_base b).
Proof. intros a b. unfold cone_eq. destruct (c_class a), (c_class b); split; intros H; try discriminate; try (destruct H; discriminate); [apply Nat.eqb_eq in H; auto|apply Nat.eqb_eq; tauto|apply Nat.eqb_eq in H; auto|apply Nat.eqb_eq; tauto
 |apply Nat.eqb_eq in H; auto|apply Nat.eqb_eq; tauto|apply Nat.eqb_eq in H; auto|apply Nat.eqb_eq; tauto|apply Nat.eqb_eq in H; auto|apply Nat.eqb_eq; tauto|apply Nat.eqb_eq in H; auto|apply Nat.eqb_eq; tauto
 |apply Nat.eqb_eq in H; auto|apply Nat.eqb_eq; tauto|apply Nat.eqb_eq in H; auto|apply Nat.eqb_eq; tauto|apply Nat.eqb_eq in H; auto|apply Nat.eqb_eq; tauto|apply Nat.eqb_eq in H; auto|apply Nat.eqb_eq; tauto]. Qed.
Theorem cone_copied : forall n a, base_wf n (c_base a) -> cone_copy a = a.
Proof. intros n a W. unfold cone_copy, new_cone. replace (b_shape (c_base a)) with n by (symmetry; apply W). rewrite (new_base_same n) by auto. destruct a; auto. Qed.
(** the feature weights of the sparse group lasso are ignored *)
Theorem sgl_eq_ignores : forall d G lw lw' w m o q o' q', sgl_eq (mk_sgl d G lw w (mk_moded (lag_of m) (bnd_of m) (mk_base (length G) o q))) (mk_sgl d G lw' w (mk_moded (lag_of m) (bnd_of m) (mk_base (length G) o' q'))) = true.
Proof.
  intros. unfold sgl_eq, gatom_eq. cbn [s_dual s_groups M_sgl.s_weights M_sgl.s_moded g_dual g_groups g_weights g_moded m_lagrange]. rewrite !andb_true_iff. repeat split.
  - apply Bool.eqb_reflx.
  - apply zlist_eqb_spec. auto.
  - apply forallb_forall. intros. apply opt_eqb_spec. auto.
  - apply opt_eqb_spec. auto.
Qed.
(** objects that are equal by == and take different values *)
Theorem equal_values_differ :
  (exists a b x, new_slope SSlope [2; 1] (Some 1) None None None = Ok a /\ new_slope SSlope [3; 1] (Some 1) None None None = Ok b /\ slope_eq a b = true /\ slope_objective a x true <> slope_objective b x true) /\
  (exists x, let a := new_cone KNonneg 1 None None in let b := new_cone KNonneg 1 (Some [1]) None in cone_eq a b = true /\ cone_objective a x true <> cone_objective b x true).
Proof.
  split.
  - assert (W : forall p, 1 <= p -> slope_weights 2 [p; 1]).
    { intros p Hp. unfold slope_weights. cbn. repeat split; auto; try lra. all: try (repeat constructor; lra). }
    pose proof (new_slope_ok SSlope 2 [2; 1] (Lagrange 1) None None (W 2 ltac:(lra)) ltac:(cbn; lra)) as E1. pose proof (new_slope_ok SSlope 2 [3; 1] (Lagrange 1) None None (W 3 ltac:(lra)) ltac:(cbn; lra)) as E2.
    eexists. eexists. exists [1; 0]. split; [exact E1|]. split; [exact E2|]. split; [apply (slope_eq_ignores SSlope [2;1] [3;1] (Lagrange 1))|].
    unfold slope_objective, moded_objective, shifted_objective, slope_seminorm. cbn. rewrite Rabs_R0, Rabs_R1. destruct (Rle_dec 1 0); [lra|]. cbn. unfold q_func. cbn. intros H. injection H as H. revert H. rewrite !Rmult_0_l, !Rabs_R0. rewrite !Rabs_right by lra. lra.
  - exists [0]. cbn zeta. split; [reflexivity|]. unfold cone_objective, shifted_objective, new_cone, new_base, base_apply_offset, fresh_offset. cbn. destruct (Req_EM_T 1 0); [lra|]. cbn. unfold np_max, vabs. cbn. rewrite Rabs_R0. replace (Rabs (0 - 1)) with 1 by (rewrite Rabs_left; lra).
    unfold rleb, tol. cbn. destruct (Rle_dec _ _) as [|N]; [|exfalso; apply N; lra]. destruct (Rle_dec (- (1 * _)) (0 - 1)) as [C|]; [exfalso|cbn; discriminate].
    assert (10000 * (/ (10 * (10 * (10 * (10 * (10 * 1)))))) < 1) by lra. lra.
Qed.

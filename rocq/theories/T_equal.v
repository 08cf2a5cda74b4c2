(** C99: == and copy() of atoms. C100: atoms put after a matrix by their class methods. *)
From Coq Require Import Reals List ZArith Bool Lra Lia Arith.
From Verif Require Import M_affine Vec Spec M_quad P_quad M_prox M_semi SpecAtom P_semi M_shift SpecBase SpecMode M_mode SpecModed M_mixed SpecWeighted M_weighted SpecWatom
  M_group SpecGatom M_mixed_atom M_simplex M_linear SpecLinear M_slope SpecSlope SpecSlopeAtom M_sgl SpecSglObj SpecCone M_cones M_equal P_equal P_equal2 P_equal3 M_compose P_compose SpecCompose P_compose2.
Import ListNotations.
Local Open Scope R_scope.

(** ** C99: copies *)
Theorem C99_weighted_copy : forall n a m, watom_wf n a m -> watom_copy a = Ok a.
Proof. exact watom_copied. Qed.
Print Assumptions C99_weighted_copy.
Theorem C99_slope_copy : forall n a m, slope_wf n a m -> slope_copy a = Ok a.
Proof. exact slope_copied. Qed.
Print Assumptions C99_slope_copy.
Theorem C99_mixed_copy : forall n a, mlatom_wf n a -> mlatom_copy (ml_ids a) a = a.
Proof. exact mlatom_copied. Qed.
Print Assumptions C99_mixed_copy.
Theorem C99_simplex_copy : forall n a, base_wf n (x_base a) -> simplex_copy a = a.
Proof. exact simplex_copied. Qed.
Print Assumptions C99_simplex_copy.
Theorem C99_subspace_copy : forall n a, base_wf n (l_base a) -> lcon_copy a = a.
Proof. exact lcon_copied. Qed.
Print Assumptions C99_subspace_copy.
Theorem C99_cone_copy : forall n a, base_wf n (c_base a) -> cone_copy a = a.
Proof. exact cone_copied. Qed.
Print Assumptions C99_cone_copy.
Theorem C99_group_cone_copy : forall n a, gcone_wf n a -> gc_class (gcone_copy a) = gc_class a /\ gc_groups (gcone_copy a) = gc_groups a /\ gc_base (gcone_copy a) = gc_base a /\
  (forall x chk, gcone_objective (gcone_copy a) x chk = gcone_objective a x chk) /\ (forall q, gcone_proximal (gcone_copy a) q = gcone_proximal a q).
Proof. exact gcone_copied. Qed.
Print Assumptions C99_group_cone_copy.
Theorem C99_sparse_group_copy : forall n a m, sgl_wf n a m -> exists c, sgl_copy a = Ok c /\ s_dual c = s_dual a /\ s_groups c = s_groups a /\ s_lasso c = s_lasso a /\ M_sgl.s_moded c = M_sgl.s_moded a /\ spen c = spen a.
Proof. exact sgl_copied. Qed.
Print Assumptions C99_sparse_group_copy.

(** ** C99: what == compares. Between weighted norms of the same length: class, weights, mode and parameter; *)
Theorem C99_weighted_equality_partial : forall n a b m m', watom_wf n a m -> watom_wf n b m' ->
  exists e, watom_eq a b = Ok e /\ (e = true <-> w_class a = w_class b /\ w_weights a = w_weights b /\ m = m').
Proof. exact watom_equality. Qed.
Print Assumptions C99_weighted_equality_partial.
(** so that two equal norms with the same offset and quadratic are the same. *)
Theorem C99_weighted_interchange_partial : forall n a b m m', watom_wf n a m -> watom_wf n b m' -> watom_eq a b = Ok true -> b_offset (m_base (w_moded a)) = b_offset (m_base (w_moded b)) ->
  b_quadratic (m_base (w_moded a)) = b_quadratic (m_base (w_moded b)) -> a = b.
Proof. exact watom_interchange. Qed.
Print Assumptions C99_weighted_interchange_partial.
Example C99_weighted_case : watom_wf 2 (mk_watom WL1 [Fin 2; PInf] (mk_moded (Some 1) None (mk_base 2 (Some [1; 0]) (mk_iq 0 (FScal 0) (FScal 0) 0)))) (Lagrange 1).
Proof. split; auto. split; [repeat constructor; cbn; lra|]. split; auto. split; auto. split; [cbn; lra|]. split; auto. split; [|split; cbn; auto]. cbn. intros o E. injection E as <-. split; auto. intros C. injection C. lra. Qed.
(** Of different lengths: one weight equals any number of copies of it, and other lengths raise. *)
Theorem C99_weighted_lengths_refuted : forall c r n lam, 0 <= r -> 0 <= lam -> exists a b, new_watom c [Fin r] (Some lam) None None None = Ok a /\ new_watom c (repeat (Fin r) n) (Some lam) None None None = Ok b /\ watom_eq a b = Ok true /\ watom_eq b a = Ok true.
Proof. exact watom_eq_lengths. Qed.
Print Assumptions C99_weighted_lengths_refuted.
Theorem C99_weighted_raises_refuted : forall c v w m m', (2 <= length v)%nat -> (2 <= length w)%nat -> length v <> length w -> watom_eq (mk_watom c v m) (mk_watom c w m') = Err ValueError.
Proof. exact watom_eq_raises. Qed.
Print Assumptions C99_weighted_raises_refuted.
Theorem C99_mixed_equality_partial : forall keys a b, (forall g, In g keys <-> ml_weights a g <> None \/ ml_weights b g <> None) ->
  (mlatom_eq keys a b = true <-> ml_dual a = ml_dual b /\ ml_labels a = ml_labels b /\ (forall g, ml_weights a g = ml_weights b g) /\ ml_par a = ml_par b).
Proof. exact mlatom_equality. Qed.
Print Assumptions C99_mixed_equality_partial.
Theorem C99_simplex_equality_partial : forall a b, simplex_eq a b = true <-> x_class a = x_class b /\ b_shape (x_base a) = b_shape (x_base b).
Proof. exact simplex_equality. Qed.
Print Assumptions C99_simplex_equality_partial.
Theorem C99_cone_equality_partial : forall a b, cone_eq a b = true <-> c_class a = c_class b /\ b_shape (c_base a) = b_shape (c_base b).
Proof. exact cone_equality. Qed.
Print Assumptions C99_cone_equality_partial.
Theorem C99_slope_equality_partial : forall n n' a b m m', slope_wf n a m -> slope_wf n' b m' -> (slope_eq a b = true <-> s_class a = s_class b /\ m = m').
Proof. exact slope_equality. Qed.
Print Assumptions C99_slope_equality_partial.
Theorem C99_sparse_group_equality_partial : forall a b, sgl_eq a b = true <-> s_dual a = s_dual b /\ s_groups a = s_groups b /\ (forall g, In g (s_groups a) -> M_sgl.s_weights a g = M_sgl.s_weights b g) /\ m_lagrange (M_sgl.s_moded a) = m_lagrange (M_sgl.s_moded b).
Proof. exact sgl_equality. Qed.
Print Assumptions C99_sparse_group_equality_partial.
Theorem C99_group_cone_equality_partial : forall a b, gcone_eq a b = true <-> gc_class a = gc_class b /\ b_shape (gc_base a) = b_shape (gc_base b).
Proof. exact gcone_equality. Qed.
Print Assumptions C99_group_cone_equality_partial.
Theorem C99_subspace_equality_partial : forall n a b, length (l_basis a) = length (l_basis b) -> Forall (fun r => length r = n) (l_basis a) -> Forall (fun r => length r = n) (l_basis b) ->
  exists e, lcon_eq a b = Ok e /\ (e = true <-> l_class a = l_class b /\ b_shape (l_base a) = b_shape (l_base b) /\
    forall i j, (i < length (l_basis a))%nat -> (j < n)%nat -> Rabs (nth j (nth i (l_basis b) []) 0 - nth j (nth i (l_basis a) []) 0) <= / 10 ^ 8 + / 10 ^ 5 * Rabs (nth j (nth i (l_basis a) []) 0)).
Proof. exact lcon_equality. Qed.
Print Assumptions C99_subspace_equality_partial.

(** ** C99: where equal objects are not interchangeable. == on subspaces is not symmetric, not transitive, and holds between different subspaces; *)
Theorem C99_subspace_symmetric_refuted : exists a b, orthonormal 2 (l_basis a) /\ orthonormal 2 (l_basis b) /\ lcon_eq a b = Ok true /\ lcon_eq b a = Ok false.
Proof. exact lcon_eq_asymmetric. Qed.
Print Assumptions C99_subspace_symmetric_refuted.
Theorem C99_subspace_transitive_refuted : exists a b c, orthonormal 2 (l_basis a) /\ orthonormal 2 (l_basis b) /\ orthonormal 2 (l_basis c) /\
  lcon_eq a b = Ok true /\ lcon_eq b a = Ok true /\ lcon_eq b c = Ok true /\ lcon_eq c b = Ok true /\ lcon_eq a c = Ok false.
Proof. exact lcon_eq_intransitive. Qed.
Print Assumptions C99_subspace_transitive_refuted.
Theorem C99_subspace_different_refuted : exists a b x, orthonormal 2 (l_basis a) /\ orthonormal 2 (l_basis b) /\ lcon_eq a b = Ok true /\ lcon_eq b a = Ok true /\ in_rows 2 (l_basis a) x /\ ~ in_rows 2 (l_basis b) x.
Proof. exact lcon_eq_different. Qed.
Print Assumptions C99_subspace_different_refuted.
(** offsets and quadratics are never compared, nor are the weights of slopes, the feature weights of sparse group lassos, the groups of group lasso cones; *)
Theorem C99_weighted_ignores_refuted : forall c w m o q o' q', watom_eq (mk_watom c w (mk_moded (lag_of m) (bnd_of m) (mk_base (length w) o q))) (mk_watom c w (mk_moded (lag_of m) (bnd_of m) (mk_base (length w) o' q'))) = Ok true.
Proof. exact watom_eq_ignores. Qed.
Print Assumptions C99_weighted_ignores_refuted.
Theorem C99_slope_ignores_refuted : forall c v w m o q o' q', slope_eq (mk_slope c v (mk_moded (lag_of m) (bnd_of m) (mk_base (length v) o q))) (mk_slope c w (mk_moded (lag_of m) (bnd_of m) (mk_base (length w) o' q'))) = true.
Proof. exact slope_eq_ignores. Qed.
Print Assumptions C99_slope_ignores_refuted.
Theorem C99_sparse_group_ignores_refuted : forall d G lw lw' w m o q o' q', sgl_eq (mk_sgl d G lw w (mk_moded (lag_of m) (bnd_of m) (mk_base (length G) o q))) (mk_sgl d G lw' w (mk_moded (lag_of m) (bnd_of m) (mk_base (length G) o' q'))) = true.
Proof. exact sgl_eq_ignores. Qed.
Print Assumptions C99_sparse_group_ignores_refuted.
Theorem C99_cones_ignore_refuted : forall n o q o' q',
  (forall k, cone_eq (mk_cone k (mk_base n o q)) (mk_cone k (mk_base n o' q')) = true) /\
  (forall c, simplex_eq (mk_simplex c (mk_base n o q)) (mk_simplex c (mk_base n o' q')) = true) /\
  (forall k G w G' w', gcone_eq (mk_gcone k G w (mk_base n o q)) (mk_gcone k G' w' (mk_base n o' q')) = true) /\
  (forall k B, Forall (fun r => length r = n) B -> lcon_eq (mk_lcon k B (mk_base n o q)) (mk_lcon k B (mk_base n o' q')) = Ok true).
Proof. exact shape_eq_ignores. Qed.
Print Assumptions C99_cones_ignore_refuted.
(** so equal objects take different values. *)
Theorem C99_values_differ_refuted :
  (exists a b x, new_slope SSlope [2; 1] (Some 1) None None None = Ok a /\ new_slope SSlope [3; 1] (Some 1) None None None = Ok b /\ slope_eq a b = true /\ slope_objective a x true <> slope_objective b x true) /\
  (exists x, let a := new_cone KNonneg 1 None None in let b := new_cone KNonneg 1 (Some [1]) None in cone_eq a b = true /\ cone_objective a x true <> cone_objective b x true).
Proof. exact equal_values_differ. Qed.
Print Assumptions C99_values_differ_refuted.

(** ** C100: cls.affine(D, alpha) and cls.linear(D, offset=alpha) of a cone constrain D x + alpha, up to the tolerance of the cone; *)
Theorem C100_cone_affine_partial : forall k D n (alpha : vec) q x, cone_dim k (length D) -> length alpha = length D -> q_shape (length D) q -> length x = n ->
  exists A, cone_affine k D n (Some alpha) (Some q) = Ok A /\ cone_linear k D n (Some alpha) (Some q) = Ok A /\
    ac_objective A x false = Ok (Fin (q_denot (length D) q (mat_vec D x))) /\
    (in_cone k (vadd (mat_vec D x) alpha) -> ac_objective A x true = Ok (Fin (q_denot (length D) q (mat_vec D x)))) /\
    (~ relax k (vadd (mat_vec D x) alpha) -> ac_objective A x true = Ok PInf).
Proof. exact cone_affine_value. Qed.
Print Assumptions C100_cone_affine_partial.
(** without an offset they constrain D x; *)
Theorem C100_cone_linear_partial : forall k D n q x, cone_dim k (length D) -> q_shape (length D) q -> length x = n ->
  exists A, cone_linear k D n None (Some q) = Ok A /\ cone_affine k D n None (Some q) = Ok A /\
    ac_objective A x false = Ok (Fin (q_denot (length D) q (mat_vec D x))) /\
    (in_cone k (mat_vec D x) -> ac_objective A x true = Ok (Fin (q_denot (length D) q (mat_vec D x)))) /\
    (~ relax k (mat_vec D x) -> ac_objective A x true = Ok PInf).
Proof. exact cone_linear_value. Qed.
Print Assumptions C100_cone_linear_partial.
(** the dual is the matrix and the conjugate of the constraint with its quadratic. *)
Theorem C100_cone_dual_partial : forall k D n (alpha : vec) q, cone_dim k (length D) -> length alpha = length D -> q_shape (length D) q -> coef q = 0 ->
  exists A d, cone_affine k D n (Some alpha) (Some q) = Ok A /\ ac_dual A = Some (matrix D n None, mk_cone (polar_class k) d) /\
    forall u, length u = length D -> is_fenchel (length D) (fun v => ext_add (cone_fun k (vadd v alpha)) (Fin (q_denot (length D) q v))) u (base_doc (length D) (cone_fun (polar_class k)) d u).
Proof. exact cone_affine_dual. Qed.
Print Assumptions C100_cone_dual_partial.
Example C100_case : cone_dim KL1 (length [[1; 0]; [1; 1]; [0; 2]]) /\ length [1; 2; 3] = length [[1; 0]; [1; 1]; [0; 2]] /\ q_shape 3 (mk_iq 0 (FScal 0) (FVec [1; 0; 1]) 2) /\ coef (mk_iq 0 (FScal 0) (FVec [1; 0; 1]) 2) = 0.
Proof. split; [cbn; lia|]. split; auto. split; [split; cbn; auto|reflexivity]. Qed.
(** A cone after an affine transform that has its own offset subtracts that offset instead of adding it: here x + 1 >= 0 is required, x = 0 is refused. *)
Theorem C100_affine_cone_refuted : exists A, new_affine_cone (new_cone KNonneg 1 None None) (matrix [[1]] 1 (Some [1])) true = Ok A /\ t_aff (matrix [[1]] 1 (Some [1])) [0] = [1] /\ in_cone KNonneg [1] /\ ac_objective A [0] true = Ok PInf.
Proof. exact affine_cone_sign. Qed.
Print Assumptions C100_affine_cone_refuted.
(** in general: with the center p of the cone and the offset o of the map, D x - (p + o) is to be in the cone instead of D x + o - p. *)
Theorem C100_affine_cone_centers_refuted : forall k D n (p : option vec) (o : vec) q x, let d := length D in let c := match p with Some a => vadd a o | None => o end in cone_dim k d -> length o = d -> c <> zeros d -> match p with Some a => length a = d /\ a <> zeros d | None => True end ->
  q_shape d q -> length x = n -> t_aff (matrix D n (Some o)) x = vadd o (mat_vec D x) /\
  exists A, new_affine_cone (new_cone k d p (Some q)) (matrix D n (Some o)) true = Ok A /\ ac_objective A x false = Ok (Fin (q_denot d q (mat_vec D x))) /\
    (in_cone k (vsub (mat_vec D x) c) -> ac_objective A x true = Ok (Fin (q_denot d q (mat_vec D x)))) /\ (~ relax k (vsub (mat_vec D x) c) -> ac_objective A x true = Ok PInf).
Proof. exact affine_cone_centers. Qed.
Print Assumptions C100_affine_cone_centers_refuted.
(** On the other classes linear() takes the shape of D x for the first argument of the constructor: the weighted norms get the number of rows as their only weight and cannot be evaluated, *)
Theorem C100_weighted_linear_refuted : forall c D lam q, 0 <= lam -> exists A, watom_linear c D (Some lam) None q None = Ok A /\ w_weights (aw_atom A) = [Fin (INR (length D))] /\ b_shape (m_base (w_moded (aw_atom A))) = 1%nat /\
  (length D <> 1%nat -> forall x chk, aw_objective A x chk = Err IndexError).
Proof. exact watom_linear_broken. Qed.
Print Assumptions C100_weighted_linear_refuted.
(** slope becomes a multiple of the l1 norm, *)
Theorem C100_slope_linear_refuted : forall D lam x chk, 0 <= lam -> (1 <= length D)%nat -> exists A, slope_linear SSlope D (Some lam) None None None = Ok A /\ b_shape (m_base (M_slope.s_moded (asl_atom A))) = 1%nat /\
  asl_objective A x chk = Ok (Fin (lam * (INR (length D) * ell1 (mat_vec D x)))).
Proof. exact slope_linear_value. Qed.
Print Assumptions C100_slope_linear_refuted.
(** and so in every form and for the conjugate slope, which divides the l1 norm by the number of rows. *)
Theorem C100_slope_forms_refuted : forall c D m, mode_ok m -> (1 <= length D)%nat -> exists A, slope_linear c D (lag_of m) (bnd_of m) None None = Ok A /\ forall x, let v := one_weight_norm c (INR (length D)) (mat_vec D x) in
  match m with
  | Lagrange lam => forall chk, asl_objective A x chk = Ok (Fin (lam * v))
  | Bound b => asl_objective A x false = Ok (Fin 0) /\ asl_objective A x true = Ok (if Rle_dec v (b * (1 + tol)) then Fin 0 else PInf)
  end.
Proof. exact slope_linear_any. Qed.
Print Assumptions C100_slope_forms_refuted.
(** the group lasso has one coefficient and its cones two. (For sparse_group_lasso, simplex_constraint and maximum nothing is made: see M_compose.) *)
Theorem C100_group_linear_refuted : (forall dual D lam q, 0 <= lam -> exists a, gatom_linear dual D (Some lam) None q None = Ok a /\ b_shape (m_base (g_moded a)) = 1%nat) /\ (forall k D o q, b_shape (gc_base (gcone_linear k D o q)) = 2%nat).
Proof. exact (Logic.conj gatom_linear_broken gcone_linear_broken). Qed.
Print Assumptions C100_group_linear_refuted.

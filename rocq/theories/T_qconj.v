(** C95: the constructors and the conjugate of quadratic_loss. *)
From Coq Require Import Reals List Arith Lia Lra.
From Verif Require Import Vec Spec M_quad P_quad M_affine SpecAffine M_loss SpecLoss M_smooth SpecSmooth SpecAtom M_problem M_sconj SpecConvex SpecSconj M_qconj SpecQconj P_affine P_qconj.
Import ListNotations.
Local Open Scope R_scope.

(** ** C95. quadratic_loss: the constructors build the documented functions; the conjugate is the convex conjugate. *)
(** fromarray(Q): x -> 1/2 <x-o, Q(x-o)>; what is returned as gradient is one when Q is symmetric. *)
Theorem C95_fromarray : forall D off q, square_array D -> off_fits (length D) off ->
  exists L, ql_fromarray D off q = Ok L /\ evaluates (length D) (ql_eval L) (fun x => 1 / 2 * dot (minus x off) (mat_vec D (minus x off))) (fun x => mat_vec D (minus x off)) /\
    ((forall x y, length x = length D -> length y = length D -> dot (mat_vec D x) y = dot x (mat_vec D y)) ->
     gradient_of (length D) (fun x => 1 / 2 * dot (minus x off) (mat_vec D (minus x off))) (fun x => mat_vec D (minus x off))).
Proof. exact fromarray_spec. Qed.
Print Assumptions C95_fromarray.
Example C95_fromarray_case : square_array [[2; 1]; [1; 3]] /\ off_fits 2 (Some [1; 0]) /\ forall x y, length x = 2%nat -> length y = 2%nat -> dot (mat_vec [[2; 1]; [1; 3]] x) y = dot x (mat_vec [[2; 1]; [1; 3]] y).
Proof.
  split; [repeat constructor|]. split; [reflexivity|]. intros [|a [|b [|c x]]] [|d [|e [|f y]]] Lx Ly; try discriminate. unfold dot. cbn. ring.
Qed.
(** diagonal(d): x -> 1/2 sum_i d_i (x_i - o_i)^2 *)
Theorem C95_diagonal : forall d off q, off_fits (length d) off ->
  exists L, ql_diagonal d off q = Ok L /\ let F := fun x => 1 / 2 * sum_over (length d) (fun i => nth i d 0 * (nth i (minus x off) 0 * nth i (minus x off) 0)) in
    evaluates (length d) (ql_eval L) F (fun x => vmul d (minus x off)) /\ gradient_of (length d) F (fun x => vmul d (minus x off)).
Proof. exact diagonal_spec. Qed.
Print Assumptions C95_diagonal.
Example C95_diagonal_case : off_fits (length [1; 2; 0]) (Some [1; 1; 1]).
Proof. reflexivity. Qed.
(** squared_transform(T): x -> 1/2 |T(x-o)|^2 with the linear part of T *)
Theorem C95_squared : forall T off q, true_adjoint T -> off_fits (t_in T) off ->
  exists L, ql_squared T off q = Ok L /\ let F := fun x => 1 / 2 * sqn (t_lin T (minus x off)) in let G := fun x => t_adj T (t_lin T (minus x off)) in
    evaluates (t_in T) (ql_eval L) F G /\ gradient_of (t_in T) F G.
Proof. exact squared_spec. Qed.
Print Assumptions C95_squared.
Example C95_squared_case : true_adjoint (matrix [[1; 2]] 2 None) /\ off_fits 2 None.
Proof. split; [apply good_matrix; [repeat constructor|discriminate]|exact Logic.I]. Qed.
(** quadratic_loss(shape, Q=T, coef=c) for a transform T: x -> c/2 <x-o, T(x-o)> with the linear part of T *)
Theorem C95_transform : forall T b c off q n, t_off T = Some b -> 0 <= c -> off_fits n off ->
  exists L, new_qloss n (QMap T) c off q = Ok L /\ evaluates n (ql_eval L) (fun x => c / 2 * dot (minus x off) (t_lin T (minus x off))) (fun x => vscal c (t_lin T (minus x off))).
Proof. exact transform_spec. Qed.
Print Assumptions C95_transform.
Example C95_transform_case : t_off (matrix [[1; 2]; [0; 1]] 2 (Some [1; 1])) = Some (Some [1; 1]) /\ off_fits 2 (Some [3; 1]).
Proof. split; reflexivity. Qed.
(** An offset of the transform itself is dropped. *)
Theorem C95_squared_shift_refuted : let T := matrix [[1]] 1 (Some [1]) in exists L v, ql_squared T None None = Ok L /\ ql_eval L [0] EvFunc = Ok (VFunc v) /\ v <> 1 / 2 * sqn (t_aff T [0]).
Proof. exact drops_shift. Qed.
Print Assumptions C95_squared_shift_refuted.
(** signal_approximator(Y, coef=c): x -> c/2 |x - Y|^2 *)
Theorem C95_signal : forall signal c, 0 <= c -> exists L, signal_approximator signal c = Ok L /\
  evaluates (length signal) (ql_eval L) (fun x => c / 2 * sqn (vsub x signal)) (fun x => vscal c (vsub x signal)) /\ gradient_of (length signal) (fun x => c / 2 * sqn (vsub x signal)) (fun x => vscal c (vsub x signal)).
Proof. exact signal_spec. Qed.
Print Assumptions C95_signal.
(** The conjugate without Q: the supremum of <u,v> - c/2 |v - off|^2 - q(v), its maximizer as gradient; the argument factor plays no role. *)
Theorem C95_conjugate_partial : forall n c off q L factor, (1 <= n)%nat -> off_fits n off -> q_shape n q -> center_ok n q -> 0 < c + coef q -> new_qloss n QNone c off (Some q) = Ok L ->
  exists C f g, ql_conjugate L factor = Ok C /\ sc_lipschitz C = 1 / (c + coef q) /\ evaluates n (sc_eval C) f g /\ smooth_conjugate_of n (full_quad n c off q) (1 / (c + coef q)) f g.
Proof. exact conj_spec_plain. Qed.
Print Assumptions C95_conjugate_partial.
(** When q is zero: |u|^2 / (2c) + <u, off>, with gradient u/c + off *)
Theorem C95_closed_form : forall n c off q L f g u, 0 < c -> off_fits n off -> (forall v, length v = n -> q_denot n q v = 0) -> smooth_conjugate_of n (full_quad n c off q) L f g -> length u = n ->
  f u = sqn u / (2 * c) + dot u (off_vec n off) /\ g u = vadd (vscal (1 / c) u) (off_vec n off).
Proof. exact plain_closed. Qed.
Print Assumptions C95_closed_form.
Example C95_conjugate_case : exists L C f g, new_qloss 2 QNone 2 (Some [1; 3]) (Some no_quad) = Ok L /\ ql_conjugate L false = Ok C /\ evaluates 2 (sc_eval C) f g /\ f [4; 0] = 8 /\ g [4; 0] = [3; 3].
Proof.
  assert (E : exists L, new_qloss 2 QNone 2 (Some [1; 3]) (Some no_quad) = Ok L) by (unfold new_qloss; destruct (Rlt_dec 2 0); [lra|eexists; reflexivity]). destruct E as [L E].
  assert (Z : forall v, length v = 2%nat -> q_denot 2 no_quad v = 0). { intros [|a [|b [|c v]]] Lv; try discriminate. unfold q_denot, quad_fun, sqn, dot. cbn. field. }
  destruct (C95_conjugate_partial 2 2 (Some [1; 3]) no_quad L false ltac:(lia) eq_refl ltac:(split; exact Logic.I) ltac:(left; reflexivity) ltac:(cbn; lra) E) as (C & f & g & EC & _ & Ev & S).
  destruct (C95_closed_form 2 2 (Some [1; 3]) no_quad _ f g [4; 0] ltac:(lra) eq_refl Z S eq_refl) as [F G]. exists L, C, f, g. split; auto. split; auto. split; auto. split; [rewrite F; unfold sqn, dot; cbn; field|rewrite G; cbn; repeat (f_equal; try field)].
Qed.
(** Without curvature there is no smooth conjugate. *)
Theorem C95_flat : forall n c off q L factor, off_fits n off -> q_shape n q -> center_ok n q -> c + coef q = 0 -> new_qloss n QNone c off (Some q) = Ok L -> ql_conjugate L factor = Err ValueError.
Proof. exact flat_conjugate. Qed.
Print Assumptions C95_flat.
Example C95_flat_case : exists L, new_qloss 2 QNone 0 None (Some no_quad) = Ok L /\ 0 + coef no_quad = 0.
Proof. unfold new_qloss. destruct (Rlt_dec 0 0); [lra|]. eexists. split; [reflexivity|cbn; lra]. Qed.
(** With a Q - an array, a transform or a diagonal, positive definite or not - every call raises. *)
Theorem C95_Q_refuted : forall n Q c off q L factor, Q <> QNone -> new_qloss n Q c off q = Ok L -> exists e, ql_conjugate L factor = Err e.
Proof. exact no_conjugate_with_Q. Qed.
Print Assumptions C95_Q_refuted.
Example C95_Q_case : exists L, ql_diagonal [1; 2] None None = Ok L /\ ql_conjugate L true = Err AttributeError.
Proof. unfold ql_diagonal, new_qloss. destruct (Rlt_dec 1 0); [lra|]. eexists. split; reflexivity. Qed.

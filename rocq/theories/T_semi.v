(** Properties C06-C10, C55-C58: atom objects of regreg/atoms/seminorms.py. *)
From Coq Require Import Reals List Lra.
From Verif Require Import Vec Spec M_quad P_quad M_prox M_semi SpecAtom P_semi P_conj.
Import ListNotations.
Local Open Scope R_scope.

(** C06. proximal minimizes  h(x-offset) (or its constraint) + own quadratic + given quadratic. *)
Theorem C06_proximal_minimizes : forall c n m off q p,
  (1 <= n)%nat -> mode_ok m -> length off = n -> q_shape n q -> q_shape n p -> 0 < coef q + coef p ->
  has_vec q \/ has_vec p \/ off <> zeros n ->
  exists a v, new_atom c n (lag_of m) (bnd_of m) (Some off) (Some q) = Ok a /\
    proximal a (AQuad p) = Ok v /\
    is_unique_argmin n (fun x => ext_add
       (doc_objective c m off (coef q) (fbcast n (center q)) (fbcast n (linear_term q)) (constant_term q) x)
       (Fin (quad_fun (coef p) (fbcast n (center p)) (fbcast n (linear_term p)) (constant_term p) x))) v.
Proof. exact proximal_correct. Qed.
Print Assumptions C06_proximal_minimizes.
Theorem C06_proximal_zero_coef_raises : forall a p n, q_shape n (a_quadratic a) -> q_shape n p ->
  (forall v, a_offset a = Some v -> length v = n) ->
  coef (a_quadratic a) + coef p = 0 -> proximal a (AQuad p) = Err ValueError.
Proof. exact proximal_zero_coef. Qed.
Print Assumptions C06_proximal_zero_coef_raises.
Example C06_case : let q := mk_iq (-1) (FScal 3) FNone 2 in let p := mk_iq 2 (FVec [1;2]) (FScal 1) 0 in
  mode_ok (Bound 3) /\ length [1;0] = 2%nat /\ q_shape 2 q /\ q_shape 2 p /\ 0 < coef q + coef p /\ has_vec p.
Proof. simpl. unfold q_shape. simpl. repeat split; auto; lra. Qed.

(** C07. Only a zero total is rejected; with a negative one a point is returned that is no minimizer. *)
Theorem C07_proximal_negative_refuted : exists a q p,
  new_atom CL1 1 (Some 1) None None None = Ok a /\ coef (a_quadratic a) + coef q < 0 /\
  proximal a (AQuad q) = Ok p /\
  ~ is_argmin 1 (fun x => ext_add (doc_objective CL1 (Lagrange 1) [0] 0 [0] [0] 0 x)
                            (Fin (quad_fun (coef q) [1] [0] 0 x))) p.
Proof. exact proximal_negative_coef. Qed.
Print Assumptions C07_proximal_negative_refuted.
Theorem C07_proximal_zero_partial : forall a p n, q_shape n (a_quadratic a) -> q_shape n p ->
  (forall v, a_offset a = Some v -> length v = n) ->
  coef (a_quadratic a) + coef p = 0 -> proximal a (AQuad p) = Err ValueError.
Proof. exact proximal_zero_coef. Qed.
Print Assumptions C07_proximal_zero_partial.

(** C08. *)
Theorem C08_conjugate_is_fenchel : forall n a m,
  atom_wf n a -> mode_ok m -> atom_mode a m -> coef (a_quadratic a) = 0 ->
  exists d, get_conjugate a = Ok d /\ klass d = pair_class (klass a) /\ atom_mode d (dual_mode m) /\ atom_wf n d /\
    forall u, length u = n -> is_fenchel n (atom_doc n a m) u (atom_doc n d (dual_mode m) u).
Proof. exact conjugate_correct. Qed.
Print Assumptions C08_conjugate_is_fenchel.
Example C08_case : let a := mk_atom CConMax 2 (Some 3) None (Some [1;2]) (mk_iq 0 (FScal 5) (FVec [1;-1]) 7) in
  atom_wf 2 a /\ mode_ok (Lagrange 3) /\ atom_mode a (Lagrange 3) /\ coef (a_quadratic a) = 0.
Proof.
  unfold atom_wf, atom_mode, q_shape. simpl. repeat split; auto; try lra.
  - injection H as <-. auto.
  - injection H as <-. intros C. injection C. intros. lra.
Qed.

(** C09. *)
Theorem C09_double_conjugate : forall n a m,
  atom_wf n a -> mode_ok m -> atom_mode a m -> coef (a_quadratic a) = 0 ->
  exists d e, get_conjugate a = Ok d /\ get_conjugate d = Ok e /\ klass e = klass a /\ atom_mode e m /\ atom_eq e a = true /\
    forall v, length v = n -> atom_doc n e m v = atom_doc n a m v.
Proof. exact double_conjugate_correct. Qed.
Print Assumptions C09_double_conjugate.

(** C10. Construction: exactly the legal parameter choices are accepted. *)
Theorem C10_constructor : forall c n l b o q,
  (exists a, new_atom c n l b o q = Ok a /\ one_mode a /\
     ((exists x, l = Some x /\ 0 <= x /\ b = None /\ a_lagrange a = Some x) \/
      (exists x, b = Some x /\ 0 <= x /\ l = None /\ a_bound a = Some x)))
  \/ (new_atom c n l b o q = Err ValueError /\
      (l = None /\ b = None \/ (l <> None /\ b <> None) \/ (exists x, x < 0 /\ (l = Some x \/ b = Some x)))).
Proof. exact ctor_modes. Qed.
Print Assumptions C10_constructor.
(** One operation. *)
Theorem C10_step_partial : forall a o, one_mode a -> real_op o ->
  let (a', e) := sn_step a o in
  one_mode a' /\ (in_lagrange a <-> in_lagrange a') /\
  (klass a', shape a', a_offset a', a_quadratic a') = (klass a, shape a, a_offset a, a_quadratic a) /\
  match o with
  | GetLagrange | GetBound => a' = a /\ e = None
  | SetLagrange v => if a_bound a then a' = a /\ e = Some AttributeError else e = None /\ a_lagrange a' = v
  | SetBound v => if a_lagrange a then a' = a /\ e = Some AttributeError else e = None /\ a_bound a' = v
  end.
Proof. exact step_modes. Qed.
Print Assumptions C10_step_partial.
(** Any history of reads and assignments of numbers. Missing: assignments of None (refuted below). *)
Theorem C10_history_partial : forall l a, one_mode a -> Forall real_op l ->
  one_mode (sn_run a l) /\ (in_lagrange a <-> in_lagrange (sn_run a l)) /\
  (klass (sn_run a l), shape (sn_run a l), a_offset (sn_run a l), a_quadratic (sn_run a l))
    = (klass a, shape a, a_offset a, a_quadratic a).
Proof. exact run_modes. Qed.
Print Assumptions C10_history_partial.
Example C10_case : Forall real_op [SetLagrange (Some 1); GetBound; SetBound (Some 2)].
Proof. repeat constructor. Qed.
(** Assigning None leaves the atom in no mode and then lets it change mode. *)
Theorem C10_none_refuted : exists a,
  new_atom CL1 1 (Some 1) None None None = Ok a /\
  ~ one_mode (sn_run a [SetLagrange None]) /\
  a_bound (sn_run a [SetLagrange None; SetBound (Some 2)]) = Some 2.
Proof. exact mode_none_breaks. Qed.
Print Assumptions C10_none_refuted.
(** A negative parameter, rejected by the constructor, is accepted by the setter. *)
Theorem C10_negative_refuted : exists a,
  new_atom CL1 1 (Some 1) None None None = Ok a /\ a_lagrange (sn_run a [SetLagrange (Some (-1))]) = Some (-1).
Proof. exact mode_negative_accepted. Qed.
Print Assumptions C10_negative_refuted.

(** C55. nonsmooth_objective of an atom. *)
Theorem C55_nonsmooth_objective_lagrange_partial : forall n a lam x chk,
  (1 <= n)%nat -> atom_wf n a -> atom_mode a (Lagrange lam) -> length x = n ->
  klass a <> CConMax -> klass a <> CConPosPart ->
  nonsmooth_objective a x chk = Ok (atom_doc n a (Lagrange lam) x).
Proof. exact nonsmooth_objective_lagrange. Qed.
Print Assumptions C55_nonsmooth_objective_lagrange_partial.
Theorem C55_nonsmooth_objective_bound_partial : forall n a b x,
  (1 <= n)%nat -> atom_wf n a -> atom_mode a (Bound b) -> 0 <= b -> length x = n ->
  klass a = CL1 \/ klass a = CSup \/ klass a = CL2 \/ klass a = CPosPart ->
  nonsmooth_objective a x false = Ok (Fin (q_denot n (a_quadratic a) x)) /\
  exists e, nonsmooth_objective a x true = Ok e /\
    (in_ball (klass a) b (vsub x (atom_off n a)) -> e = Fin (q_denot n (a_quadratic a) x)) /\
    (~ in_ball (klass a) (b * (1 + / 10 ^ 5)) (vsub x (atom_off n a)) -> e = PInf).
Proof. exact nonsmooth_objective_bound. Qed.
Print Assumptions C55_nonsmooth_objective_bound_partial.

(** C56. positive_part_lagrange denotes the positive_part atom, up to the constant
    lagrange/2 * sum(offset). *)
Theorem C56_positive_part_lagrange : forall n lam (off : vec) q,
  0 <= lam -> length off = n -> q_shape n q -> center_ok n q ->
  exists a, positive_part_lagrange n lam (Some off) (Some q) = Ok a /\ atom_wf n a /\ atom_mode a (Lagrange (1/2 * lam)) /\
   forall v, length v = n -> exists k,
    atom_doc n a (Lagrange (1/2 * lam)) v =
    ext_add (doc_objective CPosPart (Lagrange lam) off (coef q) (fbcast n (center q)) (fbcast n (linear_term q)) (constant_term q) v) (Fin k)
    /\ k = lam / 2 * vsum off.
Proof. exact positive_part_lagrange_correct. Qed.
Print Assumptions C56_positive_part_lagrange.

(** C57. Offset assignment. *)
Theorem C57_set_offset_partial : forall n a v, length v = n -> (v <> zeros n \/ a_offset a = None) ->
  atom_off n (set_offset a (Some v)) = v.
Proof. exact set_offset_correct. Qed.
Print Assumptions C57_set_offset_partial.
Theorem C57_set_offset_zero_refuted : exists a, new_atom CL1 1 (Some 1) None (Some [1]) None = Ok a /\
  atom_off 1 (set_offset a (Some [0])) = [1].
Proof. exact set_offset_stale. Qed.
Print Assumptions C57_set_offset_zero_refuted.

(** C58. copy and ==. *)
Theorem C58_copy_identical : forall n a m, atom_wf n a -> mode_ok m -> atom_mode a m -> copy_atom a = Ok a.
Proof. exact copy_correct. Qed.
Print Assumptions C58_copy_identical.
Theorem C58_equality : forall a b m m', atom_mode a m -> atom_mode b m' ->
  (atom_eq a b = true <-> klass a = klass b /\ m = m').
Proof. exact atom_eq_spec. Qed.
Print Assumptions C58_equality.

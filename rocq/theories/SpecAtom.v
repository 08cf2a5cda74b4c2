(** Specification vocabulary for atom objects: what an object of class [atom] (M_semi.v) stands for. *)
From Coq Require Import Reals List.
From Verif Require Import Vec Spec M_quad M_prox M_semi.
Import ListNotations.
Local Open Scope R_scope.

(** Some field of the quadratic is an array (not just floats). *)
Definition has_vec (q : iq) : Prop :=
  match center q with FVec _ => True | _ => match linear_term q with FVec _ => True | _ => False end end.
(** An offset as a vector, None meaning 0. *)
Definition off_vec (n : nat) (o : option vec) : vec := match o with Some v => v | None => zeros n end.
(** The parameter of the mode is legal; and the constructor arguments that select the mode. *)
Definition mode_ok (m : smode) : Prop := match m with Lagrange l => 0 <= l | Bound b => 0 <= b end.
Definition lag_of (m : smode) : option R := match m with Lagrange l => Some l | Bound _ => None end.
Definition bnd_of (m : smode) : option R := match m with Lagrange _ => None | Bound b => Some b end.
(** Exactly one of the two parameters is set. *)
Definition one_mode (a : atom) : Prop :=
  (exists l, a_lagrange a = Some l /\ a_bound a = None) \/ (exists b, a_bound a = Some b /\ a_lagrange a = None).
(** Assignments of numbers (not None), and reads. *)
Definition real_op (o : sn_op) : Prop :=
  match o with SetLagrange None | SetBound None => False | _ => True end.
Definition in_lagrange (a : atom) : Prop := a_lagrange a <> None.
(** Mode of the Fenchel conjugate: penalty <-> constraint with the same parameter. *)
Definition dual_mode (m : smode) : smode := match m with Lagrange l => Bound l | Bound b => Lagrange b end.
(** The object [a] is in mode [m]. *)
Definition atom_mode (a : atom) (m : smode) : Prop := a_lagrange a = lag_of m /\ a_bound a = bnd_of m.
Definition atom_off (n : nat) (a : atom) : vec := off_vec n (a_offset a).
(** The function the object documents: h(v-offset) or its constraint, plus its quadratic. *)
Definition atom_doc (n : nat) (a : atom) (m : smode) (v : vec) : ext :=
  doc_objective (klass a) m (atom_off n a) (coef (a_quadratic a)) (fbcast n (center (a_quadratic a)))
    (fbcast n (linear_term (a_quadratic a))) (constant_term (a_quadratic a)) v.
(** Shapes agree. *)
Definition atom_wf (n : nat) (a : atom) : Prop :=
  shape a = n /\ (forall o, a_offset a = Some o -> length o = n /\ o <> zeros n) /\ q_shape n (a_quadratic a).

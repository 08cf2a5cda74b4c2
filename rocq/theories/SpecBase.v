(** Specification vocabulary for atoms with an offset and a quadratic. *)
From Coq Require Import Reals List.
From Verif Require Import Vec Spec M_quad M_prox M_semi SpecAtom M_shift.
Import ListNotations.
Local Open Scope R_scope.

Definition base_off (n : nat) (g : base) : vec := off_vec n (b_offset g).
(** The function documented by an atom built on h:  h(v - offset) + quadratic(v). *)
Definition base_doc (n : nat) (h : vec -> ext) (g : base) (v : vec) : ext :=
  ext_add (h (vsub v (base_off n g)))
    (Fin (quad_fun (coef (b_quadratic g)) (fbcast n (center (b_quadratic g)))
            (fbcast n (linear_term (b_quadratic g))) (constant_term (b_quadratic g)) v)).
(** Shapes agree with n; a stored offset is never all zero. *)
Definition base_wf (n : nat) (g : base) : Prop :=
  b_shape g = n /\ (forall o, b_offset g = Some o -> length o = n /\ o <> zeros n) /\ q_shape n (b_quadratic g).
(** At least one term of the proximal problem is an array (otherwise numpy hands a float to the
    prox method). *)
Definition some_array (g : base) (p : iq) : Prop :=
  has_vec (b_quadratic g) \/ has_vec p \/ b_offset g <> None.
(** "g.proximal(p) = v" is the unique minimizer of documented function + p. *)
Definition prox_spec (n : nat) (h : vec -> ext) (g : base) (p : iq) (v : vec) : Prop :=
  is_unique_argmin n (fun x => ext_add (base_doc n h g x)
    (Fin (quad_fun (coef p) (fbcast n (center p)) (fbcast n (linear_term p)) (constant_term p) x))) v.

(** What the block norm objects of regreg/atoms/block_norms.py stand for. *)
From Coq Require Import Reals List.
From Verif Require Import Vec Spec SpecAtom M_quad M_prox M_semi M_shift M_mode SpecBase SpecMode SpecModed SpecPart SpecBlock M_block.
Import ListNotations.
Local Open Scope R_scope.

(** l1_h: the sum over the rows of h(row); linf_h: the maximum *)
Definition bfun (k : bclass) (r c : nat) : vec -> ext :=
  match k with
  | L1L2 => row_sum (doc_seminorm CL2) r c
  | LinfL2 => row_max (doc_seminorm CL2) r c
  | L1L1 => row_sum (doc_seminorm CL1) r c
  | LinfLinf => row_max (doc_seminorm CSup) r c
  | BSum s => row_sum (doc_seminorm s) r c
  | BMax s => row_max (doc_seminorm s) r c
  end.
(** [a] is in mode [m], has consistent shapes, and its inner atom still has the same parameter *)
Definition batom_wf (n : nat) (a : batom) (m : smode) : Prop :=
  (b_r a * b_c a = n)%nat /\ moded_wf n (b_moded a) m /\ b_in_lagrange a = lag_of m /\ b_in_bound a = bnd_of m.
(** Row norms that are finite everywhere, so that leaving out the feasibility test changes nothing *)
Definition finite_class (s : snclass) : Prop := match s with CConMax | CConPosPart => False | _ => True end.
Definition finite_block (k : bclass) : Prop := match k with BSum s | BMax s => finite_class s | _ => True end.
(** The quadratics of an atom and of the call of proximal() add up to a parabola with its minimum at y + offset. *)
Definition total_centre (n : nat) (g : base) (p : iq) (y : vec) : Prop :=
  exists k, forall v, length v = n ->
    quad_fun (coef (b_quadratic g)) (fbcast n (center (b_quadratic g))) (fbcast n (linear_term (b_quadratic g))) (constant_term (b_quadratic g)) v +
    quad_fun (coef p) (fbcast n (center p)) (fbcast n (linear_term p)) (constant_term p) v =
    (coef (b_quadratic g) + coef p) / 2 * sqn (vsub v (vadd y (base_off n g))) + k.
(** When the modelled proximal methods return a number: l1_l2 and linf_l2 divide by the norms of the rows, the modes that take a maximum need an entry. *)
Definition row_legal (k : bclass) (m : smode) (r c : nat) (x : vec) : Prop :=
  match k, m with
  | L1L1, Lagrange _ | LinfLinf, Bound _ => True
  | L1L1, Bound _ | LinfLinf, Lagrange _ => (0 < r * c)%nat
  | L1L2, Lagrange _ => ~ zero_row r c x
  | L1L2, Bound _ | LinfL2, Lagrange _ => (0 < r)%nat /\ ~ zero_row r c x
  | LinfL2, Bound b => 0 < b \/ ~ zero_row r c x
  | BSum _, _ | BMax _, _ => False
  end.
(** When the value of the norm is defined: a maximum over no rows raises ValueError. *)
Definition has_max (k : bclass) (r c : nat) : Prop :=
  match k with L1L2 | L1L1 => True | LinfL2 => (0 < r)%nat | LinfLinf => (0 < r * c)%nat | BSum _ => (0 < c)%nat | BMax _ => (0 < r)%nat /\ (0 < c)%nat end.
(** l1_l2, linf_l2, l1_l1 and linf_linf, as opposed to the generic block_sum and block_max *)
Definition concrete (k : bclass) : Prop := match k with BSum _ | BMax _ => False | _ => True end.
(** l1_l2 on 1-by-1 matrices, without offset and quadratic *)
Definition plain_l1l2 (lam : R) : batom := mk_batom L1L2 1 1 (Some lam) None (mk_moded (Some lam) None (mk_base 1 None (mk_iq 0 (FScal 0) (FScal 0) 0))).

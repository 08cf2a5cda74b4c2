(** sparse_group_block objects: the penalty and well-formedness. *)
From Coq Require Import Reals List.
From Verif Require Import Vec Spec SpecAtom M_quad M_prox M_semi M_shift M_mode SpecBase SpecMode SpecModed SpecBlock M_block M_sgb.
Import ListNotations.
Local Open Scope R_scope.

(** w_1 sum_ij |x_ij| + w_2 sum_i ||x_i||_2 for a matrix with r rows and c columns *)
Definition sparse_block (r c : nat) (l1 l2 : R) (x : vec) : ext := Fin (l1 * ell1 x + l2 * vsum (map ell2 (rows r c x))).
Definition bpen (a : sgb) : vec -> ext := sparse_block (sb_r a) (sb_c a) (sb_l1 a) (sb_l2 a).
(** [a] is in mode [m], has consistent shapes and nonnegative weights, and its inner atom still has the same parameter *)
Definition sgb_wf (n : nat) (a : sgb) (m : smode) : Prop :=
  (sb_r a * sb_c a = n)%nat /\ 0 <= sb_l1 a /\ 0 <= sb_l2 a /\ moded_wf n (sb_moded a) m /\ sb_in_lagrange a = lag_of m /\ sb_in_bound a = bnd_of m.

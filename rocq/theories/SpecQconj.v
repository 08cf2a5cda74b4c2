(** Quadratic losses. *)
From Coq Require Import Reals List.
From Verif Require Import Vec Spec M_quad M_loss SpecLoss.
Local Open Scope R_scope.

(** c/2 |v - off|^2 + q(v) *)
Definition full_quad (n : nat) (c : R) (off : option vec) (q : iq) (v : vec) : ext := Fin (c / 2 * sqn (minus v off) + q_denot n q v).
Definition square_array (D : list vec) : Prop := Forall (fun r => length r = length D) D.

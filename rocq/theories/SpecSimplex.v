(** Probability simplex and maximum. *)
From Coq Require Import Reals List.
From Verif Require Import Vec Spec M_simplex.
Import ListNotations.
Local Open Scope R_scope.

Definition in_simplex (x : vec) : Prop := all_nonneg x /\ vsum x = 1.
Definition in_simplex_dec (x : vec) : {in_simplex x} + {~ in_simplex x}.
Proof.
  unfold in_simplex. destruct (nonneg_dec x); [|right; tauto]. destruct (Req_EM_T (vsum x) 1); [left|right]; tauto.
Defined.
Definition simplex_fun (x : vec) : ext := if in_simplex_dec x then Fin 0 else PInf.
(** Largest entry of a non-empty vector. *)
Definition vmax (x : vec) : R := match x with [] => 0 | a :: x' => max_list a x' end.
Definition max_fun (x : vec) : ext := Fin (vmax x).
(** The function each class documents. *)
Definition simplex_doc (c : simplexclass) : vec -> ext := match c with XSimplex => simplex_fun | XMaximum => max_fun end.

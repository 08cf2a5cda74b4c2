(** Norms of matrices built from norms of their rows. A matrix is stored row by row. *)
From Coq Require Import Reals List.
From Verif Require Import Vec Spec SpecWeighted SpecPart.
Import ListNotations.
Local Open Scope R_scope.

(** The r rows, of c entries each *)
Fixpoint rows (r c : nat) (x : vec) : list vec := match r with O => [] | S k => firstn c x :: rows k c (skipn c x) end.
Definition row_sum (h : vec -> ext) (r c : nat) (x : vec) : ext := ext_sum (map h (rows r c x)).
Definition row_max (h : vec -> ext) (r c : nat) (x : vec) : ext := ext_maximum (map h (rows r c x)).
Definition zero_row (r c : nat) (x : vec) : Prop := In (zeros c) (rows r c x).

(** Newton's divided differences, and polynomials. *)
From Coq Require Import Reals List.
From Verif Require Import Vec.
Import ListNotations.
Local Open Scope R_scope.
(** f[x_i, ..., x_{i+k}] *)
Fixpoint divided (f : R -> R) (X : vec) (k i : nat) : R :=
  match k with
  | O => f (nth i X 0)
  | S k' => (divided f X k' (S i) - divided f X k' i) / (nth (i + S k') X 0 - nth i X 0)
  end.
(** c_0 + c_1 x + c_2 x^2 + ... *)
Fixpoint poly_from (m : nat) (c : list R) (x : R) : R := match c with [] => 0 | a :: c' => a * x ^ m + poly_from (S m) c' x end.
Definition poly (c : list R) (x : R) : R := poly_from 0 c x.
Fixpoint increasing (X : vec) : Prop := match X with a :: ((b :: _) as r) => a < b /\ increasing r | _ => True end.

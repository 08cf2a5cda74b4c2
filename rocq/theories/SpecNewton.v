(** Matrices and the quadratic models of the quasi-Newton method, as in a textbook. *)
From Coq Require Import Reals List Arith.
From Verif Require Import M_affine Vec Spec SpecConvex.
Import ListNotations.
Local Open Scope R_scope.

Definition square (n : nat) (H : list vec) : Prop := length H = n /\ Forall (fun r => length r = n) H.
Definition entry (H : list vec) (i j : nat) : R := nth j (nth i H []) 0.
Definition symmetric (n : nat) (H : list vec) : Prop := square n H /\ forall i j, (i < n)%nat -> (j < n)%nat -> entry H i j = entry H j i.
(** d' H d *)
Definition form (H : list vec) (d : vec) : R := dot d (mat_vec H d).
Definition positive_definite (n : nat) (H : list vec) : Prop := symmetric n H /\ forall d, length d = n -> d <> zeros n -> 0 < form H d.
(** G'd + d'Hd/2 + P(x + d) *)
Definition newton_model (G : vec) (H : list vec) (P : vec -> ext) (x d : vec) : ext := ext_add (Fin (dot G d + / 2 * form H d)) (P (vadd x d)).
Definition strictly_monotone (n : nat) (g : vec -> vec) : Prop := forall x y, length x = n -> length y = n -> x <> y -> 0 < dot (vsub (g y) (g x)) (vsub y x).

(** Subspaces given by an orthonormal set of rows. *)
From Coq Require Import Reals List Arith.
From Verif Require Import Vec Spec SpecLoss M_linear.
Import ListNotations.
Local Open Scope R_scope.

Definition row (B : list vec) (i : nat) : vec := nth i B [].
(** the rows have n entries and are orthonormal *)
Definition orthonormal (n : nat) (B : list vec) : Prop :=
  (forall i, (i < length B)%nat -> length (row B i) = n) /\
  forall i j, (i < length B)%nat -> (j < length B)%nat -> dot (row B i) (row B j) = if Nat.eq_dec i j then 1 else 0.
(** x is a combination of the rows *)
Definition in_rows (n : nat) (B : list vec) (x : vec) : Prop :=
  length x = n /\ exists a : nat -> R, forall j, (j < n)%nat -> nth j x 0 = sum_over (length B) (fun i => a i * nth j (row B i) 0).
(** x is orthogonal to all of them *)
Definition off_rows (n : nat) (B : list vec) (x : vec) : Prop := length x = n /\ forall i, (i < length B)%nat -> dot (row B i) x = 0.
(** h is the indicator function of the set S: 0 on it, infinite elsewhere *)
Definition indicates (n : nat) (S : vec -> Prop) (h : vec -> ext) : Prop := forall x, length x = n -> (S x -> h x = Fin 0) /\ (~ S x -> h x = PInf).
(** projection(B) stands for the span of the rows, projection_complement(B) for its orthogonal complement *)
Definition subspace (n : nat) (B : list vec) (k : lclass) : vec -> Prop := match k with LProjection => in_rows n B | LComplement => off_rows n B end.

(** Differences over the edges of a lattice. *)
From Coq Require Import Reals List Arith.
From Verif Require Import Vec Spec.
Import ListNotations.
Local Open Scope R_scope.

(** The pixel (a, b) of an image with n columns stored by rows *)
Definition pixel (n : nat) (x : vec) (v : nat * nat) : R := nth (fst v * n + snd v) x 0.
Definition in_lattice (m n : nat) (v : nat * nat) : Prop := (fst v < m)%nat /\ (snd v < n)%nat.
(** u and v are neighbours, v one step further along one of the two directions *)
Definition lattice_edge (m n : nat) (e : (nat * nat) * (nat * nat)) : Prop :=
  let (u, v) := e in in_lattice m n u /\ in_lattice m n v /\ (v = (S (fst u), snd u) \/ v = (fst u, S (snd u))).
Definition edge_diff (n : nat) (x : vec) (e : (nat * nat) * (nat * nat)) : R := pixel n x (fst e) - pixel n x (snd e).
(** The squared length of the discrete gradient at a pixel; differences that leave the image count as zero *)
Definition grad2 (m n : nat) (x : vec) (v : nat * nat) : R :=
  (if (S (fst v) <? m)%nat then (pixel n x v - pixel n x (S (fst v), snd v)) * (pixel n x v - pixel n x (S (fst v), snd v)) else 0)
  + (if (S (snd v) <? n)%nat then (pixel n x v - pixel n x (fst v, S (snd v))) * (pixel n x v - pixel n x (fst v, S (snd v))) else 0).

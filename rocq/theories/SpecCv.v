(** Cross-validation: partitions of the sample, balance. *)
From Coq Require Import Reals ZArith List Permutation.
From Verif Require Import Vec Spec.
Import ListNotations.

Definition shuffles (s : list Z -> list Z) : Prop := forall l, Permutation l (s l).
(** number of samples in a mask *)
Definition size (mask : list bool) : nat := count_occ Bool.bool_dec mask true.
(** Every sample is in exactly one test fold, every test fold is inhabited, train is the complement of test. *)
Definition partitions (n : nat) (folds : list (list bool * list bool)) : Prop :=
  Forall (fun f => length (snd f) = n /\ fst f = map negb (snd f) /\ (exists i, (i < n)%nat /\ nth i (snd f) false = true)) folds /\
  forall i, (i < n)%nat -> exists! k, (k < length folds)%nat /\ nth i (snd (nth k folds ([], []))) false = true.
Definition balanced (folds : list (list bool * list bool)) : Prop :=
  forall f g, In f folds -> In g folds -> (size (snd f) <= size (snd g) + 1)%nat.

(** The support vector machine with a smoothed hinge. *)
From Coq Require Import Reals List.
From Verif Require Import Vec Spec M_loss SpecLoss.
Import ListNotations.
Local Open Scope R_scope.

(** +1 for the cases with the largest label, -1 for the others *)
Definition sign_of (labels : vec) (i : nat) : R := if forallb (fun l => if Rle_dec l (nth i labels 0) then true else false) labels then 1 else -1.
(** y_i <x_i, beta> *)
Definition margin (X : list vec) (labels beta : vec) (i : nat) : R := sign_of labels i * dot (nth i X []) beta.
(** sum over the cases of the hinge (1 - margin)+, and of the hinge smoothed with parameter s *)
Definition hinge_loss (X : list vec) (labels beta : vec) : R := sum_over (length X) (fun i => Rmax (1 - margin X labels beta i) 0).
Definition smoothed_loss (s : R) (X : list vec) (labels beta : vec) : R := sum_over (length X) (fun i => smooth_hinge s (margin X labels beta i)).
(** - y_i x_i for every case that is less than 1 away on the wrong side, fading out over a width s *)
Definition slope_of (s m : R) : R := Rmin 1 (Rmax 0 ((1 - m) / s)).
Definition smoothed_grad (s : R) (X : list vec) (labels beta : vec) (j : nat) : R :=
  sum_over (length X) (fun i => - slope_of s (margin X labels beta i) * (sign_of labels i * nth j (nth i X []) 0)).
(** Every value among the labels is one of two. *)
Definition two_labels (labels : vec) : Prop := exists a b, forall l, In l labels -> l = a \/ l = b.
Definition three_labels (labels : vec) : Prop := exists a b c, In a labels /\ In b labels /\ In c labels /\ a <> b /\ a <> c /\ b <> c.

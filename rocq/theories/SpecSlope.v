(** The sorted-l1 (SLOPE) norm. *)
From Coq Require Import Reals List Permutation.
From Verif Require Import Vec Spec SpecIso.
Import ListNotations.
Local Open Scope R_scope.

(** Entries in decreasing order. *)
Fixpoint put_down (a : R) (l : vec) : vec :=
  match l with [] => [a] | b :: l' => if Rle_dec b a then a :: l else b :: put_down a l' end.
Definition sort_down (x : vec) : vec := fold_right put_down [] x.
(** sum_j w_j |v|_(j),  |v|_(1) >= |v|_(2) >= ... *)
Definition slope_norm (w v : vec) : R := dot w (sort_down (vabs v)).
Definition slope_fun (w v : vec) : ext := Fin (slope_norm w v).
(** Legal weights: positive and non-increasing. *)
Fixpoint decreasing (x : vec) : Prop :=
  match x with
  | a :: ((b :: _) as x') => b <= a /\ decreasing x'
  | _ => True
  end.
Definition slope_weights (n : nat) (w : vec) : Prop := length w = n /\ Forall (fun a => 0 < a) w /\ decreasing w.
(** [d] is the value at u of the norm dual to slope_norm: the largest <u,v> with slope_norm v <= 1. *)
Definition is_slope_dual (n : nat) (w u : vec) (d : R) : Prop :=
  (forall v, length v = n -> slope_norm w v <= 1 -> dot u v <= d) /\
  (exists v, length v = n /\ slope_norm w v <= 1 /\ dot u v = d).
(** [arg] is a permutation of the indices which sorts the keys (any argsort, whatever it does with ties). *)
Definition is_argsort (keys : vec) (arg : list nat) : Prop :=
  Permutation arg (seq 0 (length keys)) /\ nondecreasing (map (fun i => nth i keys 0) arg).
(** A routine which returns the isotonic regression of every input (what sklearn's documents). *)
Definition iso_contract (iso : vec -> option vec) : Prop :=
  forall y, exists p, iso y = Some p /\ is_isotonic (repeat 1 (length y)) y p.
(** A routine which sorts. *)
Definition argsort_contract (argsort : vec -> list nat) : Prop := forall keys, is_argsort keys (argsort keys).
(** [d] computes the dual norm. *)
Definition dual_of (n : nat) (w : vec) (d : vec -> R) : Prop := forall u, length u = n -> is_slope_dual n w u (d u).

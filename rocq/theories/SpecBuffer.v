(** The values adjoint_map should return, and which objects keep arrays of their own. *)
From Coq Require Import Reals List Arith.
From Verif Require Import Vec Spec M_affine M_buffer.
Import ListNotations.
Local Open Scope R_scope.

Fixpoint adj_value (o : tobj) (u : vec) : vec :=
  match o with
  | Fresh f => f u
  | Same => u
  | Sel idx n inner _ => scatter idx (adj_value inner u) (zeros n)
  | Pos inner _ => adj_value inner u ++ vopp (adj_value inner u)
  | Times c inner => vscal c (adj_value inner u)
  | Chain a b => adj_value b (adj_value a u)
  end.
(** The shapes fit: vectors of length m are taken to vectors of length k. *)
Fixpoint shaped (o : tobj) (m k : nat) : Prop :=
  match o with
  | Fresh f => forall u, length u = m -> length (f u) = k
  | Same => m = k
  | Sel idx n inner _ => k = n /\ shaped inner m (length idx)
  | Pos inner _ => exists j, k = (2 * j)%nat /\ shaped inner m j
  | Times _ inner => shaped inner m k
  | Chain a b => exists j, shaped a m j /\ shaped b j k
  end.
(** A newly built selector owns no array yet; a posneg owns one. No two posneg share theirs. *)
Fixpoint buffers (o : tobj) : list ref :=
  match o with
  | Fresh _ | Same => []
  | Sel _ _ inner b => match b with Some r => r :: buffers inner | None => buffers inner end
  | Pos inner b => b :: buffers inner
  | Times _ inner => buffers inner
  | Chain a b => buffers a ++ buffers b
  end.
Fixpoint new_object (o : tobj) : Prop :=
  match o with
  | Fresh _ | Same => True
  | Sel _ _ inner b => b = None /\ new_object inner
  | Pos inner _ => new_object inner
  | Times _ inner => new_object inner
  | Chain a b => new_object a /\ new_object b
  end.
(** No selector and no posneg inside. *)
Fixpoint bufferless (o : tobj) : Prop :=
  match o with
  | Fresh _ | Same => True
  | Sel _ _ _ _ | Pos _ _ => False
  | Times _ inner => bufferless inner
  | Chain a b => bufferless a /\ bufferless b
  end.
(** The program passes arrays that exist and have the right length, and writes into nothing. *)
Definition reads_only (m : nat) (h : heap) (o : op) : Prop :=
  match o with New _ => True | Call u => (u < length h)%nat /\ length (read h u) = m | Put _ _ => False end.
Fixpoint legal (m : nat) (s : heap * tobj) (l : list op) : Prop :=
  match l with [] => True | o :: l' => reads_only m (fst s) o /\ legal m (fst (step s o)) l' end.

(** Averages over intervals of a signal. *)
From Coq Require Import Reals List Arith ZArith.
From Verif Require Import Vec Spec M_quad M_multi.
Import ListNotations.
Local Open Scope R_scope.

Definition average (x : vec) : R := vsum x / INR (length x).
(** The mean of x_i, ..., x_{j-1} *)
Definition interval_mean (x : vec) (i j : nat) : R := vsum (map (fun l => nth l x 0) (seq i (j - i))) / INR (j - i).
(** A non-empty interval [start, end) of a signal of length p *)
Definition slice_ok (p : nat) (ij : Z * Z) : Prop := (0 <= fst ij < snd ij)%Z /\ (snd ij <= Z.of_nat p)%Z.
(** What the k-th mean is multiplied by *)
Definition factor (scaling : fld) (k : nat) : R := match scaling with FNone => 1 | FScal c => c | FVec s => nth k s 0 end.
Definition scaling_fits (scaling : fld) (m : nat) : Prop := match scaling with FVec s => length s = m | _ => True end.
(** The transform as documented: center, then average over each interval, then scale *)
Definition doc_multi (slices : list (Z * Z)) (scaling : fld) (x : vec) : vec :=
  map (fun k => let (i, j) := nth k slices (0, 0)%Z in
    factor scaling k * interval_mean (map (fun a => a - average x) x) (Z.to_nat i) (Z.to_nat j)) (seq 0 (length slices)).

(** Histories of an instance. Copying continues with the copy. *)
Inductive mop := MUpdate (records : bool) (slices : list (Z * Z)) (scaling : fld) | MCopy | MLinear (x : vec) | MAdjoint (v : vec) | MSmuce (z : vec) (sigma : option R).
Definition mstep (M : mscale) (o : mop) : mscale :=
  match o with
  | MUpdate r s sc => fst (ms_update M r s sc)
  | MCopy => ms_copy M
  | MLinear _ | MAdjoint _ => M
  | MSmuce z sigma => fst (smuce M z sigma)
  end.
Definition mrun (M : mscale) (ops : list mop) : mscale := fold_left mstep ops M.
(** Proper uses: intervals of the signal, one factor for each. *)
Definition mop_ok (p : nat) (o : mop) : Prop :=
  match o with
  | MUpdate _ s sc => s <> [] /\ Forall (slice_ok p) s /\ scaling_fits sc (length s)
  | MSmuce _ _ => False
  | _ => True
  end.
(** What was asked for last *)
Definition masked (cur : list (Z * Z) * fld) (o : mop) : list (Z * Z) * fld := match o with MUpdate _ s sc => (s, sc) | _ => cur end.

(** The multiscale statistic of one interval: |sqrt(size) * mean| in standard deviations, less sqrt(2 log(p / size)) *)
Definition deviation (z : vec) : R := sqrt (average (map (fun a => (a - average z) * (a - average z)) z)).
Definition interval_stat (z : vec) (ij : Z * Z) : R :=
  let size := IZR (snd ij - fst ij) in
  Rabs (sqrt size * interval_mean (map (fun a => a - average z) z) (Z.to_nat (fst ij)) (Z.to_nat (snd ij)) / deviation z) - sqrt (2 * ln (INR (length z) / size)).

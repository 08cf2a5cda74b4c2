(** Order statistics and percentiles of a list of numbers, and the largest statistic of a signal. *)
From Coq Require Import Reals List Arith ZArith.
From Verif Require Import Vec Spec M_quad M_multi SpecMulti.
Import ListNotations.
Local Open Scope R_scope.

(** How many of V are below x, at most x, at least x *)
Definition count_lt (x : R) (V : vec) : nat := length (filter (fun a => if Rlt_dec a x then true else false) V).
Definition count_le (x : R) (V : vec) : nat := length (filter (fun a => if Rle_dec a x then true else false) V).
Definition count_ge (x : R) (V : vec) : nat := length (filter (fun a => if Rle_dec x a then true else false) V).
(** x is the smallest of V (k = 0), the next (k = 1), ... *)
Definition is_kth (k : nat) (V : vec) (x : R) : Prop := In x V /\ (count_lt x V <= k < count_le x V)%nat.
(** v is at the share q of the way from the smallest to the largest of V, with straight lines between neighbours *)
Definition is_percentile (V : vec) (q v : R) : Prop :=
  exists k f a b, INR k + f = q * INR (length V - 1) /\ 0 <= f < 1 /\ is_kth k V a /\ (f = 0 \/ is_kth (S k) V b) /\ v = (1 - f) * a + f * b.
(** t is the largest statistic of z over the intervals *)
Definition largest_stat (slices : list (Z * Z)) (z : vec) (t : R) : Prop :=
  (exists s, In s slices /\ t = interval_stat z s) /\ forall s, In s slices -> interval_stat z s <= t.
(** A signal of the length of the transform that is not constant *)
Definition good_draw (M : mscale) (z : vec) : Prop := length z = ms_p M /\ deviation z <> 0.

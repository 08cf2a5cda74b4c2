(** Model of regreg/atoms/_isotonic.pyx and regreg/atoms/_isotonic_py.py.  Arrays are lists of reals;
    doubles are reals. *)
From Coq Require Import Reals List Bool.
From Verif Require Import Vec.
Import ListNotations.
Local Open Scope R_scope.

(** ** _isotonic_regression, regreg/atoms/_isotonic.pyx:18-61 *)

(** the scan  k = i; while k < n and solution[k] >= solution[k+1]: k += 1  (37-39), seen from position i:
    returns k - i + 1, where [a] is solution[i] and [l] is solution[i+1:] *)
Fixpoint run_len (a : R) (l : vec) : nat :=
  match l with
  | [] => 1
  | b :: l' => if Rge_dec a b then S (run_len b l') else 1
  end.
(** lines 40-53: the segment is replaced by its weighted average when its ends differ *)
Definition pool_run (run wrun : vec) : vec * bool :=
  if Req_EM_T (hd 0 run) (last run 0) then (run, false)
  else (repeat (dot run wrun / vsum wrun) (length run), true).
(** one sweep, lines 33-54 (i = k + 1 moves to the rest of the array; [fuel] bounds the number of
    segments and is the array length in the caller; the last element alone, which the loop test
    i < n skips, is a segment with equal ends) *)
Fixpoint sweep (fuel : nat) (sol weight : vec) : vec * bool :=
  match fuel, sol with
  | S fuel', a :: l =>
      let k := run_len a l in
      let '(new, pooled) := pool_run (firstn k sol) (firstn k weight) in
      let '(rest, pooled') := sweep fuel' (skipn k sol) (skipn k weight) in
      (new ++ rest, pooled || pooled')
  | _, _ => (sol, false)
  end.
(** the outer loop "while 1", lines 32-57; None when [fuel] sweeps were not enough *)
Fixpoint iso_loop (fuel : nat) (sol weight : vec) : option vec :=
  match fuel with
  | O => None
  | S fuel' => let '(sol', pooled) := sweep (length sol) sol weight in
               if pooled then iso_loop fuel' sol' weight else Some sol'
  end.
Definition isotonic_regression (fuel : nat) (y weight : vec) : option vec :=
  if Nat.leb (length y) 1 then Some y else iso_loop fuel y weight.

(** ** pav, regreg/atoms/_isotonic_py.py:9-41 *)

(** viol[0]: the first k with v[k+1] - v[k] < 0; None when all differences are >= 0 (line 25) *)
Fixpoint first_viol (v : vec) : option nat :=
  match v with
  | a :: ((b :: _) as v') => if Rlt_dec (b - a) 0 then Some O else option_map S (first_viol v')
  | _ => None
  end.
(** for i in range(start, last+1): l[i] = x  (37-40) *)
Definition set_range {A} (start last : nat) (x : A) (l : list A) : list A :=
  firstn start l ++ repeat x (last + 1 - start) ++ skipn (last + 1) l.
(** v[start:last+1] *)
Definition slice (start last : nat) (v : vec) : vec := firstn (last + 1 - start) (skipn start v).
(** one round of the loop, lines 23-40 *)
Definition pav_step (v : vec) (lvlsets : list (nat * nat)) : option (vec * list (nat * nat)) :=
  match first_viol v with
  | None => None
  | Some k =>
      let start := fst (nth k lvlsets (0, 0)%nat) in
      let last := snd (nth (k + 1) lvlsets (0, 0)%nat) in
      let val := vsum (slice start last v) / INR (last - start + 1) in
      Some (set_range start last val v, set_range start last (start, last) lvlsets)
  end.
Fixpoint pav_loop (fuel : nat) (v : vec) (lvlsets : list (nat * nat)) : option vec :=
  match fuel with
  | O => None
  | S fuel' => match pav_step v lvlsets with
               | None => Some v
               | Some (v', lv') => pav_loop fuel' v' lv'
               end
  end.
(** lvlsets = np.c_[arange(n), arange(n)], lines 19-21 *)
Definition pav (fuel : nat) (y : vec) : option vec :=
  pav_loop fuel y (map (fun i => (i, i)) (seq 0 (length y))).

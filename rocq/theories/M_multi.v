(** Model of regreg/affine/multiscale.py. *)
From Coq Require Import Reals List Arith ZArith.
From Verif Require Import Vec Spec M_quad M_slope M_affine.
Import ListNotations.
Local Open Scope R_scope.

(** int(np.around(p ** (1/3.))), regreg/affine/multiscale.py:43. The nearest integer to the real cube root, searched for
    upwards: a tie would need 8 p = (2k+1)^3, odd, so the rounding rule does not matter. The error of the floating-point
    power is not modelled. *)
Fixpoint cbrt_from (k fuel : nat) (p : nat) : nat :=
  match fuel with
  | O => k
  | S fuel' => if (8 * p <? (2 * k + 1) ^ 3)%nat then k else cbrt_from (S k) fuel' p
  end.
Definition round_cbrt (p : nat) : Z := Z.of_nat (cbrt_from 0 p p).

(** Boolean indexing l[mask], and zeros[mask] = v, regreg/affine/multiscale.py:50,130,167 *)
Fixpoint pick {A} (mask : list bool) (l : list A) : list A :=
  match mask, l with
  | b :: mask', a :: l' => if b then a :: pick mask' l' else pick mask' l'
  | _, _ => []
  end.
Fixpoint put (mask : list bool) (v : vec) : vec :=
  match mask with
  | [] => []
  | true :: mask' => hd 0 v :: put mask' (tl v)
  | false :: mask' => 0 :: put mask' v
  end.
(** np.indices((p,p)).reshape((2,-1)), regreg/affine/multiscale.py:48, as a list of pairs *)
Definition pairs (p : nat) : list (nat * nat) := list_prod (seq 0 p) (seq 0 p).
Definition zpair (ij : nat * nat) : Z * Z := (Z.of_nat (fst ij), Z.of_nat (snd ij)).

(** The attributes of a multiscale instance, regreg/affine/multiscale.py:42-58. [ms_slices]: the records (start, end).
    [ms_mask]: absent when slices were given to the constructor. *)
Record mscale := mk_ms { ms_p : nat; ms_minsize : Z; ms_slices : list (Z * Z); ms_scaling : fld; ms_all : bool;
  ms_mask : option (list bool); ms_sizes : vec; ms_out : nat }.
Definition sizes_of (s : list (Z * Z)) : vec := map (fun ij => IZR (snd ij) - IZR (fst ij) * 1) s.
(** regreg/affine/multiscale.py:42-58. [slices]: a list of tuples or an array of the records; no slices, all of them. *)
Definition ms_new (p : nat) (minsize : option Z) (slices : list (Z * Z)) (scaling : fld) : mscale :=
  let m := match minsize with Some z => if (z =? 0)%Z then round_cbrt p else z | None => round_cbrt p end in
  match slices with
  | [] =>
      let mask := map (fun ij => (m <=? Z.of_nat (snd ij) - Z.of_nat (fst ij))%Z) (pairs p) in
      let s := map zpair (pick mask (pairs p)) in
      mk_ms p m s scaling true (Some mask) (sizes_of s) (length s)
  | _ :: _ => mk_ms p m slices scaling false None (sizes_of slices) (length slices)
  end.
(** __copy__, regreg/affine/multiscale.py:60-71 *)
Definition ms_copy (M : mscale) : mscale :=
  let M0 := ms_new (ms_p M) None [] FNone in
  mk_ms (ms_p M0) (ms_minsize M) (ms_slices M) (ms_scaling M) (ms_all M) (match ms_mask M with Some m => Some m | None => ms_mask M0 end)
    (ms_sizes M) (ms_out M).
(** update_slices, regreg/affine/multiscale.py:73-98. [records]: the argument is an array of the records. Without them an empty
    list has no columns: self.slices is already empty when slices[:,0] fails. *)
Definition ms_update (M : mscale) (records : bool) (slices : list (Z * Z)) (scaling : fld) : mscale * res unit :=
  match records, slices with
  | false, [] => (mk_ms (ms_p M) (ms_minsize M) [] (ms_scaling M) (ms_all M) (ms_mask M) (ms_sizes M) (ms_out M), Err IndexError)
  | _, _ => (mk_ms (ms_p M) (ms_minsize M) slices scaling false (ms_mask M) (sizes_of slices) (length slices), Ok tt)
  end.

(** a[k] and the ends of a[i:j] with Python's negative positions *)
Definition py_get (l : vec) (k : Z) : res R :=
  let n := Z.of_nat (length l) in
  let k := if (k <? 0)%Z then (k + n)%Z else k in
  if ((0 <=? k) && (k <? n))%Z%bool then Ok (nth (Z.to_nat k) l 0) else Err IndexError.
Definition py_end (n : nat) (k : Z) : nat :=
  let k := if (k <? 0)%Z then (k + Z.of_nat n)%Z else k in Nat.min n (Z.to_nat k).
(** output[i:j] += a *)
Definition slice_add (i j : nat) (a : R) (out : vec) : vec :=
  map (fun l => if ((i <=? l) && (l <? j))%nat%bool then nth l out 0 + a else nth l out 0) (seq 0 (length out)).
(** output *= scaling; an array of another length fails. (The broadcast of arrays of length one is left out.) *)
Definition rescale (scaling : fld) (v : vec) : res vec :=
  match scaling with
  | FNone => Ok v
  | FScal c => Ok (map (fun a => a * c) v)
  | FVec s => if Nat.eqb (length s) (length v) then Ok (vmul v s) else Err ValueError
  end.
(** One pass of the loop of linear_map, regreg/affine/multiscale.py:121-127; x / 0 is nan or inf *)
Definition slice_mean (cum : vec) (ij : Z * Z) : res R :=
  let (i, j) := ij in
  rbind (if (1 <=? i)%Z then rbind (py_get cum (j - 1)) (fun a => rbind (py_get cum (i - 1)) (fun b => Ok (a - b))) else py_get cum (j - 1)) (fun s =>
  if (j - i =? 0)%Z then Err NaNResult else Ok (s / IZR (j - i))).
Fixpoint rmapM {A B} (f : A -> res B) (l : list A) : res (list B) :=
  match l with [] => Ok [] | a :: l' => rbind (f a) (fun b => rbind (rmapM f l') (fun bs => Ok (b :: bs))) end.
Definition has_zero (v : vec) : bool := existsb (fun a => if Req_EM_T a 0 then true else false) v.
(** linear_map, regreg/affine/multiscale.py:100-134; one-dimensional x. The output starts as output_shape
    zeros. The mean of an empty x is nan. Once a nan is met the
    loop of the code goes on; here the first failure is the result. *)
Definition ms_linear (M : mscale) (x : vec) : res vec :=
  match x with
  | [] => Err NaNResult
  | _ :: _ =>
      let cum := cumsum (center x) in
      rbind (if negb (ms_all M) then rmap (fun vals => vals ++ zeros (ms_out M - length vals)) (rmapM (slice_mean cum) (ms_slices M))
             else match ms_mask M with
                  | None => Err AttributeError
                  | Some mask =>
                      let cum0 := 0 :: cum in
                      let D := map (fun ij => nth (fst ij) cum0 0 - nth (snd ij) cum0 0) (pairs (length x)) in
                      if negb (Nat.eqb (length mask) (length D)) then Err IndexError
                      else if negb (Nat.eqb (length (pick mask D)) (length (ms_sizes M))) then Err ValueError
                      else if has_zero (ms_sizes M) then Err NaNResult
                      else Ok (vzip Rdiv (map Ropp (pick mask D)) (ms_sizes M))
                  end) (rescale (ms_scaling M))
  end.
(** affine_map, regreg/affine/multiscale.py:136-137 *)
Definition ms_affine (M : mscale) (x : vec) : res vec := ms_linear M x.
(** adjoint_map, regreg/affine/multiscale.py:139-171; one-dimensional v. self.slices[k] fails past the last slice. *)
Definition ms_adjoint (M : mscale) (v : vec) : res vec :=
  if negb (Nat.eqb (length v) (length (ms_sizes M))) then Err ValueError
  else if has_zero (ms_sizes M) then Err NaNResult
  else rbind (rescale (ms_scaling M) (vzip Rdiv v (ms_sizes M))) (fun w =>
  let p := ms_p M in
  rbind (if negb (ms_all M)
         then if existsb (fun a => if Req_EM_T a 0 then false else true) (skipn (length (ms_slices M)) w) then Err IndexError else Ok (fold_left (fun out k => if Req_EM_T (nth k w 0) 0 then out
                                          else let (i, j) := nth k (ms_slices M) (0, 0)%Z in slice_add (py_end p i) (py_end p j) (nth k w 0) out)
                    (seq 0 (length w)) (zeros p))
         else match ms_mask M with
              | None => Err AttributeError
              | Some mask =>
                  if negb (Nat.eqb (length mask) (p * p)) then Err IndexError
                  else let V := put mask w in
                       let at_ i j := nth (i * p + j) V 0 in
                       let cols := map (fun j => vsum (map (fun i => at_ i j) (seq 0 p))) (seq 0 p) in
                       let rows := map (fun i => vsum (map (fun j => at_ i j) (seq 0 p))) (seq 0 p) in
                       Ok (map Ropp (cumsum (vsub cols rows)))
              end) (fun out =>
  match out with [] => Err NaNResult | _ :: _ => Ok (center out) end)).

(** form_matrix, regreg/affine/multiscale.py:173-186: the columns of X_hat / np.sqrt(length), and length. np.sqrt of a
    negative length, and 0 / 0, are nan. *)
Definition form_column (p : nat) (ij : Z * Z) : vec :=
  let col := map (fun l => if ((py_end p (fst ij) <=? l) && (l <? py_end p (snd ij)))%nat%bool then 1 else 0) (seq 0 p) in
  map (fun a => a / sqrt (IZR (snd ij - fst ij))) (center col).
Definition form_matrix (p : nat) (slices : list (Z * Z)) : res (list vec * vec) :=
  if existsb (fun ij => (snd ij - fst ij <=? 0)%Z) slices then Err NaNResult
  else Ok (map (form_column p) slices, map (fun ij => IZR (snd ij - fst ij)) slices).

(** np.argmax: the first position of the largest entry *)
Fixpoint argmax_from (best : nat) (a : R) (k : nat) (l : vec) : nat :=
  match l with [] => best | b :: l' => if Rlt_dec a b then argmax_from k b (S k) l' else argmax_from best a (S k) l' end.
Definition argmax (l : vec) : res nat := match l with [] => Err ValueError | a :: l' => Ok (argmax_from 0 a 1 l') end.
(** np.std *)
Definition np_std (z : vec) : R := sqrt (vsum (map (fun a => a * a) (center z)) / INR (length z)).
(** SMUCE_stat, regreg/affine/multiscale.py:188-220, with the instance it leaves behind. sigma_hat is bound only when sigma
    is None. np.log of a ratio below one makes the threshold nan; sizes are taken to be positive. *)
Definition smuce (M : mscale) (z : vec) (sigma : option R) : mscale * res (R * (Z * Z)) :=
  let M1 := mk_ms (ms_p M) (ms_minsize M) (ms_slices M) (FVec (map sqrt (ms_sizes M))) (ms_all M) (ms_mask M) (ms_sizes M) (ms_out M) in
  (M1, match sigma with
       | Some _ => Err NameError
       | None =>
           let p := INR (length z) in
           rbind (ms_linear M1 (center z)) (fun v =>
           if Req_EM_T (np_std z) 0 then Err NaNResult
           else if existsb (fun s => if Rlt_dec p s then true else false) (ms_sizes M) then Err NaNResult
           else let T := vzip Rminus (map (fun a => Rabs (a / np_std z)) v) (map (fun s => sqrt (2 * ln (p / s))) (ms_sizes M)) in
                rbind (argmax T) (fun k => Ok (nth k T 0, nth k (ms_slices M) (0, 0)%Z)))
       end).

(** Model of choose_tuning_parameter, regreg/affine/multiscale.py:222-256, as a function of the vectors drawn. *)
From Coq Require Import Reals List Arith ZArith.
From Verif Require Import Vec Spec M_slope M_multi.
Import ListNotations.
Local Open Scope R_scope.

(** np.percentile(V, 100 * q) with its default linear interpolation, as called at regreg/affine/multiscale.py:256. A percentage
    outside [0, 100] raises ValueError; of nothing it is nan. *)
Definition np_percentile (V : vec) (q : R) : res R :=
  if Rlt_dec q 0 then Err ValueError else if Rlt_dec 1 q then Err ValueError
  else match V with
  | [] => Err NaNResult
  | _ => let s := np_sort V in
      let top := (length V - 1)%nat in
      let at_ := INR top * q in
      let lo := Z.to_nat (Int_part at_) in
      let hi := Nat.min (lo + 1) top in
      Ok (nth lo s 0 + (at_ - INR lo) * (nth hi s 0 - nth lo s 0))
  end.
(** The loop, regreg/affine/multiscale.py:251-255: the instance left behind and the statistics. SMUCE_stat is called without sigma. *)
Fixpoint draw_stats (M : mscale) (draws : list vec) : mscale * res vec :=
  match draws with
  | [] => (M, Ok [])
  | z :: draws' =>
      match smuce M z None with
      | (M1, Err e) => (M1, Err e)
      | (M1, Ok (t, _)) => let '(M2, r) := draw_stats M1 draws' in (M2, rmap (cons t) r)
      end
  end.
(** choose_tuning_parameter(M, len(draws), q, sigma), regreg/affine/multiscale.py:222-256 *)
Definition tuning (M : mscale) (draws : list vec) (q : R) (sigma : option R) : mscale * res R :=
  let '(M1, r) := draw_stats M draws in (M1, rbind r (fun V => np_percentile V q)).

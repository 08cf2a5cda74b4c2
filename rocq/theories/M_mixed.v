(** Model of regreg/atoms/mixed_lasso_cython.pyx. The four index arrays and the array [groups] (-1 where
    a coordinate is in no group) are represented by one list giving the kind of each coordinate: both callers
    build them so that every coordinate has exactly one kind. The buffers norms, factors and projection are
    zero at entry (every caller flushes them) and are local here. A nan in a result is [Err NaNResult].
    Group weights are finite. *)
From Coq Require Import Reals List Bool.
From Verif Require Import Vec Spec M_quad M_prox M_semi M_slope.
Import ListNotations.
Local Open Scope R_scope.

Inductive kind := MGroup (j : nat) | MUnpen | ML1 | MPos | MNonneg.

(** norms[groups[i]] += x[i]**2, then sqrt: e.g. mixed_lasso_cython.pyx:35-40 *)
Fixpoint add_norms (kinds : list kind) (x norms : vec) : vec :=
  match kinds, x with
  | MGroup j :: kinds', a :: x' => add_norms kinds' x' (upd j (nth j norms 0 + a * a) norms)
  | _ :: kinds', _ :: x' => add_norms kinds' x' norms
  | _, _ => norms
  end.
Definition group_norms (kinds : list kind) (q : nat) (x : vec) : vec := map sqrt (add_norms kinds x (zeros q)).
(** factors, mixed_lasso_cython.pyx:41-44, 81-84, 364-367, 431-434 *)
Definition group_factors (cut : R) (weights norms : vec) : vec :=
  vzip (fun w s => if Rlt_dec 0 s then Rmin 1 (cut * w / s) else 1) weights norms.
(** one entry of [projection], mixed_lasso_cython.pyx:46-56. For l1 entries, a * minimum(1, cut/|a|): a zero
    entry gives cut/0 = inf if cut > 0, and a nan otherwise. *)
Definition clip_entry (cut : R) (factors : vec) (k : kind) (a : R) : option R :=
  match k with
  | MGroup j => Some (a * nth j factors 0)
  | ML1 => if Req_EM_T a 0 then (if Rlt_dec 0 cut then Some 0 else None) else Some (a * Rmin 1 (cut / Rabs a))
  | MUnpen => Some 0
  | MPos => Some (Rmin cut a)
  | MNonneg => Some (Rmin a 0)
  end.
Fixpoint clip_entries (cut : R) (factors : vec) (kinds : list kind) (x : vec) : res vec :=
  match kinds, x with
  | k :: kinds', a :: x' =>
      match clip_entry cut factors k a with
      | None => Err NaNResult
      | Some b => rmap (cons b) (clip_entries cut factors kinds' x')
      end
  | _, _ => Ok []
  end.
Definition mixed_clip (kinds : list kind) (weights x : vec) (cut : R) : res vec :=
  clip_entries cut (group_factors cut weights (group_norms kinds (length weights) x)) kinds x.

(** mixed_lasso_lagrange_prox, mixed_lasso_cython.pyx:16-58 *)
Definition mixed_lagrange_prox (kinds : list kind) (weights x : vec) (lagrange lipschitz : R) : res vec :=
  rmap (vsub x) (mixed_clip kinds weights x (lagrange / lipschitz)).
(** mixed_lasso_dual_bound_prox, mixed_lasso_cython.pyx:60-95 *)
Definition mixed_dual_bound_prox (kinds : list kind) (weights x : vec) (bound : R) : res vec :=
  mixed_clip kinds weights x bound.

(** x[l1_penalty] etc. *)
Fixpoint kpick (sel : kind -> bool) (kinds : list kind) (x : vec) : vec :=
  match kinds, x with k :: kinds', a :: x' => if sel k then a :: kpick sel kinds' x' else kpick sel kinds' x' | _, _ => [] end.
Definition is_l1 (k : kind) : bool := match k with ML1 => true | _ => false end.
Definition is_pos (k : kind) : bool := match k with MPos => true | _ => false end.
Definition is_nonneg (k : kind) : bool := match k with MNonneg => true | _ => false end.
(** The call of the root finder, mixed_lasso_cython.pyx:343-361 and 407-425: fnorms stacks the group norms, the
    non-zero (signed) l1 entries and the positive entries of the positive part. *)
Definition mixed_cut (kinds : list kind) (weights x : vec) (b slope : R) : res R :=
  let norms := group_norms kinds (length weights) x in
  let l1term := filter (fun a => if Req_EM_T a 0 then false else true) (kpick is_l1 kinds x) in
  let ppterm := filter (fun a => if Rlt_dec 0 a then true else false) (kpick is_pos kinds x) in
  find_solution_piecewise_linear b slope (norms ++ l1term ++ ppterm) (weights ++ map (fun _ => 1) (l1term ++ ppterm)).
(** mixed_lasso_bound_prox, mixed_lasso_cython.pyx:320-380 ([cut < np.inf] always holds for real cuts) *)
Definition mixed_bound_prox (kinds : list kind) (weights x : vec) (bound : R) : res vec :=
  rbind (mixed_cut kinds weights x bound 0) (fun cut => rmap (vsub x) (mixed_clip kinds weights x cut)).
(** mixed_lasso_epigraph, mixed_lasso_cython.pyx:382-451 *)
Definition mixed_epigraph (kinds : list kind) (weights center : vec) : res vec :=
  match center with
  | [] => Err IndexError
  | _ =>
    let x := removelast center in
    let nrm := last center 0 in
    rbind (mixed_cut kinds weights x nrm 1) (fun cut =>
    if Rle_dec 0 (nrm + cut) then rmap (fun p => vsub x p ++ [nrm + cut]) (mixed_clip kinds weights x cut)
    else Ok (zeros (length center)))
  end.

(** seminorm_mixed_lasso, mixed_lasso_cython.pyx:97-135 *)
Definition mixed_seminorm (kinds : list kind) (weights x : vec) (check_feasibility : bool) : ext :=
  let value := vsum (vabs (kpick is_l1 kinds x)) + vsum (map (fun a => Rmax a 0) (kpick is_pos kinds x))
               + vsum (vmul weights (group_norms kinds (length weights) x)) in
  let below l := existsb (fun a => if Rlt_dec a tol then true else false) l in
  if check_feasibility && (below (kpick is_pos kinds x) || below (kpick is_nonneg kinds x)) then PInf else Fin value.
(** seminorm_mixed_lasso_dual with check_feasibility=0, mixed_lasso_cython.pyx:275-318. [value] starts at
    -inf when there is no l1 entry ([None]). *)
Definition omax (v : option R) (a : R) : option R := Some (match v with None => a | Some b => Rmax b a end).
Definition mixed_dual_seminorm (kinds : list kind) (weights x : vec) : option R :=
  let v0 := fold_left omax (vabs (kpick is_l1 kinds x)) None in
  let v1 := fold_left omax (map (fun a => Rmax a 0) (kpick is_pos kinds x)) v0 in
  fold_left (fun v p => if Rlt_dec 0 (fst p) then omax v (snd p / fst p) else v) (combine weights (group_norms kinds (length weights) x)) v1.

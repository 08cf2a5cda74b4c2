(** Model of huberized_svm, regreg/smooth/losses.py:14-72, for a dense matrix X (a list of rows with p columns) and an array of labels.
    Arithmetic is real. *)
From Coq Require Import Reals List Arith Bool.
From Verif Require Import Vec Spec M_quad M_prox M_semi M_affine M_loss M_smooth M_afatom M_shift M_cones M_problem M_sconj.
Import ListNotations.
Local Open Scope R_scope.

(** The attributes used below, regreg/smooth/losses.py:18-42 *)
Record hsvm := mk_hsvm { hs_shape : nat; hs_coef : R; hs_offset : option vec; hs_quadratic : iq; hs_smoothed : sconj * transform }.
(** np.max(labels), which raises on an empty array, regreg/smooth/losses.py:39 *)
Definition np_max (l : vec) : res R := match l with [] => Err ValueError | a :: r => Ok (fold_left Rmax r a) end.
(** Y = 2 * (labels == np.max(labels)) - 1, regreg/smooth/losses.py:39 *)
Definition force_labels (top : R) (labels : vec) : vec := map (fun l => 2 * (if Req_EM_T l top then 1 else 0) - 1) labels.
(** -Y[:, None] * X, regreg/smooth/losses.py:40. One label for several rows would be broadcast and is outside the model; other lengths do not broadcast. *)
Definition signed_rows (Y : vec) (X : list vec) : list vec := map (fun p => vscal (- fst p) (snd p)) (combine Y X).
(** __init__, regreg/smooth/losses.py:18-42; the checks of smooth_atom.__init__, regreg/smooth/__init__.py:43-55, come first.
    [coef], [offset] and [quadratic] are stored; the smoothed atom is built from X, labels and smoothing_parameter alone. *)
Definition new_hsvm (X : list vec) (p : nat) (labels : vec) (smoothing c : R) (offset : option vec) (quadratic : option iq) : res hsvm :=
  if Rlt_dec c 0 then Err ValueError else
  if Nat.ltb 2 (length (nodup Req_EM_T labels)) then Err ValueError else
  rbind (np_max labels) (fun top =>
  if negb (Nat.eqb (length labels) (length X)) then Err ValueError else
  let Y := force_labels top labels in
  rbind (M_afatom.cls_affine CPosPart (signed_rows Y X) p (Some (const_vec (length Y) 1)) (Some 1) None None) (fun atom =>
  rmap (mk_hsvm p c (norm_offset offset) (match quadratic with Some q => q | None => no_quad end)) (aa_smoothed atom (mk_iq smoothing (FScal 0) (FScal 0) 0)))).
(** smooth_objective, regreg/smooth/losses.py:44-72 *)
Definition hsvm_eval (M : hsvm) (beta : vec) (m : smode_arg) : res (option sval) := asc_eval (hs_smoothed M) beta m.

(** Model of regreg/atoms/mixed_lasso.py. *)
From Coq Require Import Reals List ZArith Bool.
From Verif Require Import Vec Spec M_quad M_prox M_semi M_shift M_mixed M_group.
Import ListNotations.
Local Open Scope R_scope.

(** A mixed_lasso (dual = false; parameter: lagrange) or mixed_lasso_dual (true; parameter: bound) object.
    [ml_ids] is the order in which the Python set of group labels is enumerated by __init__,
    regreg/atoms/mixed_lasso.py:61-75: some list of the non-reserved labels, each once. *)
Record mlatom := mk_mlatom { ml_dual : bool; ml_labels : list Z; ml_ids : list Z; ml_weights : Z -> option R; ml_par : R; ml_base : base }.
(** regreg/atoms/mixed_lasso.py:17-23, 66-75: index arrays and _groups *)
Definition kind_of (ids : list Z) (l : Z) : kind :=
  if Z.eqb l (-1) then MUnpen else if Z.eqb l (-2) then ML1 else if Z.eqb l (-3) then MPos else if Z.eqb l (-4) then MNonneg else MGroup (index_of l ids).
Definition ml_kinds (labels ids : list Z) : list kind := map (kind_of ids) labels.
Definition ml_warr (labels ids : list Z) (weights : Z -> option R) : vec := map (weight_of weights labels) ids.
(** proximal, regreg/atoms/mixed_lasso.py:179-229 and 361-405 *)
Definition mlatom_proximal (a : mlatom) (quadratic : addend) : res vec :=
  shifted_prox (ml_base a) quadratic (fun x L =>
    let kinds := ml_kinds (ml_labels a) (ml_ids a) in let warr := ml_warr (ml_labels a) (ml_ids a) (ml_weights a) in
    if ml_dual a then mixed_dual_bound_prox kinds warr x (ml_par a) else mixed_lagrange_prox kinds warr x (ml_par a) L).
(** seminorm, regreg/atoms/mixed_lasso.py:160-177 and 341-359: the offset is applied inside. np.int is taken to be int. *)
Definition mlatom_seminorm (a : mlatom) (x : vec) (check_feasibility : bool) : ext :=
  ext_scale (ml_par a) (mixed_seminorm (ml_kinds (ml_labels a) (ml_ids a)) (ml_warr (ml_labels a) (ml_ids a) (ml_weights a)) (base_apply_offset (ml_base a) x) check_feasibility).
Definition mlatom_dual_seminorm (a : mlatom) (x : vec) : option R :=
  mixed_dual_seminorm (ml_kinds (ml_labels a) (ml_ids a)) (ml_warr (ml_labels a) (ml_ids a) (ml_weights a)) (base_apply_offset (ml_base a) x).
(** constraint of the dual, regreg/atoms/mixed_lasso.py:325-330: a boolean; the offset is applied here and in seminorm *)
Definition mlatom_dual_constraint (a : mlatom) (x : vec) (bound : R) : bool :=
  match mlatom_dual_seminorm a (base_apply_offset (ml_base a) x) with Some v => if Rle_dec v bound then true else false | None => true end.
(** nonsmooth_objective, regreg/atoms/mixed_lasso.py:154-158 and 332-339; True counts as 1 *)
Definition mlatom_objective (a : mlatom) (x : vec) (check_feasibility : bool) : res ext :=
  shifted_objective (ml_base a) x (fun y =>
    if ml_dual a then Ok (Fin (if check_feasibility then (if mlatom_dual_constraint a y (ml_par a) then 1 else 0) else 0))
    else Ok (mlatom_seminorm a y check_feasibility)).
(** conjugate, regreg/atoms/mixed_lasso.py:116-131 and 294-309, branch coef == 0; [ids] is the enumeration made by the new object *)
Definition mlatom_conjugate (ids : list Z) (a : mlatom) : option mlatom :=
  option_map (mk_mlatom (negb (ml_dual a)) (ml_labels a) ids (ml_weights a) (ml_par a)) (conjugate_base (ml_base a)).

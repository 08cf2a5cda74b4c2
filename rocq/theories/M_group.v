(** Model of regreg/atoms/group_lasso.py. Group labels are integers; weights are finite. *)
From Coq Require Import Reals List ZArith Bool.
From Verif Require Import Vec Spec M_quad M_prox M_semi M_shift M_mode M_mixed.
Import ListNotations.
Local Open Scope R_scope.

(** sorted(np.unique(groups)), regreg/atoms/group_lasso.py:62 *)
Fixpoint insert_z (g : Z) (l : list Z) : list Z :=
  match l with
  | [] => [g]
  | h :: l' => if Z.eqb g h then l else if Z.ltb g h then g :: l else h :: insert_z g l'
  end.
Definition sorted_unique (l : list Z) : list Z := fold_right insert_z [] l.
(** position of a label, list.index / the value stored in _group_array *)
Fixpoint index_of (g : Z) (ids : list Z) : nat :=
  match ids with [] => 0 | h :: ids' => if Z.eqb g h then 0 else S (index_of g ids') end.

(** self.weights.get(g, np.sqrt(group.sum())), regreg/atoms/group_lasso.py:69 *)
Definition weight_of (weights : Z -> option R) (groups : list Z) (g : Z) : R :=
  match weights g with Some r => r | None => sqrt (INR (length (filter (Z.eqb g) groups))) end.

(** A group_lasso (dual = false) or group_lasso_dual (true) object. [g_weights] is the dictionary after
    construction, where every label of groups has a value. *)
Record gatom := mk_gatom { g_dual : bool; g_groups : list Z; g_weights : Z -> option R; g_moded : moded }.
(** __init__, regreg/atoms/group_lasso.py:40-81 *)
Definition filled (weights : Z -> option R) (groups : list Z) (g : Z) : option R :=
  if existsb (Z.eqb g) groups then Some (weight_of weights groups g) else weights g.
Definition new_gatom (dual : bool) (groups : list Z) (weights : Z -> option R) (lagrange bound : option R) (offset : option vec) (quadratic : option iq) : res gatom :=
  rmap (mk_gatom dual groups (filled weights groups)) (new_moded (length groups) lagrange bound offset quadratic).
(** _sorted_groupids, _weight_array and _group_array *)
Definition g_ids (groups : list Z) : list Z := sorted_unique groups.
Definition g_warr (groups : list Z) (weights : Z -> option R) : vec := map (weight_of weights groups) (g_ids groups).
Definition g_kinds (groups : list Z) : list kind := map (fun l => MGroup (index_of l (g_ids groups))) groups.
(** set_weight, regreg/atoms/group_lasso.py:83-89; list.index raises ValueError for an unknown label *)
Definition set_weight (a : gatom) (group : Z) (weight : R) : res gatom :=
  if existsb (Z.eqb group) (g_groups a) then
    Ok (mk_gatom (g_dual a) (g_groups a) (fun g => if Z.eqb g group then Some weight else g_weights a g) (g_moded a))
  else Err ValueError.

(** seminorm, regreg/atoms/group_lasso.py:190-209 and 339-357 (a dual value of -inf, when no group has a
    positive weight, is reported as [Err NaNResult]) *)
Definition g_seminorm (dual : bool) (groups : list Z) (weights : Z -> option R) (x : vec) (lagrange : R) : res ext :=
  if dual then
    match mixed_dual_seminorm (g_kinds groups) (g_warr groups weights) x with Some v => Ok (Fin (lagrange * v)) | None => Err NaNResult end
  else Ok (ext_scale lagrange (mixed_seminorm (g_kinds groups) (g_warr groups weights) x false)).
(** constraint, regreg/atoms/group_lasso.py:257-264 (-inf <= bound is true) *)
Definition g_constraint (dual : bool) (groups : list Z) (weights : Z -> option R) (x : vec) (bound : R) : res ext :=
  if dual then
    match mixed_dual_seminorm (g_kinds groups) (g_warr groups weights) x with Some v => Ok (if Rle_dec (1 * v) bound then Fin 0 else PInf) | None => Ok (Fin 0) end
  else Ok (match mixed_seminorm (g_kinds groups) (g_warr groups weights) x false with Fin v => if Rle_dec (1 * v) bound then Fin 0 else PInf | PInf => PInf end).
(** lagrange_prox, regreg/atoms/group_lasso.py:211-233 and 381-402 *)
Definition g_lagrange_prox (dual : bool) (groups : list Z) (weights : Z -> option R) (x : vec) (lipschitz lagrange : R) : res vec :=
  if dual then rmap (vsub x) (mixed_bound_prox (g_kinds groups) (g_warr groups weights) x (lagrange / lipschitz))
  else mixed_lagrange_prox (g_kinds groups) (g_warr groups weights) x lagrange lipschitz.
(** bound_prox, regreg/atoms/group_lasso.py:235-255 and 359-379 *)
Definition g_bound_prox (dual : bool) (groups : list Z) (weights : Z -> option R) (x : vec) (bound : R) : res vec :=
  if dual then mixed_dual_bound_prox (g_kinds groups) (g_warr groups weights) x bound
  else mixed_bound_prox (g_kinds groups) (g_warr groups weights) x bound.
(** terms, regreg/atoms/group_lasso.py:164-188 and 304-337 with check_feasibility=True *)
Fixpoint zpick (g : Z) (groups : list Z) (x : vec) : vec :=
  match groups, x with l :: groups', a :: x' => if Z.eqb l g then a :: zpick g groups' x' else zpick g groups' x' | _, _ => [] end.
Definition g_terms (dual : bool) (groups : list Z) (weights : Z -> option R) (x : vec) : list ext :=
  map (fun g => let s := norm (zpick g groups x) in let w := weight_of weights groups g in
       if dual then (if Rlt_dec 0 w then Fin (s / w) else if Rlt_dec 0 s then PInf else Fin 0) else Fin (s * w)) (g_ids groups).

Definition gatom_proximal (a : gatom) (quadratic : addend) : res vec :=
  moded_proximal (g_lagrange_prox (g_dual a) (g_groups a) (g_weights a)) (g_bound_prox (g_dual a) (g_groups a) (g_weights a)) (g_moded a) quadratic.
Definition gatom_objective (a : gatom) (x : vec) (chk : bool) : res ext :=
  moded_objective (fun y lam _ => g_seminorm (g_dual a) (g_groups a) (g_weights a) y lam) (g_constraint (g_dual a) (g_groups a) (g_weights a)) (g_moded a) x chk.
(** get_conjugate, regreg/atoms/group_lasso.py:143-162, branch quadratic.coef == 0 *)
Definition gatom_conjugate (a : gatom) : option (res gatom) :=
  match moded_conjugate (g_moded a) with
  | Some r => Some (rmap (mk_gatom (negb (g_dual a)) (g_groups a) (filled (g_weights a) (g_groups a))) r)
  | None => None
  end.
(** __copy__, regreg/atoms/group_lasso.py:99-106 *)
Definition gatom_copy (a : gatom) : res gatom :=
  new_gatom (g_dual a) (g_groups a) (g_weights a) (m_lagrange (g_moded a)) (m_bound (g_moded a)) (b_offset (m_base (g_moded a))) (Some (b_quadratic (m_base (g_moded a)))).
(** __eq__, regreg/atoms/group_lasso.py:91-97; the weights dictionaries are compared on the labels in [keys] *)
Definition opt_eqb (a b : option R) : bool :=
  match a, b with Some r, Some s => if Req_EM_T r s then true else false | None, None => true | _, _ => false end.
Fixpoint zlist_eqb (a b : list Z) : bool :=
  match a, b with [], [] => true | x :: a', y :: b' => Z.eqb x y && zlist_eqb a' b' | _, _ => false end.
Definition gatom_eq (a b : gatom) : bool :=
  Bool.eqb (g_dual a) (g_dual b) && zlist_eqb (g_groups a) (g_groups b)
  && forallb (fun g => opt_eqb (g_weights a g) (g_weights b g)) (g_groups a ++ g_groups b)
  && opt_eqb (m_lagrange (g_moded a)) (m_lagrange (g_moded b)).

(** strong_set, regreg/atoms/group_lasso.py:751-770: terms of the dual, keeping candidates *)
Definition g_strong_set (groups : list Z) (weights : Z -> option R) (lagrange_cur lagrange_new slope_estimate : R) (grad : vec) : list Z :=
  map fst (filter (fun p => match snd p with PInf => true | Fin t => if Rle_dec ((slope_estimate + 1) * lagrange_new - slope_estimate * lagrange_cur) t then true else false end)
    (combine (g_ids groups) (g_terms true groups weights grad))).
(** check_KKT, regreg/atoms/group_lasso.py:769-801: the undefined name solutionn *)
Definition g_check_KKT (groups : list Z) (weights : Z -> option R) (grad solution : vec) (lagrange tolerance : R) : res bool := Err NameError.

(** The epigraph cones, regreg/atoms/group_lasso.py:434-737 *)
Inductive gcclass := GEpi | GEpiPolar | GDualEpi | GDualEpiPolar.
(** cone_prox: 534-555, 583-604, 642-660, 700-718 *)
Definition gcone_prox (k : gcclass) (groups : list Z) (weights : Z -> option R) (x : vec) : res vec :=
  let epi y := mixed_epigraph (g_kinds groups) (g_warr groups weights) y in
  match k with
  | GEpi => epi x
  | GEpiPolar => rmap (vsub x) (epi x)
  | GDualEpi => rmap (vadd x) (epi (vopp x))
  | GDualEpiPolar => rmap vopp (epi (vopp x))
  end.
(** constraint: 511-516, 606-611, 663-667, 721-725; seminorm_class of each: 532, 581, 639, 697 *)
Definition gcone_constraint (k : gcclass) (groups : list Z) (weights : Z -> option R) (x : vec) : res ext :=
  match x with
  | [] => Err IndexError
  | _ =>
    let t := (match k with GEpi | GDualEpi => last x 0 | _ => - last x 0 end) in
    let dual := (match k with GEpi | GDualEpiPolar => false | _ => true end) in
    rmap (fun s => match s with Fin v => if Rle_dec v ((1 + tol) * t) then Fin 0 else PInf | PInf => PInf end) (g_seminorm dual groups weights (removelast x) 1)
  end.
(** conjugate_cone_pairs, regreg/atoms/group_lasso.py:743-747 *)
Definition gcone_polar (k : gcclass) : gcclass :=
  match k with GEpi => GEpiPolar | GEpiPolar => GEpi | GDualEpi => GDualEpiPolar | GDualEpiPolar => GDualEpi end.
Record gcone := mk_gcone { gc_class : gcclass; gc_groups : list Z; gc_weights : Z -> option R; gc_base : base }.
Definition gcone_proximal (c : gcone) (quadratic : addend) : res vec :=
  shifted_prox (gc_base c) quadratic (fun x _ => gcone_prox (gc_class c) (gc_groups c) (gc_weights c) x).
Definition gcone_objective (c : gcone) (x : vec) (check_feasibility : bool) : res ext :=
  shifted_objective (gc_base c) x (fun y => if check_feasibility then gcone_constraint (gc_class c) (gc_groups c) (gc_weights c) y else Ok (Fin 0)).
(** get_conjugate, regreg/atoms/group_lasso.py:484-500, branch coef == 0 *)
Definition gcone_conjugate (c : gcone) : option gcone :=
  option_map (mk_gcone (gcone_polar (gc_class c)) (gc_groups c) (filled (gc_weights c) (gc_groups c))) (conjugate_base (gc_base c)).

(** Model of regreg/atoms/cones.py and of projl1_epigraph. *)
From Coq Require Import Reals List Bool.
From Verif Require Import Vec Spec M_quad M_prox M_semi M_shift SpecCone.
Import ListNotations.
Local Open Scope R_scope.

(** regreg/atoms/projl1_cython.pyx:51-71. x[-1] of an empty array raises IndexError;
    [cut < np.inf] always holds for real cuts. *)
Definition projl1_epigraph (center : vec) : res vec :=
  match center with
  | [] => Err IndexError
  | _ =>
    let x := removelast center in
    let norm := last center 0 in
    rbind (find_solution_piecewise_linear_c norm 1 (vabs x)) (fun cut =>
    if Rle_dec 0 (norm + cut) then Ok (soft_threshold x cut ++ [norm + cut])
    else Ok (zeros (length center)))
  end.

(** regreg/atoms/cones.py:463-471 (l2_epigraph.cone_prox). [coef / norm_coef] is nan when coef is
    non-empty and zero. *)
Definition l2_cone_prox (x : vec) : res vec :=
  match x with
  | [] => Err IndexError
  | _ =>
    let nrm := last x 0 in
    let coef := removelast x in
    let norm_coef := norm coef in
    let thold := (norm_coef - nrm) / 2 in
    match coef with
    | [] => Ok [Rmax (nrm + thold) 0]
    | _ => if Req_EM_T norm_coef 0 then Err NaNResult
           else Ok (map (fun a => a / norm_coef * Rmax (norm_coef - thold) 0) coef ++ [Rmax (nrm + thold) 0])
    end
  end.

(** cone_prox of each class *)
Definition cone_prox (k : coneclass) (x : vec) : res vec :=
  match k with
  | KNonneg => (* cones.py:331-332 *) Ok (map (fun a => Rmax a 0) x)
  | KNonpos => (* 366-367 *) Ok (map (fun a => Rmin a 0) x)
  | KZero => (* 399-400 *) Ok x
  | KZeroCon => (* 432-433 *) Ok (zeros (length x))
  | KL2 => (* 463-471 *) l2_cone_prox x
  | KL2Polar => (* 506-515 *) rmap vopp (l2_cone_prox (vopp x))
  | KL1 => (* 549-550 *) projl1_epigraph x
  | KL1Polar => (* 586-588 *) rmap (vsub x) (projl1_epigraph x)
  | KLinf => (* 622-624 *) rmap (vadd x) (projl1_epigraph (vopp x))
  | KLinfPolar => (* 659-661 *) rmap vopp (projl1_epigraph (vopp x))
  end.

(** constraint of each class; x[-1] of an empty array raises IndexError, max of an empty array
    ValueError. *)
Definition with_last (x : vec) (f : vec -> R -> res bool) : res ext :=
  match x with
  | [] => Err IndexError
  | _ => rmap ok_or_inf (f (removelast x) (last x 0))
  end.
Definition cone_constraint (k : coneclass) (x : vec) : res ext :=
  match k with
  | KNonneg => (* 322-328 *)
      rmap (fun m => ok_or_inf (forallb (fun a => rleb (- (m * tol)) a) x)) (np_max (vabs x))
  | KNonpos => (* 358-363 *)
      rmap (fun m => ok_or_inf (forallb (fun a => rleb a (m * tol)) x)) (np_max (vabs x))
  | KZero => (* 395-396 *) Ok (Fin 0)
  | KZeroCon => (* 426-429 *) Ok (ok_or_inf (rleb (norm x) tol))
  | KL2 => (* 455-460 *) with_last x (fun c t => Ok (rleb (norm c) ((1 + tol) * t)))
  | KL2Polar => (* 499-503 *) with_last x (fun c t => Ok (rleb (norm c) ((1 + tol) * - t)))
  | KL1 => (* 542-546 *) with_last x (fun c t => Ok (rleb (vsum (vabs c)) ((1 + tol) * t)))
  | KL1Polar => (* 578-583 *) with_last x (fun c t => rmap (fun m => rleb m ((1 + tol) * - t)) (np_max (vabs (vopp c))))
  | KLinf => (* 615-619 *) with_last x (fun c t => rmap (fun m => rleb m ((1 + tol) * t)) (np_max (vabs c)))
  | KLinfPolar => (* 652-656 *) with_last x (fun c t => Ok (rleb (vsum (vabs c)) ((1 + tol) * - t)))
  end.

(** conjugate_cone_pairs, regreg/atoms/cones.py:679-687 *)
Definition polar_class (k : coneclass) : coneclass :=
  match k with
  | KNonneg => KNonpos | KNonpos => KNonneg
  | KZero => KZeroCon | KZeroCon => KZero
  | KL1 => KL1Polar | KL1Polar => KL1
  | KL2 => KL2Polar | KL2Polar => KL2
  | KLinf => KLinfPolar | KLinfPolar => KLinf
  end.

(** A cone object: its class and the common attributes. *)
Record cone := mk_cone { c_class : coneclass; c_base : base }.
Definition new_cone (k : coneclass) (n : nat) (offset : option vec) (quadratic : option iq) : cone :=
  mk_cone k (new_base n offset quadratic).
(** cones.py:159-208 *)
Definition cone_proximal (c : cone) (quadratic : addend) : res vec :=
  shifted_prox (c_base c) quadratic (fun x _ => cone_prox (c_class c) x).
(** cones.py:139-157 *)
Definition cone_objective (c : cone) (x : vec) (check_feasibility : bool) : res ext :=
  shifted_objective (c_base c) x (fun y => if check_feasibility then cone_constraint (c_class c) y else Ok (Fin 0)).
(** cones.py:60-84, branch coef == 0 *)
Definition cone_conjugate (c : cone) : option cone :=
  option_map (mk_cone (polar_class (c_class c))) (conjugate_base (c_base c)).
(** cones.py:36-45 *)
Definition cone_eq (c d : cone) : bool :=
  match c_class c, c_class d with
  | KNonneg, KNonneg | KNonpos, KNonpos | KZero, KZero | KZeroCon, KZeroCon | KL2, KL2 | KL2Polar, KL2Polar
  | KL1, KL1 | KL1Polar, KL1Polar | KLinf, KLinf | KLinfPolar, KLinfPolar =>
      Nat.eqb (b_shape (c_base c)) (b_shape (c_base d))
  | _, _ => false
  end.
Definition cone_copy (c : cone) : cone :=
  new_cone (c_class c) (b_shape (c_base c)) (b_offset (c_base c)) (Some (b_quadratic (c_base c))).

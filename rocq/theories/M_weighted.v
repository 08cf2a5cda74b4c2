(** Model of regreg/atoms/weighted_atoms.py. Weights are floats that may be infinite ([ext]); a nan in a
    returned array is [Err NaNResult]. lipschitz is positive in every call made by proximal. *)
From Coq Require Import Reals List Bool.
From Verif Require Import Vec Spec M_quad M_prox M_semi M_shift M_mode.
Import ListNotations.
Local Open Scope R_scope.

(** self.invweights, regreg/atoms/weighted_atoms.py:37-40 (1/inf is 0) *)
Definition invw (c : ext) : ext :=
  match c with Fin r => if Req_EM_T r 0 then PInf else Fin (1 / r) | PInf => Fin 0 end.
(** np.all(self.weights >= 0), regreg/atoms/weighted_atoms.py:42 *)
Definition weights_ok (w : list ext) : bool :=
  forallb (fun c => match c with Fin r => if Rle_dec 0 r then true else false | PInf => true end) w.
(** Masks: np.isfinite(weights); not (isinf or == 0) *)
Definition finiteb (c : ext) : bool := match c with Fin _ => true | PInf => false end.
Definition keepb (c : ext) : bool := match c with Fin r => if Req_EM_T r 0 then false else true | PInf => false end.
(** (arg[mask], weights[mask]) for a mask that keeps finite weights only *)
Fixpoint masked (keep : ext -> bool) (w : list ext) (x : vec) : list (R * R) :=
  match w, x with
  | c :: w', a :: x' =>
      match c with
      | Fin r => if keep c then (a, r) :: masked keep w' x' else masked keep w' x'
      | PInf => masked keep w' x'
      end
  | _, _ => []
  end.
(** any(~finite * (arg != 0)) *)
Fixpoint violates (w : list ext) (x : vec) : bool :=
  match w, x with
  | c :: w', a :: x' => (negb (finiteb c) && (if Req_EM_T a 0 then false else true)) || violates w' x'
  | _, _ => false
  end.
(** np.sign(a) * np.maximum(np.fabs(a) - cut, 0) for a finite or infinite cut *)
Definition soft_cut (cut : ext) (a : R) : R :=
  match cut with Fin t => sgn a * Rmax (Rabs a - t) 0 | PInf => 0 end.
(** k * c for k >= 0; 0*inf is nan *)
Definition fmul (k : R) (c : ext) : option ext :=
  match c with Fin r => Some (Fin (k * r)) | PInf => if Rlt_dec 0 k then Some PInf else None end.
Fixpoint cut_all (cut : ext -> option ext) (w : list ext) (x : vec) : res vec :=
  match w, x with
  | c :: w', a :: x' => match cut c with None => Err NaNResult | Some t => rmap (cons (soft_cut t a)) (cut_all cut w' x') end
  | _, _ => Ok []
  end.
(** one entry of np.clip(arg, -bound*inv, bound*inv) *)
Definition clip1 (hi : ext) (a : R) : R := match hi with Fin h => Rmin (Rmax a (- h)) h | PInf => a end.
Fixpoint clip_all (bound : R) (inv : list ext) (x : vec) : res vec :=
  match inv, x with
  | c :: inv', a :: x' => match fmul bound c with None => Err NaNResult | Some h => rmap (cons (clip1 h a)) (clip_all bound inv' x') end
  | _, _ => Ok []
  end.

Inductive wclass := WL1 | WSup.
(** conjugate_weighted_pairs, regreg/atoms/weighted_atoms.py:270-273 *)
Definition wpair (c : wclass) : wclass := match c with WL1 => WSup | WSup => WL1 end.

(** seminorm, regreg/atoms/weighted_atoms.py:146-161 and 212-226 *)
Definition w_seminorm (c : wclass) (w : list ext) (x : vec) (lagrange : R) (check_feasibility : bool) : res ext :=
  if check_feasibility && violates w x then Ok PInf
  else let terms := map (fun p => Rabs (fst p * snd p)) (masked finiteb w x) in
    match c with
    | WL1 => Ok (Fin (lagrange * vsum terms))
    | WSup => rmap (fun m => Fin (lagrange * m)) (np_max terms)
    end.
(** constraint, regreg/atoms/weighted_atoms.py:163-172 and 228-236 *)
Definition w_constraint (c : wclass) (w : list ext) (x : vec) (bound : R) : res ext :=
  rmap (fun s => match s with Fin r => if Rle_dec r (bound * (1 + tol)) then Fin 0 else PInf | PInf => PInf end) (w_seminorm c w x 1 true).
(** lagrange_prox, regreg/atoms/weighted_atoms.py:174-178 and 238-251. weights/lipschitz: x/lipschitz keeps an infinity *)
Definition w_lagrange_prox (c : wclass) (w : list ext) (x : vec) (lipschitz lagrange : R) : res vec :=
  match c with
  | WL1 => cut_all (fun wi => match fmul lagrange wi with Some (Fin r) => Some (Fin (r / lipschitz)) | o => o end) w x
  | WSup =>
      let inv := map invw w in
      let kept := masked keepb inv x in
      rbind (find_solution_piecewise_linear (lagrange / lipschitz) 0 (map (fun p => Rabs (fst p)) kept) (map snd kept)) (fun t =>
      rmap (vsub x) (cut_all (fmul t) inv x))
  end.
(** bound_prox, regreg/atoms/weighted_atoms.py:180-192 and 253-256 *)
Definition w_bound_prox (c : wclass) (w : list ext) (x : vec) (bound : R) : res vec :=
  match c with
  | WL1 =>
      let kept := masked keepb w x in
      rbind (find_solution_piecewise_linear bound 0 (map (fun p => Rabs (fst p)) kept) (map snd kept)) (fun t =>
      cut_all (fun wi => match wi with Fin r => Some (Fin (r * (t + 0))) | PInf => fmul (t + 1) PInf end) w x)
  | WSup => clip_all bound (map invw w) x
  end.

(** Objects: regreg/atoms/weighted_atoms.py:17-43 *)
Record watom := mk_watom { w_class : wclass; w_weights : list ext; w_moded : moded }.
Definition new_watom (c : wclass) (w : list ext) (lagrange bound : option R) (offset : option vec) (quadratic : option iq) : res watom :=
  rbind (new_moded (length w) lagrange bound offset quadratic) (fun m =>
  if weights_ok w then Ok (mk_watom c w m) else Err ValueError).
Definition watom_proximal (a : watom) (quadratic : addend) : res vec :=
  moded_proximal (w_lagrange_prox (w_class a) (w_weights a)) (w_bound_prox (w_class a) (w_weights a)) (w_moded a) quadratic.
Definition watom_objective (a : watom) (x : vec) (chk : bool) : res ext :=
  moded_objective (w_seminorm (w_class a) (w_weights a)) (w_constraint (w_class a) (w_weights a)) (w_moded a) x chk.
(** get_conjugate, regreg/atoms/weighted_atoms.py:91-117, branch quadratic.coef == 0 ([None] otherwise) *)
Definition watom_conjugate (a : watom) : option (res watom) :=
  match moded_conjugate (w_moded a) with
  | Some r => Some (rbind r (fun m =>
      let inv := map invw (w_weights a) in if weights_ok inv then Ok (mk_watom (wpair (w_class a)) inv m) else Err ValueError))
  | None => None
  end.
(** terms, regreg/atoms/weighted_atoms.py:194-201 and 258-268 (finite weights; a division by a zero weight is then
    overwritten when check_feasibility is set) *)
Definition l1_terms (w : vec) (x : vec) : vec := vmul (vabs x) w.
Definition sup_terms (w : vec) (x : vec) : list ext :=
  map (fun p => if Req_EM_T (snd p) 0 then (if Req_EM_T (fst p) 0 then Fin 0 else PInf) else Fin (fst p / snd p)) (combine (vabs x) w).

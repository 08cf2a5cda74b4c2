(** Model of container (regreg/problems/container.py) and of dual_problem and stacked_dual (regreg/problems/dual_problem.py). *)
From Coq Require Import Reals List Arith Bool.
From Verif Require Import M_affine M_loss M_smooth Vec Spec M_quad M_semi M_shift M_afatom SpecCone M_cones M_fista M_problem M_sconj.
Import ListNotations.
Local Open Scope R_scope.

(** ** dual_problem *)
(** dual_problem.__init__, regreg/problems/dual_problem.py:35-47. [dp_f]: smooth_objective of the conjugate of f *)
Record dproblem := mk_dproblem { dp_f : vec -> smode_arg -> res sval; dp_map : transform; dp_atom : nobj }.
(** scalar_multiply(adjoint(transform), -1) *)
Definition minus_adjoint (T : transform) : transform := scalar_multiply (adjoint T) (-1).
(** smooth_objective 58-67 through affine_smooth.smooth_objective, regreg/smooth/__init__.py:236-252; an unknown mode returns None *)
Definition dp_eval (D : dproblem) (u : vec) (m : smode_arg) : res (option sval) :=
  match m with EvOther => Ok None | _ => rmap (fun v => Some (pull (minus_adjoint (dp_map D)) v)) (dp_f D (t_aff (minus_adjoint (dp_map D)) u) m) end.
(** The attribute primal after smooth_objective(u, mode='grad') *)
Definition dp_primal (D : dproblem) (u : vec) : res vec := rmap (fun v => match v with VGrad g => g | VBoth _ g => g | VFunc _ => [] end) (dp_f D (t_aff (minus_adjoint (dp_map D)) u) EvGrad).
(** nonsmooth_objective 69-73: affine_smooth adds its own quadratic, which is zero *)
Definition dp_nonsmooth (D : dproblem) (u : vec) (check : bool) : res ext := rmap (fun v => ext_add v (Fin 0)) (o_value (dp_atom D) u check).
(** proximal 75-79 *)
Definition dp_prox (D : dproblem) (q : iq) : res vec := o_prox (dp_atom D) q.
Definition func_of (r : res (option sval)) : ext := match r with Ok (Some (VFunc f)) => Fin f | _ => PInf end.
Definition grad_of (r : res (option sval)) : vec := match r with Ok (Some (VGrad g)) => g | _ => [] end.
Definition dp_composite (D : dproblem) (lipschitz : R) : composite :=
  mk_composite (fun u => func_of (dp_eval D u EvFunc)) (fun u => grad_of (dp_eval D u EvGrad)) (fun u check => or_inf (dp_nonsmooth D u check))
               (fun L w g => or_nil (dp_prox D (mk_iq L (FVec w) (FVec g) 0))) lipschitz.
(** composite.objective, regreg/problems/composite.py:82-83 *)
Definition dp_objective (D : dproblem) (u : vec) (check : bool) : ext := ext_add (func_of (dp_eval D u EvFunc)) (or_inf (dp_nonsmooth D u check)).

(** ** The nonsmooth parts of a container *)
(** container.proximal treats objects of class identity and selector apart. *)
Inductive tkind := TIdentity | TSelector (idx : list nat) | TGeneral.
(** nonsmooth_objective, the pair dual, and the conjugate of its second half *)
Record npart := mk_npart { np_value : vec -> bool -> res ext; np_map : transform; np_kind : tkind; np_dual : nobj; np_primal : res nobj }.
(** atom.dual, regreg/atoms/__init__.py:40-46, 48-61: the transform of an atom is identity(shape) *)
Definition atom_part (a : atom) : res npart :=
  rmap (fun d => mk_npart (nonsmooth_objective a) (identity (shape a)) TIdentity (of_atom d) (rmap of_atom (get_conjugate d))) (get_conjugate a).
(** A cone whose quadratic has coef != 0 has a smooth_conjugate as conjugate, which has no proximal with positive curvature alone: not modelled *)
Definition cone_part (c : cone) : res npart :=
  match cone_conjugate c with
  | Some d => Ok (mk_npart (cone_objective c) (identity (b_shape (c_base c))) TIdentity (of_cone d) (match cone_conjugate d with Some e => Ok (of_cone e) | None => Err TypeError end))
  | None => Err TypeError
  end.
(** affine_atom.dual *)
Definition affine_part (A : affine_atom) (k : tkind) : res npart :=
  rmap (fun Td => mk_npart (aa_objective A) (fst Td) k (of_atom (snd Td)) (rmap of_atom (get_conjugate (snd Td)))) (aa_dual A).

(** output_slices of vstack, regreg/affine/__init__.py:546-549 *)
Fixpoint slices (start : nat) (ts : list transform) : list (list nat) :=
  match ts with [] => [] | t :: ts' => seq start (t_out t) :: slices (start + t_out t) ts' end.
Record stacked := mk_stacked { st_map : transform; st_kind : tkind; st_dual : nobj; st_primal : res nobj }.
(** stacked_dual, regreg/problems/dual_problem.py:104-146. The conjugate of a separable object is not modelled: a vstack is not an identity. *)
Definition stacked_dual (n : nat) (parts : list npart) : res stacked :=
  rbind (match parts with [] => rmap (fun p => [p]) (cone_part (new_cone KZero n None None)) | _ => Ok parts end) (fun parts =>
  match parts with
  | [p] => Ok (mk_stacked (np_map p) (np_kind p) (np_dual p) (np_primal p))
  | _ => rbind (vstack (map np_map parts)) (fun T =>
         rmap (fun S => mk_stacked T TGeneral (of_separable S) (Err NotImplementedError)) (new_separable (t_out T) (map np_dual parts) (slices 0 (map np_map parts)) false))
  end).

(** ** container *)
Record container := mk_container { ct_smooth : list satom; ct_parts : list npart; ct_stack : stacked; ct_quadratic : iq; ct_smoothq : iq; ct_coefs : vec }.
(** identity_quadratic sums: self.smoothq += atom.quadratic *)
Fixpoint sum_quadratics (q : iq) (l : list satom) : res iq := match l with [] => Ok q | a :: l' => rbind (q_add q (AQuad (s_quadratic a))) (fun q' => sum_quadratics q' l') end.
(** __init__, regreg/problems/container.py:26-50, for atoms of legal classes; [n]: the shape of the first smooth atom.
    self.smooth_atoms[0] fails when there is no smooth atom. *)
Definition new_container (n : nat) (smooths : list satom) (parts : list npart) : res container :=
  match smooths, parts with
  | [], [] => Err ValueError
  | [], _ => Err IndexError
  | _, _ =>
      rbind (match parts with [] => rmap (fun p => [p]) (cone_part (new_cone KZero n None None)) | _ => Ok parts end) (fun parts' =>
      rbind (stacked_dual n parts') (fun S =>
      rmap (fun sq => mk_container smooths parts' S no_quad sq (zeros (t_in (st_map S)))) (sum_quadratics zero_quad smooths)))
  end.
(** smooth_objective 52-77 *)
Definition ct_func (K : container) (x : vec) : R := fold_left (fun v a => v + s_func a x) (ct_smooth K) 0.
Definition ct_grad (K : container) (x : vec) : vec := fold_left (fun g a => vadd g (s_grad a x)) (ct_smooth K) (zeros (length x)).
(** nonsmooth_objective 79-85; a smooth atom contributes its quadratic *)
Fixpoint parts_value (acc : ext) (parts : list npart) (x : vec) (check : bool) : res ext :=
  match parts with [] => Ok acc | p :: parts' => rbind (np_value p x check) (fun v => parts_value (ext_add acc v) parts' x check) end.
Definition ct_nonsmooth (K : container) (x : vec) (check : bool) : res ext :=
  rmap (fun v => ext_add (fold_left (fun e a => ext_add e (Fin (q_func (s_quadratic a) x))) (ct_smooth K) v) (Fin (q_func (ct_quadratic K) x))) (parts_value (Fin 0) (ct_parts K) x check).
(** proxq + self.quadratic + self.smoothq *)
Definition total_q (K : container) (q : iq) : res iq := rbind (q_add q (AQuad (ct_quadratic K))) (fun q1 => q_add q1 (AQuad (ct_smoothq K))).
(** the dual problem set up in proximal 108-113 *)
Definition zero_with (n : nat) (q : iq) : cone := mk_cone KZero (mk_base n None q).
Definition ct_dual_problem (K : container) (q : iq) : res dproblem :=
  rbind (total_q K q) (fun t => rmap (fun C => mk_dproblem (sc_eval C) (st_map (ct_stack K)) (st_dual (ct_stack K))) (cone_sconj (zero_with (t_in (st_map (ct_stack K))) t))).
(** x - grad / lipschitz - transform.adjoint_map(u / lipschitz) 141-145: all three from the argument proxq; None cannot be subtracted *)
Definition ct_point (K : container) (q : iq) (u : vec) : res vec :=
  let d := t_adj (st_map (ct_stack K)) (map (fun a => a / coef q) u) in
  match center q, linear_term q with
  | FNone, _ | _, FNone => Err TypeError
  | x, g => match fop Rminus (fop Rminus x (fscale (/ coef q) g)) (FVec d) with FVec v => Ok v | _ => Err TypeError end
  end.
(** the defaults 98-102; perform_backtrack is set to False 124 *)
Definition prox_params (tol : option R) (min_its max_its : option nat) (restart : option nat) (coef_stop mono : bool) : params := mk_params tol min_its max_its true 1 restart coef_stop mono false.
Definition default_prox : params := prox_params (Some (/ 10 ^ 14)) (Some 5%nat) (Some 5000%nat) None false true.
(** proximal 88-156. [Ld]: dual_reference_lipschitz, given or 1.05*power_L(transform); the attribute dual_minimizer is never set, so the
    dual starts at 0 *)
Definition ct_proximal (P : params) (Ld : R) (K : container) (q : iq) : res vec :=
  match st_kind (ct_stack K) with
  | TIdentity => rbind (total_q K q) (fun t => rbind (st_primal (ct_stack K)) (fun A => o_prox A t))
  | TSelector idx =>
      rbind (total_q K q) (fun t => rbind (st_primal (ct_stack K)) (fun A =>
      match fop Rminus (center t) (fscale (/ coef t) (linear_term t)) with
      | FVec z => rbind (q_getitem t idx) (fun ti => rmap (fun w => M_affine.scatter idx w z) (o_prox A ti))
      | _ => Err TypeError
      end))
  | TGeneral =>
      rbind (ct_dual_problem K q) (fun D =>
      rbind (fit (max_of P) 0 P (dp_composite D (Ld / coef q)) (zeros (t_out (st_map (ct_stack K)))) None false) (fun s => ct_point K q (s_coefs s)))
  end.
Definition ct_composite (P : params) (Ld : R) (K : container) : composite :=
  mk_composite (fun x => Fin (ct_func K x)) (ct_grad K) (fun x check => or_inf (ct_nonsmooth K x check))
               (fun L w g => or_nil (ct_proximal P Ld K (mk_iq L (FVec w) (FVec g) 0))) 0.
Definition ct_value (K : container) (x : vec) (check : bool) : ext := ext_add (Fin (ct_func K x)) (or_inf (ct_nonsmooth K x check)).
Definition ct_with_coefs (K : container) (x : vec) : container := mk_container (ct_smooth K) (ct_parts K) (ct_stack K) (ct_quadratic K) (ct_smoothq K) x.
(** solve(quadratic, return_optimum=True) 158-173: the sum with the argument is computed and not used *)
Definition ct_solve (loops fuel : nat) (prm : params) (P : params) (Ld : R) (K : container) (quadratic : option iq) : container * res (ext * vec) :=
  match (match quadratic with Some q => q_add (ct_quadratic K) (AQuad q) | None => Ok (ct_quadratic K) end) with
  | Err e => (K, Err e)
  | Ok newq =>
      match fit loops fuel prm (ct_composite P Ld K) (ct_coefs K) None false with
      | Err e => (K, Err e)
      | Ok s => let K' := ct_with_coefs K (s_coefs s) in (K', Ok (ct_value K' (s_coefs s) false, s_coefs s))
      end
  end.
(** The attribute quadratic, regreg/problems/composite.py:126-133 *)
Definition ct_with_quadratic (K : container) (q : iq) : container := mk_container (ct_smooth K) (ct_parts K) (ct_stack K) q (ct_smoothq K) (ct_coefs K).

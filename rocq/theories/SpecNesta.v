(** What the smoothing loops nesta and tfocs should do: minimize P(x) + h(Dx), and f(v) + h(Dv + a). *)
From Coq Require Import Reals List Arith.
From Verif Require Import M_affine SpecAffine M_smooth SpecSmooth Vec Spec SpecConvex M_quad P_quad M_prox M_semi SpecAtom M_shift SpecBase M_afatom SpecCone M_cones M_fista SpecFista M_problem SpecProblem M_sconj SpecSconj M_nesta.
Import ListNotations.
Local Open Scope R_scope.

(** h and G are the conjugates of each other on R^m. *)
Definition conjugates (m : nat) (h G : vec -> ext) : Prop :=
  (forall u, length u = m -> is_fenchel m h u (G u)) /\ (forall v, length v = m -> is_fenchel m G v (h v)).
(** x -> x on R^n *)
Definition identity_map (n : nat) : transform := mk_transform (fun x => x) (fun x => x) (fun x => x) (Some None) n n.
(** The argument conjugate_atom stands for x -> h(Tx), h one of the documented functions. *)
Inductive stands_for : source -> transform -> (vec -> ext) -> Prop :=
| SF_atom : forall n a md, (1 <= n)%nat -> atom_wf n a -> mode_ok md -> atom_mode a md -> coef (a_quadratic a) = 0 -> dual_value_ok (klass a) md ->
    stands_for (SrcAtom a) (identity_map n) (atom_doc n a md)
| SF_cone : forall n c, cone_dim (c_class c) n -> c_class c <> KL2 -> c_class c <> KL2Polar -> base_wf n (c_base c) -> coef (b_quadratic (c_base c)) = 0 ->
    stands_for (SrcCone c) (identity_map n) (base_doc n (cone_fun (c_class c)) (c_base c))
| SF_affine : forall A md, (1 <= t_out (aa_map A))%nat -> atom_wf (t_out (aa_map A)) (aa_atom A) -> mode_ok md -> atom_mode (aa_atom A) md ->
    coef (a_quadratic (aa_atom A)) = 0 -> dual_value_ok (klass (aa_atom A)) md -> true_adjoint (aa_map A) ->
    (forall x, length x = t_in (aa_map A) -> t_aff (aa_map A) x = t_lin (aa_map A) x) -> (exists Lo, 0 <= Lo /\ opnorm_bound (aa_map A) Lo) ->
    stands_for (SrcAffine A) (aa_map A) (atom_doc (t_out (aa_map A)) (aa_atom A) md).
(** The call nesta(...) is meant to minimize P(x) + h(Tx) over R^n: P is the loss + the function of proximal_atom + the quadratic.
    Without a proximal_atom that function is 0. The loss enters without its own quadratic. *)
Record nesta_for (N : nesta_args) (n : nat) (T : transform) (P h : vec -> ext) : Prop := {
  nf_source : stands_for (na_source N) T h;
  nf_in : t_in T = n;
  nf_pos : (1 <= n)%nat;
  nf_shape : nesta_shape N = n;
  nf_loss : forall a, na_loss N = Some a -> good_smooth n a;
  nf_quadratic : forall q, na_quadratic N = Some q -> good_quad n q;
  nf_rest : exists H, match na_atom N with Some A => exact_obj n H A | None => forall x, H x = Fin 0 end /\
    forall x, length x = n -> P x = ext_add (Fin (match na_loss N with Some a => meaning a x | None => 0 end)) (plus_quad n H (quad_or_zero (na_quadratic N)) x) }.
(** P(x) + h(Tx) *)
Definition composed (P h : vec -> ext) (T : transform) (x : vec) : ext := ext_add (P x) (h (t_lin T x)).
(** G(u) + eps/2 |u - y|^2 *)
Definition regularized (G : vec -> ext) (eps : R) (y u : vec) : ext := ext_add (G u) (Fin (eps / 2 * sqn (vsub u y))).
(** A round that was solved exactly: its primal point minimizes P + S(Tx), where S(v) is the supremum of <v,u> - G(u) - eps/2 |u - center|^2,
    and its dual point is where that supremum is attained at the primal point. *)
Definition exact_round (n : nat) (T : transform) (P G : vec -> ext) (r : round) : Prop :=
  exists S : vec -> R,
    (forall v, length v = t_out T -> is_fenchel (t_out T) (regularized G (r_eps r) (r_center r)) v (Fin (S v))) /\
    is_argmin n (fun x => ext_add (P x) (Fin (S (t_lin T x)))) (r_primal r) /\
    is_argmin (t_out T) (fun u => ext_add (regularized G (r_eps r) (r_center r) u) (Fin (- dot (t_lin T (r_primal r)) u))) (r_dual r).
(** Rounds number first, first + 1, ...: the first centered at y, every later one at the previous center moved towards the previous
    dual point and beyond, by the factor 1 + k/(k+3). *)
Fixpoint linked (first : nat) (y : vec) (rs : list round) : Prop :=
  match rs with
  | [] => True
  | r :: rs' => r_idx r = first /\ r_center r = y /\ linked (S first) (vadd y (vscal (1 + INR first / (INR first + 3)) (vsub (r_dual r) y))) rs'
  end.
(** The center of the round after the last one *)
Fixpoint center_after (first : nat) (y : vec) (rs : list round) : vec :=
  match rs with [] => y | r :: rs' => center_after (S first) (vadd y (vscal (1 + INR first / (INR first + 3)) (vsub (r_dual r) y))) rs' end.
(** The solver minimizes the problems this call can pose, and evaluates the gradient last at the point it returns. *)
Definition solves_nesta (run : solver) (N : nesta_args) (n m : nat) : Prop :=
  forall idx eps y p start f h, 0 < eps -> length y = m -> src_smoothed (na_source N) (mk_iq eps (FVec y) (FScal 0) 0) = Ok p -> exact_problem n f h (nesta_problem N p) ->
    exists a, run idx (nesta_problem N p) start (Rmax eps (na_tol N)) = Ok a /\ is_argmin n (objective f h) (an_coefs a) /\ an_at a = an_coefs a.
(** The stopping test of coef_stop, from the values of a round *)
Definition settled (N : nesta_args) (r : round) : Prop := norm (vsub (r_center r) (r_dual r)) < na_coef_tol N * (norm (r_dual r) + 1) /\ (na_min_iters N <= r_idx r)%nat.
(** What a run of the loop from round number first, centered at y, over the list epsilon returns: its rounds are exact, linked and use the entries of
    epsilon in turn; the primal point is that of the last round; the dual point is the center of the last round if it broke the loop, otherwise the center
    the next round would have had. *)
Record ran (N : nesta_args) (n : nat) (T : transform) (P G : vec -> ext) (first : nat) (y : vec) (epsilon : list R) (o : outcome) : Prop := {
  rn_exact : Forall (exact_round n T P G) (o_rounds o);
  rn_linked : linked first y (o_rounds o);
  rn_eps : map r_eps (o_rounds o) = firstn (length (o_rounds o)) epsilon;
  rn_tol : Forall (fun r => r_tol r = Rmax (r_eps r) (na_tol N)) (o_rounds o);
  rn_result : exists rs r, o_rounds o = rs ++ [r] /\ o_primal o = r_primal r /\
    (if o_broke o then o_dual o = r_center r /\ (na_min_iters N <= r_idx r)%nat else length (o_rounds o) = length epsilon /\ o_dual o = center_after first y (o_rounds o)) /\
    (na_coef_stop N = true -> Forall (fun r => ~ settled N r) rs /\ (o_broke o = true <-> settled N r)) /\
    (o_warned o = true <-> exists r', In r' (if o_broke o then rs else rs ++ [r]) /\ S (r_idx r') = na_max_iters N) }.
(** w is the optimal value of the smoothed problem of a round. *)
Definition worth (n : nat) (T : transform) (P G : vec -> ext) (r : round) (w : R) : Prop :=
  exists S : vec -> R, (forall v, length v = t_out T -> is_fenchel (t_out T) (regularized G (r_eps r) (r_center r)) v (Fin (S v))) /\
    ext_add (P (r_primal r)) (Fin (S (t_lin T (r_primal r)))) = Fin w.
(** The stopping test without coef_stop, from the values of two rounds *)
Definition steady (N : nesta_args) (n : nat) (T : transform) (P G : vec -> ext) (r0 r : round) : Prop :=
  exists w0 w, worth n T P G r0 w0 /\ worth n T P G r w /\ Rabs (w - w0) < na_coef_tol N * (Rabs w + 1) /\ (na_min_iters N <= r_idx r)%nat.
(** (x, u) solves the problem and its dual: x minimizes P + <u, Tx>, u minimizes G(u) - <Tx, u>. *)
Definition saddle_point (n : nat) (T : transform) (P G : vec -> ext) (x u : vec) : Prop :=
  is_argmin n (fun z => ext_add (P z) (Fin (dot u (t_lin T z)))) x /\ is_argmin (t_out T) (fun w => ext_add (G w) (Fin (- dot (t_lin T x) w))) u.
(** h is finite and Lipschitz with constant B on R^m. *)
Definition lipschitz_fun (m : nat) (h : vec -> ext) (B : R) : Prop :=
  exists h' : vec -> R, (forall v, length v = m -> h v = Fin (h' v)) /\ forall v w, length v = m -> length w = m -> h' v <= h' w + B * norm (vsub v w).

(** primal_atom stands for f. *)
Inductive prim_for : primal -> nat -> (vec -> ext) -> Prop :=
| PF_atom : forall n a md, (1 <= n)%nat -> atom_wf n a -> mode_ok md -> atom_mode a md -> coef (a_quadratic a) = 0 -> dual_value_ok (pair_class (klass a)) (dual_mode md) ->
    prim_for (PrimAtom a) n (atom_doc n a md)
| PF_cone : forall n c, cone_dim (c_class c) n -> c_class c <> KL2 -> c_class c <> KL2Polar -> base_wf n (c_base c) -> coef (b_quadratic (c_base c)) = 0 ->
    prim_for (PrimCone c) n (base_doc n (cone_fun (c_class c)) (c_base c)).
(** transform.affine_offset as a vector *)
Definition offset_of (T : transform) : vec := match t_off T with Some (Some o) => o | _ => zeros (t_out T) end.
(** The call tfocs(...) is meant to minimize P(v) + h(Tv + a) over R^n: P is the function of primal_atom + the quadratic, dual_proximal_atom stands for
    the conjugate G of h. *)
Record tfocs_for (F : tfocs_args) (n : nat) (P h G : vec -> ext) : Prop := {
  tf_for_primal : exists f, prim_for (tf_primal F) n f /\ forall v, length v = n -> P v = plus_quad n f (quad_or_zero (tf_quadratic F)) v;
  tf_for_map : good_design (tf_map F) n (t_out (tf_map F));
  tf_for_offset : t_off (tf_map F) <> None /\ (forall o, t_off (tf_map F) = Some (Some o) -> length o = t_out (tf_map F)) /\
    forall v, length v = n -> t_aff (tf_map F) v = vadd (t_lin (tf_map F) v) (offset_of (tf_map F));
  tf_for_norm : exists Lo, 0 <= Lo /\ opnorm_bound (tf_map F) Lo;
  tf_for_quadratic : forall q, tf_quadratic F = Some q -> good_quad n q;
  tf_for_dual : exact_obj (t_out (tf_map F)) G (tf_dual F);
  tf_for_conjugate : conjugates (t_out (tf_map F)) h G }.
(** P(v) + h(Tv + a) *)
Definition composed_affine (P h : vec -> ext) (T : transform) (v : vec) : ext := ext_add (P v) (h (t_aff T v)).
(** A round of tfocs solved exactly: its dual point u minimizes S(-T'u) + G(u) - <a,u>, where S(w) is the supremum of <w,v> - P(v) - eps/2 |v - center|^2,
    and its primal point (r_dual) is where that supremum is attained at -T'u. *)
Definition exact_tround (n : nat) (T : transform) (P G : vec -> ext) (r : round) : Prop :=
  exists S : vec -> R,
    (forall w, length w = n -> is_fenchel n (regularized P (r_eps r) (r_center r)) w (Fin (S w))) /\
    is_argmin (t_out T) (fun u => ext_add (G u) (Fin (S (vopp (t_adj T u)) - dot (offset_of T) u))) (r_primal r) /\
    is_argmin n (fun v => ext_add (regularized P (r_eps r) (r_center r) v) (Fin (- dot (vopp (t_adj T (r_primal r))) v))) (r_dual r).
Definition solves_tfocs (run : solver) (F : tfocs_args) (n : nat) : Prop :=
  forall idx eps x conj C dual_sq start f h, 0 < eps -> length x = n -> prim_conjugate (tf_primal F) = Ok conj -> tfocs_quadratic (tf_map F) = Ok dual_sq ->
    tfocs_smoothed conj eps x (quad_or_zero (tf_quadratic F)) = Ok C -> let D := tfocs_problem (tf_dual F) dual_sq (tfocs_smooth (tf_map F) C) in exact_problem (t_out (tf_map F)) f h D ->
    exists a, run idx D start (Rmax eps (tf_tol F)) = Ok a /\ is_argmin (t_out (tf_map F)) (objective f h) (an_coefs a) /\ an_at a = an_coefs a.
(** The stopping test of tfocs, from the values of a round *)
Definition tsettled (F : tfocs_args) (r : round) : Prop := norm (vsub (r_center r) (r_dual r)) < tf_coef_tol F * Rmax (norm (r_dual r)) 1.
(** What a run of the loop of tfocs returns; the primal point is the center of the last round if it broke the loop, otherwise the center the next round would have had. *)
Record tran (F : tfocs_args) (n : nat) (P G : vec -> ext) (first : nat) (x : vec) (epsilon : list R) (o : outcome) : Prop := {
  tn_exact : Forall (exact_tround n (tf_map F) P G) (o_rounds o);
  tn_linked : linked first x (o_rounds o);
  tn_eps : map r_eps (o_rounds o) = firstn (length (o_rounds o)) epsilon;
  tn_tol : Forall (fun r => r_tol r = Rmax (r_eps r) (tf_tol F)) (o_rounds o);
  tn_result : exists rs r, o_rounds o = rs ++ [r] /\ o_dual o = r_primal r /\
    (if o_broke o then o_primal o = r_center r else length (o_rounds o) = length epsilon /\ o_primal o = center_after first x (o_rounds o)) /\
    Forall (fun r => ~ tsettled F r) rs /\ (o_broke o = true <-> tsettled F r) /\
    (o_warned o = true <-> exists r', In r' (if o_broke o then rs else rs ++ [r]) /\ S (r_idx r') = tf_max_iters F) }.

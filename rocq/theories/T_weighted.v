(** Properties C19 and C62: weighted l1 and sup norms. *)
From Coq Require Import Reals List Lra Lia.
From Verif Require Import Vec Spec M_quad M_prox M_semi SpecAtom M_shift SpecBase SpecMode M_mode SpecModed SpecWeighted M_weighted SpecWatom P_weighted.
Import ListNotations.
Local Open Scope R_scope.

Theorem C19_proximal_partial : forall n a m p, watom_wf n a m -> wprox_legal (w_class a) (w_weights a) m -> q_shape n p ->
  0 < coef (b_quadratic (m_base (w_moded a))) + coef p -> some_array (m_base (w_moded a)) p ->
  exists v, watom_proximal a (AQuad p) = Ok v /\ prox_spec n (gmode (wfun (w_class a) (w_weights a)) m) (m_base (w_moded a)) p v.
Proof. exact watom_proximal_correct. Qed.
Print Assumptions C19_proximal_partial.
(** The four methods by themselves. *)
Theorem C19_l1_lagrange_prox : forall n w x L lam, length w = n -> Forall weight_legal w -> length x = n -> 0 < L -> 0 <= lam -> 0 < lam \/ ~ In PInf w ->
  exists p, w_lagrange_prox WL1 w x L lam = Ok p /\ is_unique_argmin n (prox_objective L x (gmode (wl1 w) (Lagrange lam))) p.
Proof. exact w_l1_lagrange. Qed.
Print Assumptions C19_l1_lagrange_prox.
Theorem C19_l1_bound_prox : forall n w x b, length w = n -> Forall weight_range w -> length x = n -> 0 <= b -> 0 < b \/ (exists c, In c w /\ weight_regular c) ->
  exists p, w_bound_prox WL1 w x b = Ok p /\ is_proj n (gball (wl1 w) b) x p.
Proof. exact w_l1_bound. Qed.
Print Assumptions C19_l1_bound_prox.
Theorem C19_sup_lagrange_prox : forall n w x L lam, length w = n -> Forall weight_range w -> length x = n -> 0 < L -> 0 <= lam ->
  ~ In (Fin 0) w -> 0 < lam \/ (exists c, In c w /\ weight_regular c) ->
  exists p, w_lagrange_prox WSup w x L lam = Ok p /\ is_unique_argmin n (prox_objective L x (gmode (wsup w) (Lagrange lam))) p.
Proof. exact w_sup_lagrange. Qed.
Print Assumptions C19_sup_lagrange_prox.
Theorem C19_sup_bound_prox : forall n w x b, length w = n -> Forall weight_legal w -> length x = n -> 0 <= b -> 0 < b \/ ~ In (Fin 0) w ->
  exists p, w_bound_prox WSup w x b = Ok p /\ is_proj n (gball (wsup w) b) x p.
Proof. exact w_sup_bound. Qed.
Print Assumptions C19_sup_bound_prox.
(** Conjugacy, for every legal weight vector. *)
Theorem C19_conjugate_pair : forall n a m, watom_wf n a m -> coef (b_quadratic (m_base (w_moded a))) = 0 ->
  exists e, watom_conjugate a = Some (Ok e) /\ w_class e = wpair (w_class a) /\ watom_wf n e (dual_mode m) /\
    (forall u, length u = n -> is_fenchel n (moded_doc n (wfun (w_class a) (w_weights a)) (w_moded a) m) u
                                             (moded_doc n (wfun (w_class e) (w_weights e)) (w_moded e) (dual_mode m) u)) /\
    exists f, watom_conjugate e = Some (Ok f) /\ w_class f = w_class a /\ w_weights f = w_weights a /\ watom_wf n f m /\
      forall v, length v = n -> moded_doc n (wfun (w_class f) (w_weights f)) (w_moded f) m v = moded_doc n (wfun (w_class a) (w_weights a)) (w_moded a) m v.
Proof. exact watom_conjugate_correct. Qed.
Print Assumptions C19_conjugate_pair.
(** Values and feasibility. *)
Theorem C19_value : forall n a lam x, watom_wf n a (Lagrange lam) -> (exists r, In (Fin r) (w_weights a)) -> length x = n ->
  watom_objective a x true = Ok (moded_doc n (wfun (w_class a) (w_weights a)) (w_moded a) (Lagrange lam) x).
Proof. exact watom_lagrange_value. Qed.
Print Assumptions C19_value.
Theorem C19_feasibility : forall c w x b, length x = length w -> Forall weight_legal w -> (exists r, In (Fin r) w) -> 0 <= b ->
  (gball (wfun c w) b x -> w_constraint c w x b = Ok (Fin 0)) /\
  (w_constraint c w x b = Ok (Fin 0) -> gball (wfun c w) (b * (1 + / 10 ^ 5)) x) /\
  (w_constraint c w x b = Ok (Fin 0) \/ w_constraint c w x b = Ok PInf).
Proof. exact w_feasibility. Qed.
Print Assumptions C19_feasibility.
(** Construction rejects exactly the illegal weights. *)
Theorem C19_construct : forall c w m o q, mode_ok m ->
  (Forall weight_legal w -> new_watom c w (lag_of m) (bnd_of m) o q = Ok (mk_watom c w (mk_moded (lag_of m) (bnd_of m) (new_base (length w) o q)))) /\
  (~ Forall weight_legal w -> new_watom c w (lag_of m) (bnd_of m) o q = Err ValueError).
Proof. exact new_watom_correct. Qed.
Print Assumptions C19_construct.
(** Legal weights for which the prox methods fail: a nan although the minimizer exists ... *)
Theorem C19_sup_zero_weight_refuted :
  w_lagrange_prox WSup [Fin 1; Fin 0] [1; 5] 1 2 = Err NaNResult /\
  is_unique_argmin 2 (prox_objective 1 [1; 5] (gmode (wsup [Fin 1; Fin 0]) (Lagrange 2))) [0; 5].
Proof. exact (conj wsup_zero_weight_nan wsup_zero_weight_answer). Qed.
Print Assumptions C19_sup_zero_weight_refuted.
Theorem C19_degenerate_modes_refuted : forall x,
  w_lagrange_prox WL1 [PInf] [x] 1 0 = Err NaNResult /\ w_bound_prox WL1 [PInf] [x] 0 = Err IndexError /\ w_bound_prox WSup [Fin 0] [x] 0 = Err NaNResult.
Proof. exact (fun x => conj (wl1_zero_lagrange_nan x) (conj (wl1_zero_bound_raises x) (wsup_zero_bound_nan x))). Qed.
Print Assumptions C19_degenerate_modes_refuted.
(** ... or a point outside the ball, for a weight below 1e-20. *)
Theorem C19_tiny_weight_refuted : exists p, w_bound_prox WL1 [Fin (/ 10 ^ 21)] [1] (/ 10 ^ 22) = Ok p /\ ~ gball (wl1 [Fin (/ 10 ^ 21)]) (/ 10 ^ 22) p.
Proof. exact wl1_tiny_weight. Qed.
Print Assumptions C19_tiny_weight_refuted.

Theorem C62_l1_terms_partial : forall w x, length x = length w -> Forall (fun a => 0 <= a) w -> wl1 (map Fin w) x = Fin (vsum (l1_terms w x)).
Proof. exact l1_terms_correct. Qed.
Print Assumptions C62_l1_terms_partial.
Theorem C62_sup_terms_refuted : sup_terms [2] [1] = [Fin (1 / 2)] /\ wsup [Fin 2] [1] = Fin 2.
Proof. exact sup_terms_wrong. Qed.
Print Assumptions C62_sup_terms_refuted.

Example C19_case :
  let a := mk_watom WL1 [Fin 2; PInf; Fin 0] (mk_moded None (Some 1) (mk_base 3 (Some [1; 0; 2]) (mk_iq 0 FNone (FVec [1; 1; 0]) 0))) in
  watom_wf 3 a (Bound 1) /\ wprox_legal (w_class a) (w_weights a) (Bound 1) /\ coef (b_quadratic (m_base (w_moded a))) = 0.
Proof.
  assert (0 < / 10 ^ 20 <= 1). { split; [apply Rinv_0_lt_compat, pow_lt; lra|]. rewrite <- Rinv_1. apply Rinv_le_contravar; lra. }
  cbn [w_class w_weights w_moded m_base b_quadratic coef wprox_legal]. split; [|split; [|reflexivity]].
  - split; [reflexivity|]. split; [repeat constructor; simpl; lra|]. split; [reflexivity|]. split; [reflexivity|]. split; [simpl; lra|]. split; [reflexivity|]. split; [|cbn; repeat split; auto].
    intros o E. injection E as <-. split; auto. intros C. injection C. lra.
  - split; [|lra]. repeat constructor; cbn [weight_range]; lra.
Qed.

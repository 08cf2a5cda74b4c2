(** Property C18: SLOPE. *)
From Coq Require Import Reals List Lra Lia Permutation.
From Verif Require Import Vec Spec M_quad M_prox M_semi SpecAtom M_shift SpecBase SpecMode M_mode SpecModed SpecIso M_iso SpecSlope M_slope SpecSlopeAtom P_slope.
Import ListNotations.
Local Open Scope R_scope.

(** lagrange_prox, for any correct isotonic regression and any sorting routine. *)
Theorem C18_lagrange_prox : forall n iso argsort w x L lam, iso_contract iso -> argsort_contract argsort -> slope_weights n w -> length x = n ->
  0 < L -> 0 <= lam -> exists p, slope_lagrange_prox iso argsort SSlope w x L lam = Ok p /\
    is_unique_argmin n (prox_objective L x (gmode (slope_fun w) (Lagrange lam))) p.
Proof. exact slope_lprox_correct. Qed.
Print Assumptions C18_lagrange_prox.
(** The isotonic regression shipped with the package meets the contract. *)
Theorem C18_shipped_isotonic : iso_contract iso_py.
Proof. exact iso_py_ok. Qed.
Print Assumptions C18_shipped_isotonic.
(** The dual norm exists, slope_conjugate evaluates it and slope evaluates the sorted-l1 norm. *)
Theorem C18_dual_norm_exists : forall n w, (1 <= n)%nat -> slope_weights n w -> exists d, dual_of n w d.
Proof. exact dual_exists. Qed.
Print Assumptions C18_dual_norm_exists.
Theorem C18_values : forall c n w d x lam, (1 <= n)%nat -> slope_weights n w -> dual_of n w d -> length x = n ->
  rmap Fin (slope_seminorm c w x lam) = Ok (ext_scale lam (slope_sfun c w d x)).
Proof. exact slope_seminorm_correct. Qed.
Print Assumptions C18_values.
Theorem C18_feasibility : forall c n w d x b, (1 <= n)%nat -> slope_weights n w -> dual_of n w d -> length x = n -> 0 <= b ->
  (gball (slope_sfun c w d) b x -> slope_constraint c w x b = Ok (Fin 0)) /\
  (slope_constraint c w x b = Ok (Fin 0) -> gball (slope_sfun c w d) (b * (1 + / 10 ^ 5)) x) /\
  (slope_constraint c w x b = Ok (Fin 0) \/ slope_constraint c w x b = Ok PInf).
Proof. exact slope_feasibility. Qed.
Print Assumptions C18_feasibility.
(** proximal() of the two implemented modes, with offset and quadratics. *)
Theorem C18_proximal : forall n iso argsort d a m p, iso_contract iso -> argsort_contract argsort -> slope_wf n a m -> dual_of n (s_weights a) d ->
  s_class a = SSlope /\ (exists lam, m = Lagrange lam) \/ s_class a = SSlopeConj /\ (exists b, m = Bound b) ->
  q_shape n p -> 0 < coef (b_quadratic (m_base (s_moded a))) + coef p -> some_array (m_base (s_moded a)) p ->
  exists v, slope_proximal iso argsort a (AQuad p) = Ok v /\ prox_spec n (gmode (slope_sfun (s_class a) (s_weights a) d) m) (m_base (s_moded a)) p v.
Proof. exact slope_proximal_correct. Qed.
Print Assumptions C18_proximal.
(** The other two raise. *)
Theorem C18_other_modes_raise : forall iso argsort w x b L lam,
  slope_bound_prox iso argsort SSlope w x b = Err NotImplementedError /\ slope_lagrange_prox iso argsort SSlopeConj w x L lam = Err NotImplementedError.
Proof. exact slope_not_implemented. Qed.
Print Assumptions C18_other_modes_raise.
Theorem C18_conjugate_pair : forall n d a m, slope_wf n a m -> dual_of n (s_weights a) d -> coef (b_quadratic (m_base (s_moded a))) = 0 ->
  exists e, slope_conjugate a = Ok e /\ s_class e = slope_pair (s_class a) /\ s_weights e = s_weights a /\ slope_wf n e (dual_mode m) /\
    (forall u, length u = n -> is_fenchel n (moded_doc n (slope_sfun (s_class a) (s_weights a) d) (s_moded a) m) u
                                             (moded_doc n (slope_sfun (s_class e) (s_weights e) d) (s_moded e) (dual_mode m) u)) /\
    exists f, slope_conjugate e = Ok f /\ s_class f = s_class a /\ slope_wf n f m /\
      forall v, length v = n -> moded_doc n (slope_sfun (s_class f) (s_weights f) d) (s_moded f) m v = moded_doc n (slope_sfun (s_class a) (s_weights a) d) (s_moded a) m v.
Proof. exact slope_conjugate_correct. Qed.
Print Assumptions C18_conjugate_pair.
Theorem C18_objective : forall n d a lam x chk, slope_wf n a (Lagrange lam) -> dual_of n (s_weights a) d -> length x = n ->
  slope_objective a x chk = Ok (moded_doc n (slope_sfun (s_class a) (s_weights a) d) (s_moded a) (Lagrange lam) x).
Proof. exact slope_lagrange_value. Qed.
Print Assumptions C18_objective.
(** Construction accepts every legal weight vector ... *)
Theorem C18_construct : forall c n w m o q, slope_weights n w -> mode_ok m ->
  new_slope c w (lag_of m) (bnd_of m) o q = Ok (mk_slope c w (mk_moded (lag_of m) (bnd_of m) (new_base n o q))).
Proof. exact new_slope_ok. Qed.
Print Assumptions C18_construct.
(** ... but not only those: small increasing weights get through the tolerance of np.allclose. *)
Theorem C61_weights_check_refuted : exists w, ~ decreasing w /\ slope_check w = Ok tt.
Proof. exact slope_check_leaks. Qed.
Print Assumptions C61_weights_check_refuted.
Theorem C61_weights_check_partial : forall w, slope_check w = Ok tt ->
  Forall (fun a => 0 < a) w /\ (forall i, (i < length w)%nat -> Rabs (nth i w 0 - nth i (sort_down w) 0) <= / 10 ^ 8 + / 10 ^ 5 * nth i (sort_down w) 0).
Proof. exact slope_check_accepts. Qed.
Print Assumptions C61_weights_check_partial.

Example C18_case : slope_weights 3 [3; 2; 2] /\ is_argsort (vabs [-1; 5; 0]) [2; 0; 1]%nat /\
  slope_wf 3 (mk_slope SSlope [3; 2; 2] (mk_moded (Some 2) None (mk_base 3 (Some [1; 0; 2]) (mk_iq 1 FNone (FVec [1; 1; 0]) 0)))) (Lagrange 2).
Proof.
  assert (W : slope_weights 3 [3; 2; 2]). { split; [auto|]. split; [repeat constructor; lra|]. simpl. lra. }
  split; [exact W|]. split.
  - split.
    + simpl. apply perm_trans with [0; 2; 1]%nat; [apply perm_swap|]. apply perm_skip, perm_swap.
    + simpl. rewrite Rabs_R0, (Rabs_left (-1)), (Rabs_right 5) by lra. lra.
  - split; [lia|]. split; [exact W|]. split; [reflexivity|]. split; [reflexivity|]. split; [simpl; lra|]. split; [reflexivity|]. split; [|cbn; repeat split; auto].
    intros o E. injection E as <-. split; auto. intros C. injection C. lra.
Qed.

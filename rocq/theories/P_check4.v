(** check_subgradient of slope and group lasso objects and of cones; what it does not notice. *)
From Coq Require Import Reals List Lra Lia Psatz Bool.
From Verif Require Import Vec Spec SpecConvex M_quad M_prox M_semi SpecAtom M_shift SpecBase SpecMode SpecModed M_mode SpecCheck M_check SpecCone M_cones SpecSlope M_slope SpecSlopeAtom M_group SpecGroup SpecGatom
  P_semi P_calc P_gauge P_mixed P_conj P_feas P_prox P_shift P_admm P_problem P_slope P_group P_group2 P_cones P_check P_check2 P_check3.
Import ListNotations.
Local Open Scope R_scope.

Lemma stripped_moded_ok : forall n md m, moded_wf n md m -> stripped_moded n md = Ok (mk_moded (lag_of m) (bnd_of m) (mk_base n None no_quadratic)).
Proof. intros n md m (E1 & E2 & Hm & W). unfold stripped_moded. rewrite E1, E2, new_moded_ok by auto. reflexivity. Qed.
Lemma bare_wf : forall n m, mode_ok m -> moded_wf n (mk_moded (lag_of m) (bnd_of m) (mk_base n None no_quadratic)) m.
Proof. intros n m Hm. repeat split; auto; try discriminate; cbn; auto. Qed.
Lemma bare_array : forall n z m, some_array (m_base (mk_moded (lag_of m) (bnd_of m) (mk_base n None no_quadratic))) (centered z).
Proof. intros. right. left. cbn. auto. Qed.
Lemma centered_shape : forall n z, length z = n -> q_shape n (centered z).
Proof. intros n z H. split; cbn; auto. Qed.
Lemma param_mode : forall m, 0 < parameter m -> mode_ok m.
Proof. intros [l|b] H; cbn in *; lra. Qed.

Theorem slope_check_agrees : forall n iso argsort d a m z, iso_contract iso -> argsort_contract argsort -> slope_wf n a m -> dual_of n (s_weights a) d ->
  s_class a = SSlope /\ (exists lam, m = Lagrange lam) \/ s_class a = SSlopeConj /\ (exists b, m = Bound b) -> 0 < parameter m -> length z = n ->
  exists u v, slope_check_subgradient iso argsort a z = Ok (v, Fin v) /\ solves_prox n (slope_sfun (s_class a) (s_weights a) d) m z u /\
    measured (slope_sfun (s_class a) (s_weights a) d) (slope_sfun (slope_pair (s_class a)) (s_weights a) d) m z u = Fin v.
Proof.
  intros n iso argsort d a m z Hi Ha (Hn & HW & Hwf) Hd Hc Hp Lz. assert (Hm := param_mode m Hp). set (md := mk_moded (lag_of m) (bnd_of m) (mk_base n None no_quadratic)).
  assert (E : slope_stripped a = Ok (mk_slope (s_class a) (s_weights a) md)).
  { unfold slope_stripped. rewrite (slope_check_ok n) by auto. cbn [rbind]. destruct HW as (Lw & HW'). rewrite Lw. rewrite (stripped_moded_ok n (s_moded a) m) by auto. reflexivity. }
  unfold slope_check_subgradient. rewrite E. cbn [rbind]. set (a2 := mk_slope (s_class a) (s_weights a) md).
  assert (W2 : slope_wf n a2 m). { split; auto. split; auto. apply bare_wf. auto. }
  destruct (slope_proximal_correct n iso argsort d a2 m (centered z) Hi Ha W2 Hd Hc (centered_shape n z Lz) ltac:(cbn; lra) (bare_array n z m)) as (u & Eu & Su). rewrite Eu. cbn [rbind].
  destruct (slope_conjugate_correct n d a2 m W2 Hd eq_refl) as (e & Ee & Ce & We & _). rewrite Ee. cbn [rbind]. rewrite Ce, We. cbn [s_class s_weights s_moded a2 m_bound m_lagrange md].
  apply (stripped_prox n _ z u Lz) in Su. change (s_class a2) with (s_class a) in *. change (s_weights a2) with (s_weights a) in *.
  assert (V : forall c x r, length x = n -> slope_sfun c (s_weights a) d x = Fin r -> rmap Fin (slope_seminorm c (s_weights a) x 1) = Ok (Fin r)).
  { intros c x r Lx Ex. rewrite (slope_seminorm_correct c n (s_weights a) d) by auto. rewrite Ex. cbn. do 2 f_equal. lra. }
  assert (P := slope_polar_d (s_class a) n _ d Hn HW Hd). assert (P' := slope_polar_d (slope_pair (s_class a)) n _ d Hn HW Hd).
  replace (slope_pair (slope_pair (s_class a))) with (s_class a) in P' by (destruct (s_class a); auto).
  destruct (values_agree n _ _ (fun x => rmap Fin (slope_seminorm (s_class a) (s_weights a) x 1)) (fun x => rmap Fin (slope_seminorm (slope_pair (s_class a)) (s_weights a) x 1)) P P' (V _) (V _) m z u Lz Hp (proj1 Su)) as (v & Ev & Mv).
  exists u, v. auto.
Qed.

Theorem gatom_check_agrees : forall n a m z, gatom_wf n a m -> g_groups a <> [] -> weights_regular (g_groups a) (g_weights a) -> 0 < parameter m -> length z = n ->
  exists u v, gatom_check_subgradient a z = Ok (v, Fin v) /\ solves_prox n (gfun (g_dual a) (g_groups a) (g_weights a)) m z u /\
    measured (gfun (g_dual a) (g_groups a) (g_weights a)) (gfun (negb (g_dual a)) (g_groups a) (g_weights a)) m z u = Fin v.
Proof.
  intros n [dual labels given md0] m z (Ln & Hwf & Hw) Hne Hr Hp Lz. cbn [g_dual g_groups g_weights g_moded] in *. assert (Hm := param_mode m Hp). set (md := mk_moded (lag_of m) (bnd_of m) (mk_base n None no_quadratic)).
  set (a2 := mk_gatom dual labels (filled given labels) md).
  assert (E : gatom_stripped (mk_gatom dual labels given md0) = Ok a2).
  { unfold gatom_stripped, gatom_copy, new_gatom. cbn [g_dual g_groups g_weights g_moded]. destruct Hwf as (-> & -> & _ & W). rewrite new_moded_ok by auto. cbn [rmap g_dual g_groups g_weights g_moded m_lagrange m_bound m_base new_base b_shape]. rewrite Ln. reflexivity. }
  unfold gatom_check_subgradient. rewrite E. cbn [rbind].
  assert (W2 : gatom_wf n a2 m). { split; auto. split; [apply bare_wf; auto|]. apply nonneg_filled. auto. }
  assert (HR : weights_regular labels (filled given labels)). { intros g Hg. rewrite group_weight_filled by auto. auto. }
  assert (G2 : gprox_legal a2 m). { assert (K : g_groups a2 <> [] /\ weights_range (g_groups a2) (g_weights a2) /\ (0 < parameter m \/ some_weight (g_groups a2) (g_weights a2))).
    { split; auto. split; auto. intros g Hg. right. apply HR. auto. } unfold gprox_legal. destruct (g_dual a2), m; auto. }
  destruct (gatom_proximal_correct n a2 m (centered z) W2 G2 (centered_shape n z Lz) ltac:(cbn; lra) (bare_array n z m)) as (u & Eu & Su). rewrite Eu. cbn [rbind].
  destruct (gfun_polar labels given n Ln Hw) as [P1 P2].
  assert (P : polar_pair n (gfun dual labels given) (gfun (negb dual) labels given)) by (destruct dual; auto). assert (P' : polar_pair n (gfun (negb dual) labels given) (gfun dual labels given)) by (destruct dual; auto).
  unfold gatom_conjugate. cbn [g_moded a2]. destruct (moded_conjugate_correct n _ _ md m (bare_wf n m Hm) eq_refl P) as (d & Ed & _).
  rewrite Ed. cbn [rmap rbind g_dual g_groups g_weights g_moded a2 md m_bound m_lagrange].
  apply (stripped_prox n _ z u Lz) in Su. cbn [g_dual g_groups g_weights a2] in Su. rewrite gfun_filled in Su.
  assert (V : forall b g x r, weights_regular labels g -> length x = n -> gfun b labels g x = Fin r -> g_seminorm b labels g x 1 = Ok (Fin r)).
  { intros b g x r Hg Lx Ex. destruct (g_seminorm_any b labels g x ltac:(congruence) Hne Hg) as (q & E1 & E2 & _). congruence. }
  destruct (values_agree n _ _ (fun x => g_seminorm dual labels (filled given labels) x 1) (fun x => g_seminorm (negb dual) labels (filled (filled given labels) labels) x 1) P P') with (m := m) (z := z) (U := u) as (v & Ev & Mv); auto.
  - intros x r Lx Ex. apply V; auto. rewrite gfun_filled. auto.
  - intros x r Lx Ex. apply V; auto; [|rewrite !gfun_filled; auto]. intros g Hg. rewrite group_weight_filled by auto. auto.
  - apply Su.
  - exists u, v. auto.
Qed.

(** ** Cones *)
Lemma cone_orthogonal : forall k n z u, (1 <= n)%nat -> length z = n -> is_argmin n (prox_objective 1 z (cone_fun k)) u -> dot (vsub z u) u = 0.
Proof.
  intros k n z u Hn Lz (Lu & (r & Er) & M).
  assert (Ku : in_cone k u). { unfold prox_objective in Er. destruct (in_cone_dec k u) as [|N]; auto. rewrite cone_fun_out in Er by auto. discriminate. }
  assert (F : forall t, 0 <= t -> sqn (vsub z u) <= sqn (vsub z (vscal t u))).
  { intros t Ht. specialize (M (vscal t u) ltac:(vl n)). unfold prox_objective in M. rewrite !cone_fun_in in M by (auto; apply (in_cone_scal k n); auto). cbn in M. lra. }
  assert (G : forall t, 0 <= t -> - (2 * dot z u) + sqn u <= - (2 * t * dot z u) + t * t * sqn u).
  { intros t Ht. specialize (F t Ht). rewrite !sqn_sub, dot_scal_r in F by vl n. rewrite sqn_scal in F. nra. }
  rewrite dot_sub_l by vl n. fold (sqn u). assert (H0 := G 0 ltac:(lra)). pose proof (sqn_nonneg u). destruct (Req_EM_T (sqn u) 0) as [E|E].
  - assert (H2 := G 2 ltac:(lra)). lra.
  - assert (P : 0 < sqn u) by lra. assert (Q : 0 <= dot z u / sqn u). { apply Rmult_le_pos; [lra|]. left. apply Rinv_0_lt_compat. auto. }
    specialize (G _ Q). replace (- (2 * (dot z u / sqn u) * dot z u) + dot z u / sqn u * (dot z u / sqn u) * sqn u) with (- (dot z u * dot z u / sqn u)) in G by (field; auto).
    assert (K : dot z u * dot z u / sqn u * sqn u = dot z u * dot z u) by (field; auto). set (w := dot z u * dot z u / sqn u) in *. nra.
Qed.
Lemma cone_bare : forall n k g (prox : cone -> addend -> res vec) z, base_wf n g -> cone_check_with prox (mk_cone k g) z =
  rmap (fun U => (dot (vsub z U) U, 0)) (prox (mk_cone k (mk_base n None no_quadratic)) (AQuad (centered z))).
Proof. intros n k g prox z (E & _). unfold cone_check_with, cone_copy, new_cone. cbn [c_class c_base new_base b_shape]. rewrite E. reflexivity. Qed.
Theorem cone_check_agrees : forall k n g z, cone_dim k n -> k <> KL2 -> k <> KL2Polar -> base_wf n g -> length z = n -> cone_check_subgradient (mk_cone k g) z = Ok (0, 0).
Proof.
  intros k n g z Hd N1 N2 W Lz. unfold cone_check_subgradient. rewrite (cone_bare n) by auto. set (g2 := mk_base n None no_quadratic).
  destruct (cone_proximal_correct k n g2 (centered z) Hd N1 N2) as (u & Eu & Su).
  - repeat split; cbn; auto; try discriminate.
  - apply centered_shape. auto.
  - cbn. lra.
  - right. left. cbn. auto.
  - rewrite Eu. cbn [rmap]. apply (stripped_prox n _ z u Lz) in Su. rewrite (cone_orthogonal k n z u); auto; [|apply Su]. unfold cone_dim in Hd. destruct (is_epigraph k); lia.
Qed.
(** Any answer orthogonal to its residual passes. *)
Theorem cone_check_blind : forall k n g z, base_wf n g -> length z = n -> cone_check_with (fun _ _ => Ok (zeros n)) (mk_cone k g) z = Ok (0, 0).
Proof. intros k n g z W Lz. rewrite (cone_bare n) by auto. cbn [rmap]. rewrite dot_zeros_r. reflexivity. Qed.
(** ... and the wrong projection of l2_epigraph is one. *)
Theorem cone_check_l2 : cone_check_subgradient (new_cone KL2 2 None None) [3; 5] = Ok (0, 0) /\ cone_proximal (new_cone KL2 2 None None) (AQuad (centered [3; 5])) = Ok [4; 4] /\ ~ is_proj 2 (in_cone KL2) [3; 5] [4; 4].
Proof.
  destruct l2_prox_interior as (_ & E & N). assert (P : forall g, b_offset g = None -> b_quadratic g = no_quadratic -> cone_proximal (mk_cone KL2 g) (AQuad (centered [3; 5])) = Ok [4; 4]).
  { intros g E1 E2. unfold cone_proximal, shifted_prox. cbn [c_class c_base]. rewrite E1, E2. cbn -[cone_prox]. destruct (Req_EM_T (0 + 1) 0) as [|_]; [lra|]. rewrite <- E. do 2 f_equal; [field|f_equal; field]. }
  split; [|split; [apply P; reflexivity|auto]]. unfold cone_check_subgradient, cone_check_with. rewrite P by reflexivity. cbn. do 2 f_equal. ring.
Qed.

(** ** Constrained classes *)
Lemma bare_atom : forall c n, new_atom c n (Some 1) None None None = Ok (mk_atom c n (Some 1) None None no_quadratic).
Proof. intros. unfold new_atom. cbn. destruct (Rlt_dec 1 0); [lra|reflexivity]. Qed.
Lemma bare_form : forall c z U, length z = 2%nat -> check_with (fun _ _ => Ok U) (mk_atom c 2 (Some 1) None None no_quadratic) z =
  check_values (fun x => seminorm_value c x 1 false) (fun x => seminorm_value (pair_class c) x 1 false) None (Some 1) z U.
Proof.
  intros c z U Lz. rewrite (check_with_form 2 _ (Lagrange 1) z).
  - reflexivity.
  - repeat split; cbn; auto; try discriminate.
  - split; reflexivity.
  - cbn. lra.
Qed.
Lemma bare_values : forall c z U d, length z = 2%nat -> seminorm_value (pair_class c) (vsub z U) 1 false = Ok (Fin d) -> d <= 1 -> seminorm_value c U 1 false = Ok (Fin 0) -> dot (vsub z U) U = 0 ->
  check_with (fun _ _ => Ok U) (mk_atom c 2 (Some 1) None None no_quadratic) z = Ok (0, Fin 0).
Proof.
  intros c z U d Lz E1 H1 E2 Q. rewrite bare_form by auto. cbn [check_values]. rewrite E1. cbn [rbind need]. unfold above. pose proof e5. destruct (Rle_dec d _) as [|N]; [|destruct N; nra].
  unfold np_quotient. destruct (Req_EM_T 1 0); [lra|]. cbn [rbind]. rewrite E2. cbn [rmap]. rewrite dot_sum, Q. do 2 f_equal. field.
Qed.
Theorem check_unchecked : forall c, c = CPosPart \/ c = CConMax \/ c = CConPosPart \/ c = CMaxPos -> exists a z U v, new_atom c 2 (Some 1) None None None = Ok a /\ length U = 2%nat /\
  check_with (fun _ _ => Ok U) a z = Ok (v, Fin v) /\ ~ solves_prox 2 (doc_seminorm c) (Lagrange 1) z U.
Proof.
  intros c Hc. exists (mk_atom c 2 (Some 1) None None no_quadratic).
  assert (OUT : forall z U, doc_seminorm c U = PInf -> ~ solves_prox 2 (doc_seminorm c) (Lagrange 1) z U).
  { intros z U E ((_ & (r & Er) & _) & _). unfold prox_objective in Er. cbn [gmode] in Er. rewrite E in Er. discriminate. }
  assert (FAR : doc_seminorm c [0; 0] = Fin 0 -> doc_seminorm c [-5; -5] = Fin 0 -> ~ solves_prox 2 (doc_seminorm c) (Lagrange 1) [-5; -5] [0; 0]).
  { intros E0 E5 ((_ & _ & M) & _). specialize (M [-5; -5] eq_refl). unfold prox_objective in M. cbn [gmode] in M. rewrite E0, E5 in M. cbn in M. unfold sqn, dot in M. cbn in M. lra. }
  destruct Hc as [-> |[-> |[-> | ->]]].
  - exists [-5; -5], [0; 0], 0. split; [apply bare_atom|]. split; auto. split.
    + apply (bare_values _ _ _ (-5)); auto; try lra.
      * unfold vsub. cbn -[tol any_below]. rewrite orb_true_r. cbn. do 2 f_equal. rewrite Rmax_left by lra. lra.
      * cbn. do 2 f_equal. rewrite !Rmax_left by lra. lra.
      * unfold dot, vsub. cbn. lra.
    + apply FAR; cbn; f_equal; unfold sum_pos, pos; cbn; repeat rewrite Rmax_right by lra; lra.
  - exists [0; -1], [0; -1], 0. split; [apply bare_atom|]. split; auto. split.
    + apply (bare_values _ _ _ 0); auto; try lra.
      * unfold vsub. cbn. do 2 f_equal. rewrite !Rmax_left by lra. lra.
      * cbn -[tol any_below]. rewrite orb_true_r. cbn. do 2 f_equal. rewrite Rmax_left by lra. lra.
      * unfold dot, vsub. cbn. lra.
    + apply OUT. unfold doc_seminorm. destruct (nonneg_dec [0; -1]) as [N|]; auto. exfalso. apply Forall_inv_tail, Forall_inv in N. lra.
  - exists [-1; -1], [-1; -1], 0. split; [apply bare_atom|]. split; auto. split.
    + apply (bare_values _ _ _ 0); auto; try lra.
      * unfold vsub. cbn. do 2 f_equal. rewrite !Rmax_left by lra. lra.
      * cbn -[tol any_below]. rewrite orb_true_r. cbn. do 2 f_equal. rewrite !Rmax_right by lra. lra.
      * unfold dot, vsub. cbn. lra.
    + apply OUT. unfold doc_seminorm. destruct (nonneg_dec [-1; -1]) as [N|]; auto. exfalso. apply Forall_inv in N. lra.
  - exists [-5; -5], [0; 0], 0. split; [apply bare_atom|]. split; auto. split.
    + apply (bare_values _ _ _ 0); auto; try lra.
      * unfold vsub. cbn -[tol any_below]. rewrite orb_true_r. cbn. do 2 f_equal. rewrite !Rmax_right by lra. lra.
      * cbn. do 2 f_equal. rewrite !Rmax_left by lra. lra.
      * unfold dot, vsub. cbn. lra.
    + apply FAR; cbn; f_equal; unfold max_pos; cbn; unfold Rmax; repeat destruct (Rle_dec _ _); lra.
Qed.

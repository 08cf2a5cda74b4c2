(** sparse_group_block objects: proximal(), values, conjugates, copies and the dual norm search. *)
From Coq Require Import Reals List Lra Lia Psatz Bool Arith.
From Verif Require Import Vec Spec SpecAtom M_quad M_prox M_semi M_shift M_mode SpecBase SpecMode SpecModed SpecWeighted SpecPart SpecLinear SpecSgl SpecBlock M_sgl M_block SpecBatom M_sgb SpecSgb
  P_quad P_prox P_feas P_semi P_conj P_shift P_gauge P_part P_mixed P_linear P_group P_slope P_sgl P_search P_sgl2 P_sgl3 P_sgl4 P_sgl6 P_block P_block2 P_block3 P_sgb.
Import ListNotations.
Local Open Scope R_scope.

(** ** Polars of scaled norms *)
Lemma scale_polar_pos : forall n h h' a b, 0 < a -> a * b = 1 -> polar_pair n h h' -> polar_pair n (fun v => ext_scale a (h v)) (fun v => ext_scale b (h' v)).
Proof.
  intros n h h' a b Ha Hab [G G' Ho At]. assert (Hb : 0 < b) by nra.
  assert (SG : forall f k, 0 < k -> gauge n f -> gauge n (fun v => ext_scale k (f v))).
  { clear. intros f k Hk [A B C]. constructor.
    - intros x r Lx E. destruct (f x) as [s|] eqn:Es; [|discriminate]. injection E as <-. specialize (A x s Lx Es). nra.
    - intros t x r Lx Ht E. destruct (f x) as [s|] eqn:Es; [|discriminate]. injection E as <-. rewrite (B t x s) by auto. cbn. f_equal. ring.
    - rewrite C. cbn. f_equal. ring. }
  constructor; auto.
  - intros x u r s Lx Lu Er Es. destruct (h x) as [r0|] eqn:E1; [|discriminate]. destruct (h' u) as [s0|] eqn:E2; [|discriminate]. injection Er as <-. injection Es as <-.
    specialize (Ho x u r0 s0 Lx Lu E1 E2). replace (a * r0 * (b * s0)) with (a * b * (r0 * s0)) by ring. rewrite Hab. lra.
  - intros u Lu. specialize (At u Lu). destruct (h' u) as [s|]; cbn [ext_scale].
    + destruct At as (x & r & Lx & Er & Hr & Hd). exists (vscal b x), r. split; [vlen|]. rewrite (ga_scal _ _ G b x r) by (auto; lra). cbn [ext_scale]. split; [f_equal; rewrite <- Rmult_assoc, Hab; ring|]. split; auto.
      rewrite dot_scal_r, Hd. auto.
    + destruct At as (x & Lx & Er & Hd). exists x. rewrite Er. cbn [ext_scale]. split; auto. split; auto. f_equal. ring.
Qed.
Definition only_zero (n : nat) (u : vec) : ext := if list_eq_dec Req_EM_T u (zeros n) then Fin 0 else PInf.
Lemma zero_gauges : forall n, gauge n (fun _ => Fin 0) /\ gauge n (only_zero n).
Proof.
  intros n. split; constructor; intros.
  - injection H0 as <-. lra.
  - injection H1 as <-. f_equal. ring.
  - auto.
  - unfold only_zero in H0. destruct (list_eq_dec _ _ _); [|discriminate]. injection H0 as <-. lra.
  - unfold only_zero in *. destruct (list_eq_dec _ x _); [|discriminate]. injection H1 as <-. subst x. assert (Z : vscal t (zeros n) = zeros n) by (clear; unfold vscal, zeros; induction n; cbn [repeat map]; [auto|rewrite IHn; f_equal; ring]).
    rewrite Z. destruct (list_eq_dec _ _ _); [f_equal; ring|tauto].
  - unfold only_zero. destruct (list_eq_dec _ _ _); tauto.
Qed.
Lemma zero_polar : forall n, polar_pair n (fun _ => Fin 0) (only_zero n) /\ polar_pair n (only_zero n) (fun _ => Fin 0).
Proof.
  intros n. destruct (zero_gauges n) as [G1 G2].
  assert (K : forall u s v, only_zero n u = Fin s -> dot u v <= 0 /\ dot v u <= 0).
  { intros u s v H. unfold only_zero in H. destruct (list_eq_dec _ _ _); [|discriminate]. subst u. rewrite dot_zeros_l, dot_zeros_r. lra. }
  split; constructor; auto.
  - intros x u r s Lx Lu Er Es. injection Er as <-. destruct (K u s x Es). lra.
  - intros u Lu. unfold only_zero. destruct (list_eq_dec _ _ _) as [->|N].
    + exists (zeros n), 0. split; [vlen|]. rewrite dot_zeros_r. split; auto. split; [lra|auto].
    + exists u. split; auto. split; auto. pose proof (sqn_nonneg u) as Q. destruct (Req_dec (sqn u) 0) as [E|E]; [|unfold sqn in *; lra].
      exfalso. apply N. rewrite <- Lu. apply sqn_eq_zero. auto.
  - intros x u r s Lx Lu Er Es. injection Es as <-. destruct (K x r u Er). lra.
  - intros u Lu. exists (zeros n), 0. split; [vlen|]. unfold only_zero. destruct (list_eq_dec _ _ _); [|tauto]. rewrite dot_zeros_r. split; auto. split; [lra|auto].
Qed.
Lemma scale_polar : forall n h h' a, 0 <= a -> (forall v, length v = n -> exists r, h v = Fin r) -> polar_pair n h h' -> polar_pair n h' h ->
  exists g, polar_pair n (fun v => ext_scale a (h v)) g /\ polar_pair n g (fun v => ext_scale a (h v)).
Proof.
  intros n h h' a Ha Hf P P'. destruct (Req_EM_T a 0) as [->|N].
  - destruct (zero_polar n) as [Z1 Z2]. assert (E : forall v, length v = n -> Fin 0 = ext_scale 0 (h v)) by (intros v Lv; destruct (Hf v Lv) as (r & ->); cbn; f_equal; ring).
    exists (only_zero n). split; [apply (polar_ext n (fun _ => Fin 0) (only_zero n))|apply (polar_ext n (only_zero n) (fun _ => Fin 0))]; auto.
  - assert (Hp : 0 < a) by lra. exists (fun v => ext_scale (/ a) (h' v)). split; apply scale_polar_pos; auto; try (field; lra). apply Rinv_0_lt_compat. auto.
Qed.

(** ** Objects *)
Lemma new_sgb_form : forall dual r c l1 l2 m o q, mode_ok m ->
  new_sgb dual r c l1 l2 (lag_of m) (bnd_of m) o q = Ok (mk_sgb dual r c l1 l2 (lag_of m) (bnd_of m) (mk_moded (lag_of m) (bnd_of m) (new_base (r * c) o q))).
Proof. intros. unfold new_sgb. rewrite new_moded_ok by auto. auto. Qed.
Theorem new_sgb_correct : forall dual r c l1 l2 m o q, mode_ok m -> (forall v, o = Some v -> length v = (r * c)%nat) -> q_shape (r * c) q ->
  exists a, new_sgb dual r c l1 l2 (lag_of m) (bnd_of m) o (Some q) = Ok a /\ sb_dual a = dual /\ bpen a = sparse_block r c l1 l2 /\
    m_base (sb_moded a) = new_base (r * c) o (Some q) /\ (0 <= l1 -> 0 <= l2 -> sgb_wf (r * c) a m).
Proof.
  intros dual r c l1 l2 m o q Hm Ho Hq. rewrite new_sgb_form by auto. eexists. split; [reflexivity|]. do 3 (split; auto). intros H1 H2. do 3 (split; auto). split; [|auto].
  split; auto. split; auto. split; auto. apply new_base_wf; auto.
Qed.
Theorem sgb_proximal_lagrange : forall n a lam p, sgb_wf n a (Lagrange lam) -> sb_dual a = false -> q_shape n p ->
  0 < coef (b_quadratic (m_base (sb_moded a))) + coef p -> some_array (m_base (sb_moded a)) p ->
  exists v, sgb_proximal a (AQuad p) = Ok v /\ prox_spec n (gmode (bpen a) (Lagrange lam)) (m_base (sb_moded a)) p v.
Proof.
  intros n a lam p (En & H1 & H2 & Hm & _) Ed Hq Hc Ha. unfold sgb_proximal. apply moded_proximal_correct; auto. intros x L Lx HL. unfold sgb_lagrange_prox. rewrite Ed.
  eexists. split; [reflexivity|]. assert (Hl : 0 <= lam) by apply Hm. apply pcert_prox; auto. subst n.
  replace (lam * sb_l1 a / L) with (lam / L * sb_l1 a) by (field; lra). replace (lam * sb_l2 a / L) with (lam / L * sb_l2 a) by (field; lra).
  apply sgb_pcert; auto. apply Rmult_le_pos; [auto|left; apply Rinv_0_lt_compat; auto].
Qed.
Theorem sgb_proximal_dual : forall n a b p h, sgb_wf n a (Bound b) -> sb_dual a = true -> q_shape n p ->
  0 < coef (b_quadratic (m_base (sb_moded a))) + coef p -> some_array (m_base (sb_moded a)) p -> indicates n (dual_ball n (bpen a) b) h ->
  exists v, sgb_proximal a (AQuad p) = Ok v /\ prox_spec n h (m_base (sb_moded a)) p v.
Proof.
  intros n a b p h (En & H1 & H2 & (El & Eb & Hb & Hwf) & _) Ed Hq Hc Ha Hh. cbn in Hb. unfold sgb_proximal, moded_proximal. apply shifted_prox_correct; auto. intros x Lx.
  rewrite Eb. cbn [bnd_of]. unfold sgb_bound_prox. rewrite Ed. eexists. split; [reflexivity|]. apply (indic_argmin n _ x (dual_ball n (bpen a) b)); auto.
  apply pcert_dual_proj. subst n. apply sgb_pcert; auto.
Qed.
Theorem sgb_proximal_missing : forall n a m p, sgb_wf n a m -> sb_dual a = (match m with Lagrange _ => true | Bound _ => false end) -> q_shape n p ->
  0 < coef (b_quadratic (m_base (sb_moded a))) + coef p -> some_array (m_base (sb_moded a)) p ->
  sgb_proximal a (AQuad p) = Err NotImplementedError.
Proof.
  intros n a m p (En & H1 & H2 & (El & Eb & Hb & Hwf) & _) Ed Hq Hc Ha. unfold sgb_proximal, moded_proximal. rewrite El, Eb.
  destruct m as [l|b]; apply (shifted_prox_err n); auto; intros x L; unfold sgb_lagrange_prox, sgb_bound_prox; rewrite Ed; auto.
Qed.
Theorem sgb_value : forall n a lam x fuel chk, sgb_wf n a (Lagrange lam) -> sb_dual a = false -> length x = n ->
  sgb_objective a fuel x chk = Ok (moded_doc n (bpen a) (sb_moded a) (Lagrange lam) x).
Proof.
  intros n a lam x fuel chk (En & H1 & H2 & Hm & _) Ed Lx. unfold sgb_objective. apply moded_objective_correct; auto. intros y Ly. unfold sgb_seminorm. rewrite Ed.
  unfold bpen, sparse_block. cbn [ext_scale]. do 5 f_equal. unfold row_norms. f_equal. apply map_ext. intros. symmetry. apply ell2_norm.
Qed.
Theorem sgb_bound_value : forall n a b x fuel, sgb_wf n a (Bound b) -> sb_dual a = false -> length x = n -> sgb_objective a fuel x true = Err TypeError.
Proof.
  intros n a b x fuel (En & H1 & H2 & (El & Eb & Hb & Hwf) & _) Ed Lx. unfold sgb_objective, moded_objective, shifted_objective. rewrite Eb. cbn [bnd_of]. unfold sgb_constraint. rewrite Ed. auto.
Qed.
Theorem sgb_copy_correct : forall n a m, sgb_wf n a m -> sgb_copy a = Ok a.
Proof.
  intros n a m (En & H1 & H2 & (El & Eb & Hm & Hwf) & Ei & Ej). unfold sgb_copy. rewrite El, Eb, new_sgb_form by auto. rewrite En, new_base_same by auto.
  destruct a as [d r c l1 l2 il ib [ml mb g]]. cbn in *. subst. auto.
Qed.
(** terms() uses l1_weight twice *)
Lemma terms_sum : forall a x, length x = (sb_r a * sb_c a)%nat -> vsum (sgb_terms a x) = sb_l1 a * (ell1 x + vsum (map ell2 (rows (sb_r a) (sb_c a) x))).
Proof.
  intros a x Lx. rewrite (block_l1 (sb_r a) (sb_c a)) by auto. unfold sgb_terms. generalize (rows (sb_r a) (sb_c a) x). intros l. induction l as [|y l IH]; cbn [map].
  - unfold vsum. cbn. ring.
  - rewrite !vsum_cons, IH. rewrite <- ell2_norm. unfold ell1, vabs. ring.
Qed.
Lemma row_norms_pos : forall r c x, length x = (r * c)%nat -> (exists i, nth i x 0 <> 0) -> 0 < vsum (map ell2 (rows r c x)).
Proof.
  intros r c x Lx (i & Hi). rewrite <- (concat_rows r c x Lx) in Hi. revert i Hi. generalize (rows r c x). intros l. induction l as [|y l IH]; intros i Hi; cbn [concat map] in *.
  - destruct i; simpl in Hi; lra.
  - rewrite vsum_cons, ell2_norm. pose proof (norm_nonneg y). assert (N : 0 <= vsum (map ell2 l)) by (clear; induction l; cbn [map]; [unfold vsum; cbn; lra|]; rewrite vsum_cons, ell2_norm; pose proof (norm_nonneg a); lra).
    destruct (lt_dec i (length y)) as [L|L].
    + rewrite app_nth1 in Hi by auto. assert (norm y <> 0); [|lra]. intros Z. apply norm_eq_zero in Z. rewrite Z in Hi. apply Hi. unfold zeros. clear. revert i. induction (length y); intros [|i]; cbn; auto.
    + rewrite app_nth2 in Hi by lia. specialize (IH _ Hi). lra.
Qed.
Theorem sgb_terms_correct : forall a x, length x = (sb_r a * sb_c a)%nat ->
  (sb_l1 a = sb_l2 a -> Fin (vsum (sgb_terms a x)) = bpen a x) /\
  (sb_l1 a <> sb_l2 a -> (exists i, nth i x 0 <> 0) -> Fin (vsum (sgb_terms a x)) <> bpen a x).
Proof.
  intros a x Lx. unfold bpen, sparse_block. rewrite terms_sum by auto. split.
  - intros ->. f_equal. ring.
  - intros N X C. pose proof (row_norms_pos _ _ x Lx X) as P. injection C as C. apply N. apply Rmult_eq_reg_r with (vsum (map ell2 (rows (sb_r a) (sb_c a) x))); lra.
Qed.

(** ** Conjugates *)
Lemma sgb_conjugate_form : forall n a m, sgb_wf n a m -> coef (b_quadratic (m_base (sb_moded a))) = 0 ->
  exists d, conjugate_base (m_base (sb_moded a)) = Some d /\
    sgb_conjugate a = Some (Ok (mk_sgb (negb (sb_dual a)) (sb_r a) (sb_c a) (sb_l1 a) (sb_l2 a) (lag_of (dual_mode m)) (bnd_of (dual_mode m)) (mk_moded (lag_of (dual_mode m)) (bnd_of (dual_mode m)) d))).
Proof.
  intros n a m (En & H1 & H2 & (El & Eb & Hb & Hwf) & Ei & Ej) Hc. unfold sgb_conjugate, conjugate_base. destruct (Req_EM_T _ 0); [|congruence]. destruct Hwf as (Hs & _). rewrite Hs, En.
  unfold work_out_conjugate. eexists. split; [reflexivity|]. rewrite Ei, Ej. destruct m as [l|b]; cbn [lag_of bnd_of dual_mode].
  - rewrite (new_sgb_form _ _ _ _ _ (Bound l)) by auto. cbn [lag_of bnd_of]. rewrite En. auto.
  - rewrite (new_sgb_form _ _ _ _ _ (Lagrange b)) by auto. cbn [lag_of bnd_of]. rewrite En. auto.
Qed.
Theorem sgb_conjugate_lagrange : forall n a lam h, sgb_wf n a (Lagrange lam) -> sb_dual a = false -> coef (b_quadratic (m_base (sb_moded a))) = 0 ->
  indicates n (dual_ball n (bpen a) lam) h ->
  exists e, sgb_conjugate a = Some (Ok e) /\ sb_dual e = true /\ sgb_wf n e (Bound lam) /\ bpen e = bpen a /\
    forall u, length u = n -> is_fenchel n (moded_doc n (bpen a) (sb_moded a) (Lagrange lam)) u (base_doc n h (m_base (sb_moded e)) u).
Proof.
  intros n a lam h W Ed Hc Hh. destruct (sgb_conjugate_form n a _ W Hc) as (d & E1 & E2). pose proof W as (En & H1 & H2 & (El & Eb & Hb & Hwf) & Ei & Ej). rewrite Ed in E2.
  destruct (conjugate_base_fenchel n (gmode (bpen a) (Lagrange lam)) h (m_base (sb_moded a)) Hwf Hc) as (d' & E & Wd & F).
  { intros u Lu. apply gauge_ball_fenchel; auto. rewrite <- En. apply block_gauge; auto. }
  assert (d' = d) by congruence. subst d'. eexists. split; [exact E2|]. cbn [sb_dual sb_moded m_base]. split; auto.
  split; [repeat (split; auto)|]. split; auto.
Qed.
Theorem sgb_conjugate_dual : forall n a b h, sgb_wf n a (Bound b) -> sb_dual a = true -> coef (b_quadratic (m_base (sb_moded a))) = 0 ->
  indicates n (dual_ball n (bpen a) b) h ->
  exists e, sgb_conjugate a = Some (Ok e) /\ sb_dual e = false /\ sgb_wf n e (Lagrange b) /\ bpen e = bpen a /\
    forall u, length u = n -> is_fenchel n (base_doc n h (m_base (sb_moded a))) u (moded_doc n (bpen e) (sb_moded e) (Lagrange b) u).
Proof.
  intros n a b h W Ed Hc Hh. destruct (sgb_conjugate_form n a _ W Hc) as (d & E1 & E2). pose proof W as (En & H1 & H2 & (El & Eb & Hb & Hwf) & Ei & Ej). rewrite Ed in E2. cbn in Hb.
  destruct (conjugate_base_fenchel n h (gmode (bpen a) (Lagrange b)) (m_base (sb_moded a)) Hwf Hc) as (d' & E & Wd & F).
  { intros u Lu. set (h1 := fun v : vec => ext_scale (sb_l1 a) (doc_seminorm CL1 v)). set (h2 := fun v : vec => ext_scale (sb_l2 a) (bfun L1L2 (sb_r a) (sb_c a) v)).
    assert (SP : forall v, length v = n -> bpen a v = ext_add (h1 v) (h2 v)) by (intros v Lv; apply block_split; congruence).
    destruct (scale_polar n (doc_seminorm CL1) (doc_seminorm CSup) (sb_l1 a) H1) as (g1 & P1 & P1'); [intros v Lv; eexists; reflexivity|apply (doc_polar n CL1)|apply (doc_polar n CSup)|].
    destruct (scale_polar n (bfun L1L2 (sb_r a) (sb_c a)) (bfun LinfL2 (sb_r a) (sb_c a)) (sb_l2 a) H2) as (g2 & P2 & P2');
      [intros v Lv; rewrite l1l2_value; eauto|rewrite <- En; apply (bfun_polar L1L2)|rewrite <- En; apply (bfun_polar LinfL2)|].
    assert (Hh' : indicates n (dual_ball n (fun v => ext_add (h1 v) (h2 v)) b) h).
    { intros x Lx. destruct (Hh x Lx) as [A B]. assert (EQ : dual_ball n (bpen a) b x <-> dual_ball n (fun v => ext_add (h1 v) (h2 v)) b x) by (split; intros K v s Lv Ev; apply K; auto; [rewrite SP by auto|rewrite SP in Ev by auto]; auto). split; intros K; [apply A|apply B]; tauto. }
    pose proof (sum_ball_fenchel n h1 g1 h2 g2 b h u P1 P1' P2 P2' Hb Hh' Lu) as FF. unfold gmode in *. rewrite SP by auto. exact FF. }
  assert (d' = d) by congruence. subst d'. eexists. split; [exact E2|]. cbn [sb_dual sb_moded m_base]. split; auto.
  split; [repeat (split; auto)|]. split; auto.
Qed.

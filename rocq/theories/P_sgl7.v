(** Sparse group lasso: termination of the searches, values of the dual, and where both go wrong. *)
From Coq Require Import Reals List Lra Lia Psatz ZArith Bool.
From Verif Require Import Vec Spec M_quad M_prox M_semi SpecAtom M_shift SpecBase SpecMode M_mode SpecModed SpecWeighted SpecPart SpecGroup M_mixed M_weighted M_group M_mixed_atom SpecGatom SpecLinear SpecSgl M_sgl SpecSglObj
  P_quad P_prox P_feas P_semi P_conj P_shift P_gauge P_part P_weighted P_kinds P_group P_group2 P_linear P_search P_sgl P_sgl2 P_sgl3 P_sgl4 P_sgl5 P_sgl6.
Import ListNotations.
Local Open Scope R_scope.

Theorem gauge_terminates : forall b n x fuel, length (s_groups b) = n -> length (s_lasso b) = n -> Forall weight_legal (s_lasso b) -> weights_nonneg (s_groups b) (s_weights b) -> length x = n -> (34 < fuel)%nat ->
  exists e, gauge_function_dual b x fuel = Ok e.
Proof.
  intros b n x fuel Lg Ll Hl Hw Lx Hf. set (f := fun t => match inside_set b (map (fun a => a / t) x) with Ok v => v | Err _ => false end).
  assert (Hi : forall t, 0 < t -> inside_set b (map (fun a => a / t) x) = Ok (f t)).
  { intros t Ht. unfold f. destruct (inside_test b n Lg Ll Hl Hw x t Lx Ht) as (q & v & E & _). rewrite E. auto. }
  destruct (search_ok (fun t => inside_set b (map (fun a => a / t) x)) f (/ 10 ^ 10) Hi ltac:(lra) 50%nat 34%nat fuel) as (e & E & He); auto; try lia; try lra.
  exists e. exact E.
Qed.
Theorem strong_terminates : forall (u a : vec) w fuel, (20 < fuel)%nat -> exists e o, gauge_function_dual_strong u a w fuel = Ok (e, o).
Proof.
  intros u a w fuel Hf. unfold gauge_function_dual_strong.
  destruct (search_ok (fun t => Ok (inside_set_strong u t a w)) (fun t => inside_set_strong u t a w) (/ 10 ^ 6)) with (k := 50%nat) (n := 20%nat) (fuel := fuel) as (e & E & He); auto; try lia; try lra.
  rewrite E. cbn [rmap]. destruct e as [m|]; [destruct (Req_EM_T m 0)|]; eauto.
Qed.

(** ** The dual's value *)
Theorem dual_lagrange_value : forall n a lam x fuel, sgl_wf n a (Lagrange lam) -> s_dual a = true -> sgl_objective a x true fuel = Err ValueError.
Proof.
  intros n a lam x fuel (Lg & Ll & Hl & Hw & (El & Eb & Hb & Hwf)) Ed. unfold sgl_objective. rewrite Ed. unfold moded_objective, shifted_objective. rewrite El, Eb. cbn [lag_of bnd_of need rbind]. auto.
Qed.
(** It is never infinite, and 1 more than it should be on the unit ball, whatever the bound *)
Lemma sd_constraint_value : forall n a b x, sgl_wf n a (Bound b) -> length x = n ->
  (sd_constraint (s_groups a) (s_lasso a) (s_weights a) (Some b) x b = Ok (Fin 1) \/ sd_constraint (s_groups a) (s_lasso a) (s_weights a) (Some b) x b = Ok (Fin 0)) /\
  (dual_ball n (spen a) 1 x -> sd_constraint (s_groups a) (s_lasso a) (s_weights a) (Some b) x b = Ok (Fin 1)).
Proof.
  intros n a b x (Lg & Ll & Hl & Hw & (El & Eb & Hb & Hwf)) Lx. cbn in Hb. unfold sd_constraint. rewrite base_ok by (auto; congruence). cbn [rbind].
  set (c := mk_sgl _ _ _ _ _).
  destruct (inside_test c n Lg Ll Hl (nonneg_filled _ _ Hw) x 1 Lx Rlt_0_1) as (q & v & E & C & H).
  assert (M : map (fun y => y / 1) x = x) by (rewrite <- (map_id x) at 2; apply map_ext; intros; field). rewrite M in E. rewrite E. cbn [rmap rbind]. split.
  - destruct v; auto.
  - intros B. replace v with true; auto. symmetry. apply H.
    assert (SP : spen c = spen a) by (unfold spen, c; cbn [s_groups s_lasso s_weights]; apply spen_filled). rewrite SP in C.
    destruct C as (_ & Lq & r & Er & C1 & C2).
    assert (Z : dot q q <= 0). { specialize (B q r Lq Er). rewrite dot_sub_l in C2 by congruence. lra. }
    assert (norm q = 0). { unfold norm. fold (sqn q) in Z. pose proof (sqn_nonneg q). replace (sqn q) with 0 by lra. apply sqrt_0. }
    rewrite H0. pose proof (Rmax_r (norm x) 1). nra.
Qed.
Theorem dual_bound_value : forall n a b x fuel, sgl_wf n a (Bound b) -> s_dual a = true -> length x = n ->
  (exists r, sgl_objective a x true fuel = Ok (Fin r)) /\
  (dual_ball n (spen a) 1 (base_apply_offset (m_base (s_moded a)) x) -> sgl_objective a x true fuel = Ok (Fin (1 + q_func (b_quadratic (m_base (s_moded a))) x))).
Proof.
  intros n a b x fuel W Ed Lx. pose proof W as (Lg & Ll & Hl & Hw & (El & Eb & Hb & Hwf)). unfold sgl_objective. rewrite Ed. unfold moded_objective, shifted_objective. rewrite Eb. cbn [bnd_of].
  assert (Ly : length (base_apply_offset (m_base (s_moded a)) x) = n).
  { unfold base_apply_offset. destruct (b_offset (m_base (s_moded a))) as [o|] eqn:Eo; auto. destruct Hwf as (_ & Ho & _). destruct (Ho o Eo) as [Lo _]. vlen. }
  destruct (sd_constraint_value n a b _ W Ly) as [[->| ->] H2]; cbn [rmap rbind ext_add]; (split; [eauto|]); intros B; specialize (H2 B); congruence.
Qed.

(** ** Failures *)
Lemma norm1 : forall a, norm [a] = Rabs a.
Proof. intros. unfold norm, sqn, dot, vsum, vmul. cbn. rewrite Rplus_0_r. apply sqrt_Rsqr_abs. Qed.
Lemma one_dual_1 : forall w u, 0 < w -> is_dual_norm 1 (one_group [0] w) [u] (Rabs u / w).
Proof.
  intros w u Hw. assert (K : forall b, 0 <= b -> (dual_ball 1 (one_group [0] w) b [u] <-> Rabs u <= b * w)).
  { intros b Hb. rewrite (one_ball_iff [0] w b [u]) by (auto; try lra; constructor; auto; lra). unfold soft_pos. cbn [vzip]. rewrite norm1.
    rewrite Rmult_0_r, Rminus_0_r, Rmax_left by apply Rabs_pos. rewrite (Rabs_right (Rabs u)) by (apply Rle_ge, Rabs_pos). tauto. }
  pose proof (Rabs_pos u) as Hu. assert (0 <= Rabs u / w) by (apply Rmult_le_pos; [auto|left; apply Rinv_0_lt_compat; auto]).
  split; auto. split; [apply K; auto; right; field; lra|]. intros b Hb B. apply K in B; auto. apply Rmult_le_reg_r with w; auto. unfold Rdiv. rewrite Rmult_assoc, Rinv_l by lra. lra.
Qed.
Theorem strong_wrong : is_dual_norm 1 (one_group [0] (/ 10 ^ 5)) [1] (10 ^ 5) /\
  forall fuel, (20 < fuel)%nat -> exists m o, gauge_function_dual_strong [1] [0] (/ 10 ^ 5) fuel = Ok (Fin m, o) /\ m < 6 * 10 ^ 4.
Proof.
  split; [replace (10 ^ 5) with (Rabs 1 / / 10 ^ 5) at 2 by (rewrite Rabs_R1; field); apply one_dual_1; lra|]. intros fuel Hf.
  pose proof (one_dual_1 (/ 10 ^ 5 + / 10 ^ 5) 1 ltac:(lra)) as HD. replace (Rabs 1 / (/ 10 ^ 5 + / 10 ^ 5)) with (5 * 10 ^ 4) in HD by (rewrite Rabs_R1; field).
  destruct (strong_accurate [1] [0] (/ 10 ^ 5) (5 * 10 ^ 4) fuel) as (e & o & E & H); auto; try lra; [constructor; auto; lra|].
  destruct e as [m|].
  - exists m, o. split; auto. destruct H as [(-> & _)|(_ & H & _)]; [lra|]. revert H. unfold Rabs. destruct (Rcase_abs _); lra.
  - destruct H as [H _]. assert (2 ^ 17 <= 2 ^ 50) by (apply Rle_pow; [lra|lia]). exfalso. lra.
Qed.
Definition tiny (w : R) : sgl := mk_sgl false [0%Z] [Fin 0] (fun _ => Some w) (mk_moded (Some 1) None (new_base 1 None None)).
Lemma tiny_pen : forall w v, spen (tiny w) [v] = Fin (w * Rabs v).
Proof.
  intros w v. unfold spen, tiny, sparse_group. cbn [s_groups s_lasso s_weights]. change [Fin 0] with (map Fin [0]). rewrite wl1_fin, glasso_value. unfold block. cbn. unfold group_weight. rewrite norm1. f_equal. unfold vmul, vsum. cbn. ring.
Qed.
Lemma tiny_one : forall w n v, length v = n -> n = 1%nat -> spen (tiny w) v = one_group [0] w v.
Proof.
  intros w n [|a [|b v]] L ->; try discriminate. rewrite tiny_pen. unfold one_group. change [Fin 0] with (map Fin [0]). rewrite wl1_fin. rewrite ell2_norm, norm1. cbn. f_equal. unfold vmul, vsum. cbn. ring.
Qed.
Lemma tiny_dual : forall w u, 0 < w -> is_dual_norm 1 (spen (tiny w)) [u] (Rabs u / w).
Proof.
  intros w u Hw. destruct (one_dual_1 w u Hw) as (H0 & H1 & H2). split; auto. split.
  - intros v s Lv Ev. apply H1; auto. rewrite <- (tiny_one w 1); auto.
  - intros b Hb B. apply H2; auto. intros v s Lv Ev. apply B; auto. rewrite (tiny_one w 1); auto.
Qed.
Lemma tiny_hyp : forall w, 0 <= w -> length (s_groups (tiny w)) = 1%nat /\ length (s_lasso (tiny w)) = 1%nat /\ Forall weight_legal (s_lasso (tiny w)) /\ weights_nonneg (s_groups (tiny w)) (s_weights (tiny w)).
Proof. intros w Hw. repeat split; auto. - constructor; auto. simpl. lra. - intros g _. unfold group_weight. simpl. auto. Qed.
Theorem full_wrong : is_dual_norm 1 (spen (tiny (/ 10 ^ 8))) [5 / 10 ^ 8] 5 /\
  forall fuel, (34 < fuel)%nat -> exists m, gauge_function_dual (tiny (/ 10 ^ 8)) [5 / 10 ^ 8] fuel = Ok (Fin m) /\ 0 <= m <= 1.
Proof.
  assert (D : is_dual_norm 1 (spen (tiny (/ 10 ^ 8))) [5 / 10 ^ 8] 5).
  { pose proof (tiny_dual (/ 10 ^ 8) (5 / 10 ^ 8) ltac:(lra)) as H. replace (Rabs (5 / 10 ^ 8) / / 10 ^ 8) with 5 in H; auto. rewrite Rabs_right by lra. field. }
  split; auto. intros fuel Hf. destruct (tiny_hyp (/ 10 ^ 8) ltac:(lra)) as (A & B & C & E). apply (gauge_at_most_one _ 1 A B C E _ 5); auto.
  - assert (2 ^ 17 <= 2 ^ 50) by (apply Rle_pow; [lra|lia]). lra.
  - rewrite norm1, Rabs_right by lra. lra.
Qed.
(** With no penalty at all the dual norm of 1 is infinite, but a finite number is returned *)
Theorem full_infinite_wrong : (forall b, ~ dual_ball 1 (spen (tiny 0)) b [1]) /\
  forall fuel, (34 < fuel)%nat -> exists m, gauge_function_dual (tiny 0) [1] fuel = Ok (Fin m) /\ m <= 3 * 10 ^ 7.
Proof.
  split.
  - intros b B. specialize (B [1] 0 eq_refl). rewrite tiny_pen in B. specialize (B ltac:(f_equal; ring)). unfold dot, vsum, vmul in B. cbn in B. lra.
  - intros fuel Hf. destruct (tiny_hyp 0 ltac:(lra)) as (A & B & C & E0).
    set (b := tiny 0) in *. set (x := [1]). set (f := fun t => match inside_set b (map (fun a => a / t) x) with Ok v => v | Err _ => false end).
    assert (Hi : forall t, 0 < t -> inside_set b (map (fun a => a / t) x) = Ok (f t)).
    { intros t Ht. unfold f. destruct (inside_test b 1 A B C E0 x t eq_refl Ht) as (q & v & E & _). rewrite E. auto. }
    assert (F : forall t, 0 < t -> f t = true <-> 1 <= / 10 ^ 7 * Rmax 1 t).
    { intros t Ht. destruct (inside_test b 1 A B C E0 x t eq_refl Ht) as (q & v & E & Cq & H). unfold f. rewrite E. rewrite H. clear H E.
      destruct Cq as (_ & Lq & r & Er & C1 & C2). destruct q as [|q0 [|q1 q]]; try discriminate. unfold x in *. rewrite !norm1, Rabs_R1.
      pose proof (C1 [1] 0 eq_refl ltac:(unfold b; rewrite tiny_pen; f_equal; ring)) as K1. pose proof (C1 [-1] 0 eq_refl ltac:(unfold b; rewrite tiny_pen; f_equal; ring)) as K2.
      unfold dot, vsum, vmul, vsub in K1, K2. cbn in K1, K2. assert (q0 = 1) by lra. subst q0. rewrite Rabs_R1. tauto. }
    destruct (search_ok (fun t => inside_set b (map (fun a => a / t) x)) f (/ 10 ^ 10) Hi ltac:(lra) 50%nat 34%nat fuel) as (e & E & He); auto; try lia; try lra.
    assert (Q : 2 ^ 30 <= 2 ^ 50) by (apply Rle_pow; [lra|lia]).
    destruct e as [m|].
    + exists m. split; [exact E|]. destruct He as [[-> _]|(lo & hi & (B1 & B2 & B3 & B4 & B5) & _)]; [lra|].
      assert (lo < 10 ^ 7). { apply Rnot_le_lt. intros L. assert (f lo = true); [|congruence]. apply F; [lra|]. pose proof (Rmax_r 1 lo). lra. } lra.
    + assert (f (2 ^ 50) = true); [|congruence]. apply F; [lra|]. pose proof (Rmax_r 1 (2 ^ 50)). lra.
Qed.

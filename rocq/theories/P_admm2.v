(** The code's updates, as exact rounds. *)
From Coq Require Import Reals List Lra Lia Arith Bool.
From Verif Require Import M_affine SpecAffine P_affine M_loss SpecLoss M_smooth SpecSmooth P_loss P_smooth Vec Spec SpecConvex M_quad P_quad M_semi SpecAtom M_shift SpecBase SpecCone M_cones P_calc M_fista SpecFista P_fista P_fista2 M_problem SpecProblem P_problem P_problem2 M_admm SpecAdmm P_admm P_newton2.
Import ListNotations.
Local Open Scope R_scope.

Definition aug_of (loss : satom) (T : transform) (rho : R) : satom := SSum [loss; SQuad (Some (fun x => t_adj T (t_lin T x))) (t_out T) (1 * rho) None no_quad] (const_vec 2 1) no_quad.
Lemma new_admm_ok : forall loss atom T rho coefs A, new_admm loss atom T rho coefs = Ok A -> s_shape loss = t_out T /\ A = mk_admm (aug_of loss T rho) atom T rho coefs (zeros (t_out T)) (zeros (t_out T)).
Proof.
  intros loss atom T rho coefs A E. unfold new_admm, squared_transform, composition, new_sum in E. cbn [rbind length const_vec repeat Nat.eqb negb] in E.
  match type of E with context [existsb ?f ?l] => assert (B : existsb f l = false) by (cbn; destruct (Rlt_dec 1 0); [exfalso; lra|auto]); rewrite B in E end.
  cbn [rbind] in E. destruct (Nat.eqb (s_shape loss) (t_out T)) eqn:Es; [|discriminate]. apply Nat.eqb_eq in Es. apply Ok_inj in E. subst A. auto.
Qed.
(** Only square transforms pass the assertion when the loss is a function of x. *)
Theorem admm_square : forall loss atom T rho coefs, s_shape loss = t_in T -> t_in T <> t_out T -> new_admm loss atom T rho coefs = Err AssertionError.
Proof.
  intros loss atom T rho coefs E N. unfold new_admm, squared_transform, composition, new_sum. cbn [rbind length const_vec repeat Nat.eqb negb].
  match goal with |- context [existsb ?f ?l] => assert (B : existsb f l = false) by (cbn; destruct (Rlt_dec 1 0); [exfalso; lra|auto]); rewrite B end.
  cbn [rbind]. destruct (Nat.eqb (s_shape loss) (t_out T)) eqn:Es; [|auto]. apply Nat.eqb_eq in Es. congruence.
Qed.
Lemma trunc_sub : forall n (z a : vec), length z = n -> vsub z (vadd (zeros n) a) = vsub z a.
Proof. induction n as [|k IH]; intros [|p z] [|b a] L; try discriminate; auto. unfold vsub, vadd, zeros in *. cbn in *. f_equal; [ring|]. apply IH. congruence. Qed.
Section Code.
Variables (n : nat) (loss : satom) (atom : nobj) (T : transform) (rho : R) (h : vec -> ext).
Hypothesis GS : good_smooth n loss.
Hypothesis EO : exact_obj n h atom.
Hypothesis GD : good_design T n n.
Hypothesis RO : reports_offset T.
Hypothesis HR : 0 < rho.

Lemma lin_len : forall x, length x = n -> length (t_lin T x) = n.
Proof. intros x L. destruct GD as ((A & _) & _ & En & Em). rewrite A; lc. Qed.
Lemma adj_len : forall x, length x = n -> length (t_adj T x) = n.
Proof. intros x L. destruct GD as ((_ & A & _) & _ & En & Em). rewrite A; lc. Qed.
Lemma aug_func : forall u, length u = n -> s_func (aug_of loss T rho) u = s_func loss u + rho / 2 * sqn (t_lin T u).
Proof.
  intros u L. unfold aug_of. cbn [s_func map]. rewrite acc_func_dot. change (const_vec 2 1) with [1; 1]. rewrite !dot_cons, dot_nil_r. rewrite quad_value. cbn [minus apply_Q]. destruct GD as ((_ & _ & A) & _ & En & Em). rewrite <- A; [|lc|rewrite lin_len; lc]. fold (sqn (t_lin T u)). lra.
Qed.
Lemma aug_good : good_smooth n (aug_of loss T rho).
Proof.
  assert (GD' := GD). destruct GD' as ((A1 & A2 & A3) & AF & En & Em). destruct GS as (W & CP & GQ & EV). assert (Li := adjoint_linear T (proj1 GD)). unfold aug_of. split; [|split; [|split]].
  - cbn [wf fold_right]. split; [discriminate|]. split; [reflexivity|]. split; [exact W|]. split; [|exact I]. split; [auto|]. split; [exact I|]. rewrite Em. destruct Li as [L1 L2]. split; [intros; rewrite A2; [lc|rewrite lin_len; lc]|].
    assert (Ad : forall p q, length p = n -> length q = n -> dot (t_adj T (t_lin T p)) q = dot (t_lin T p) (t_lin T q)). { intros p q Lp Lq. rewrite dot_comm, <- A3; [apply dot_comm|lc|rewrite lin_len; lc]. }
    split; [|split].
    + intros x y Lx Ly. apply (dot_separates n); [apply adj_len, lin_len; auto with vl|apply len_add; apply adj_len, lin_len; auto|]. intros u Lu. rewrite Ad by auto with vl. rewrite L1 by lc. rewrite dot_add_l by (rewrite !lin_len; auto). rewrite dot_add_l by (rewrite !adj_len; auto; apply lin_len; auto). rewrite !Ad by auto. auto.
    + intros a x Lx. apply (dot_separates n); [apply adj_len, lin_len; auto with vl|apply len_scal; apply adj_len, lin_len; auto|]. intros u Lu. rewrite Ad by auto with vl. rewrite L2 by lc. rewrite !dot_scal_l. rewrite !Ad by auto. auto.
    + intros x y Lx Ly. rewrite Ad by auto. rewrite (dot_comm x), Ad by auto. apply dot_comm.
  - cbn [convex_parts fold_right]. split; [repeat constructor; lra|]. split; [exact CP|]. split; [|exact I]. split; [lra|]. intros d Ld. cbn [apply_Q]. rewrite <- A3; [apply sqn_nonneg|lc|rewrite A1; lc].
  - apply no_quad_good.
  - intros x Lx. cbn [everywhere fold_right]. destruct (EV x Lx). auto.
Qed.
Lemma of_state : forall A, state_of loss atom T rho A -> a_aug A = aug_of loss T rho /\ a_atom A = atom /\ a_map A = T /\ a_rho A = rho /\ length (a_x A) = n /\ length (a_y A) = n /\ length (a_z A) = n.
Proof. intros A ((coefs & A0 & E & Ea & E1 & E2 & E3) & L1 & L2 & L3). destruct (new_admm_ok _ _ _ _ _ _ E) as (_ & ->). cbn in Ea. destruct GD as (_ & _ & En & Em). repeat (split; [lc|]). lc. Qed.
(** z - alpha = z - T(0) *)
Lemma linear_ok : forall A, state_of loss atom T rho A -> exists w, length w = n /\ admm_linear A = Ok (t_lin T w) /\ forall v, length v = n -> dot w v = dot (a_y A) v - rho * dot (vsub (a_z A) (t_aff T (zeros n))) v.
Proof.
  intros A SA. destruct (of_state A SA) as (Ea & Eo & Et & Er & Lx & Ly & Lz). unfold admm_linear. rewrite Et, Er. assert (GD' := GD). destruct GD' as ((A1 & A2 & A3) & (F1 & F2) & En & Em). unfold reports_offset in RO.
  assert (L0 : t_lin T (zeros n) = zeros n). { assert (Z := proj2 (adjoint_linear T (proj1 GD)) 0 (zeros n) ltac:(rewrite zeros_length; lc)). rewrite vscal_zeros in Z. rewrite Z. rewrite vscal_0. f_equal. apply lin_len. apply zeros_length. }
  destruct (t_off T) as [[a|]|]; [| |contradiction]; cbn [aslinear t_lin].
  - assert (Ez := RO (zeros n) ltac:(rewrite zeros_length; lc)). rewrite L0 in Ez. assert (X := aff_len n n T GD (zeros n) (zeros_length n)).
    assert (Es : vsub (a_z A) a = vsub (a_z A) (t_aff T (zeros n))) by (rewrite Ez; symmetry; apply trunc_sub; auto).
    exists (vsub (a_y A) (vscal rho (vsub (a_z A) a))). rewrite Es. split; [auto with vl|]. split; [auto|]. intros v Lv. rewrite dot_sub_l by vl n. rewrite dot_scal_l. auto.
  - assert (Ez := RO (zeros n) ltac:(rewrite zeros_length; lc)). rewrite L0 in Ez. exists (vsub (a_y A) (vscal rho (a_z A))). split; [auto with vl|]. split; [auto|]. intros v Lv. rewrite Ez, vsub_zeros_r by auto. rewrite dot_sub_l by vl n. rewrite dot_scal_l. auto.
Qed.
Lemma aff_split : forall u, length u = n -> t_aff T u = vadd (t_lin T u) (t_aff T (zeros n)).
Proof. intros u L. destruct GD as (_ & (_ & F) & En & _). rewrite En in F. apply F. auto. Qed.
(** The problem handed to the solver is the augmented Lagrangian when linear_map is symmetric. *)
Lemma handed : self_adjoint T -> forall A, state_of loss atom T rho A -> exists lin K, length lin = n /\ admm_linear A = Ok lin /\
  forall u, length u = n -> lagrangian (s_func loss) (fun _ => Fin 0) T rho u (a_z A) (a_y A) = Fin (s_func (a_aug A) u + dot lin u + K).
Proof.
  intros SY A SA. destruct (of_state A SA) as (Ea & Eo & Et & Er & Lx & Ly & Lz). destruct (linear_ok A SA) as (w & Lw & El & Dw). set (o := t_aff T (zeros n)) in *. assert (Lo : length o = n) by (apply (aff_len n n T GD); apply zeros_length).
  exists (t_lin T w), (dot (a_y A) (vsub o (a_z A)) + rho / 2 * sqn (vsub o (a_z A))). split; [apply lin_len; auto|]. split; [auto|]. intros u Lu. unfold lagrangian. cbn [ext_add]. f_equal. rewrite Ea, aug_func by auto. destruct SY as (_ & SY). rewrite SY by (destruct GD as (_ & _ & En & _); lc).
  assert (Ll := lin_len u Lu). rewrite Dw by auto. rewrite aff_split by auto. fold o. set (v := t_lin T u) in *.
  replace (vsub (vadd v o) (a_z A)) with (vadd v (vsub o (a_z A))).
  - rewrite sqn_add by vl n. rewrite dot_add_r by vl n. rewrite !dot_sub_r by vl n. rewrite dot_sub_l by vl n. rewrite (dot_comm o v), (dot_comm (a_z A) v). lra.
  - clear - Ll Lo Lz. revert Ll Lo Lz. generalize v, o, (a_z A). clear. unfold vsub, vadd. induction n as [|k IH]; intros [|p y] [|q ys] [|e r] A B C; cbn in *; try discriminate; auto. f_equal; [ring|]. apply IH; congruence.
Qed.
Lemma loss_update : forall loops fuel prm lip A A', state_of loss atom T rho A -> p_backtrack prm = true -> 0 < p_start_step prm -> update_loss loops fuel prm lip A = Ok A' ->
  A' = mk_admm (a_aug A) (a_atom A) (a_map A) (a_rho A) (a_x A') (a_y A) (a_z A) /\ length (a_x A') = n /\
  exists lin hh C s, admm_linear A = Ok lin /\ length lin = n /\ exact_problem n (s_func (a_aug A)) hh C /\ good_start hh C (a_x A) /\ fit loops fuel prm C (a_x A) None false = Ok s /\ s_coefs s = a_x A' /\
    forall u, length u = n -> objective (s_func (a_aug A)) hh u = Fin (s_func (a_aug A) u + dot lin u).
Proof.
  intros loops fuel prm lip A A' SA Hb Hs E. destruct (of_state A SA) as (Ea & Eo & Et & Er & Lx & Ly & Lz). destruct (linear_ok A SA) as (w & Lw & El & _). assert (Ll := lin_len w Lw). unfold update_loss in E. rewrite El in E. cbn [rbind] in E.
  destruct (smooth_solve loops fuel prm lip (a_aug A) (a_x A) (Some (mk_iq 0 (FScal 0) (FVec (t_lin T w)) 0))) as [[a1 x1] r] eqn:Es. cbn [snd] in E. destruct r as [[v x]|]; [|discriminate]. cbn [rbind snd] in E. apply Ok_inj in E. subst A'. cbn [a_x].
  assert (AG := aug_good). rewrite <- Ea in AG. assert (SS := smooth_solve_spec n (a_aug A) _ lip loops fuel prm (a_x A) a1 x1 v x AG (linear_good n _ Ll) Lx (or_introl Hb) Hs Es). cbv zeta in SS.
  destruct SS as (_ & _ & Lx' & _ & nq & s & _ & X & G & F & Ex). split; [auto|]. split; [auto|]. exists (t_lin T w), (plus_quad n (own_quad n (s_quadratic (a_aug A))) (mk_iq 0 (FScal 0) (FVec (t_lin T w)) 0)), (smooth_composite (set_quadratic (a_aug A) nq) lip), s.
  repeat (split; [auto; fail|]). intros u Lu. unfold objective, plus_quad, own_quad. cbn [ext_add]. f_equal. rewrite linear_denot by auto. rewrite Ea. cbn [aug_of s_quadratic]. rewrite silent_no_quad. ring.
Qed.
Lemma atom_update : forall A, state_of loss atom T rho A -> exists z, update_atom A = Ok (mk_admm (a_aug A) (a_atom A) (a_map A) (a_rho A) (a_x A) (a_y A) z) /\ forall f, is_argmin n (fun w => lagrangian f h T rho (a_x A) w (a_y A)) z.
Proof.
  intros A SA. destruct (of_state A SA) as (Ea & Eo & Et & Er & Lx & Ly & Lz). unfold update_atom. rewrite Et, Er, Eo. assert (La := aff_len n n T GD (a_x A) Lx).
  destruct (eo_prox n h atom EO (mk_iq rho (FVec (t_aff T (a_x A))) (FVec (vopp (a_y A))) 0)) as (z & Ez & M); [split; cbn; auto with vl|cbn; auto|cbn; auto|]. exists z. rewrite Ez. cbn [rbind]. split; [auto|]. intros f.
  assert (R : forall v, length v = n -> lagrangian f h T rho (a_x A) v (a_y A) = ext_add (plus_quad n h (mk_iq rho (FVec (t_aff T (a_x A))) (FVec (vopp (a_y A))) 0) v) (Fin (f (a_x A) + dot (a_y A) (t_aff T (a_x A))))).
  { intros v Lv. unfold lagrangian, plus_quad, q_denot, quad_fun. cbn [coef center linear_term constant_term fbcast]. destruct (h v); cbn [ext_add]; auto. f_equal. rewrite dot_opp_l, dot_sub_r, (sqn_vsub_sym (t_aff T (a_x A)) v) by vl n. lra. }
  destruct M as (A1 & (r & Er') & B). split; [auto|]. split; [rewrite R, Er' by auto; cbn; eauto|]. intros v Lv. rewrite !R by auto. specialize (B v Lv). rewrite Er' in *. destruct (plus_quad n h _ v); cbn in *; [lra|auto].
Qed.
Lemma state_x : forall A x, state_of loss atom T rho A -> length x = n -> state_of loss atom T rho (mk_admm (a_aug A) (a_atom A) (a_map A) (a_rho A) x (a_y A) (a_z A)).
Proof. intros A x (E & L1 & L2 & L3) L. split; [exact E|]. cbn. destruct GD as (_ & _ & En & Em). repeat split; lc. Qed.
(** One iteration of the code *)
Theorem iter_spec : forall loops fuel prm lip A A', state_of loss atom T rho A -> p_backtrack prm = true -> 0 < p_start_step prm -> admm_iter loops fuel prm lip A = Ok A' ->
  state_of loss atom T rho A' /\ (forall f, is_argmin n (fun w => lagrangian f h T rho (a_x A') w (a_y A)) (a_z A')) /\ a_y A' = vadd (a_y A) (vscal rho (vsub (t_aff T (a_x A')) (a_z A'))) /\
  exists lin hh C s, admm_linear A = Ok lin /\ length lin = n /\ exact_problem n (s_func (a_aug A)) hh C /\ good_start hh C (a_x A) /\ fit loops fuel prm C (a_x A) None false = Ok s /\ s_coefs s = a_x A' /\
    forall u, length u = n -> objective (s_func (a_aug A)) hh u = Fin (s_func (a_aug A) u + dot lin u).
Proof.
  intros loops fuel prm lip A A' SA Hb Hs E. unfold admm_iter in E. destruct (update_loss loops fuel prm lip A) as [A1|] eqn:E1; [|discriminate]. cbn [rbind] in E. destruct (loss_update _ _ _ _ _ _ SA Hb Hs E1) as (D1 & Lx1 & P).
  assert (S1 : state_of loss atom T rho A1) by (rewrite D1; apply state_x; auto). destruct (atom_update A1 S1) as (z & E2 & M). rewrite E2 in E. cbn [rbind] in E. apply Ok_inj in E.
  destruct (of_state A SA) as (Ea & Eo & Et & Er & Lx & Ly & Lz). destruct (of_state A1 S1) as (Ea1 & Eo1 & Et1 & Er1 & _ & Ly1 & Lz1). assert (Ey : a_y A1 = a_y A) by (rewrite D1; auto).
  assert (Lz' : length z = n) by apply (M (fun _ => 0)). subst A'. unfold update_dual. cbn [a_aug a_atom a_map a_rho a_x a_y a_z]. rewrite Et1, Er1, Ey in *. split; [|split; [auto|split; [auto|exact P]]].
  destruct SA as (Ex & _). split.
  - destruct Ex as (coefs & A0 & X1 & X2 & _). exists coefs, A0. cbn. repeat split; auto. rewrite Ea1. congruence.
  - cbn. destruct GD as (_ & _ & En & Em). rewrite En, Em. split; [lc|]. assert (La := aff_len n n T GD _ Lx1). split; auto with vl.
Qed.
Theorem iter_round : self_adjoint T -> forall loops fuel prm lip A A', state_of loss atom T rho A -> p_backtrack prm = true -> 0 < p_start_step prm -> admm_iter loops fuel prm lip A = Ok A' -> solved n A (a_x A') ->
  admm_round n n (s_func loss) h T rho (point A) (point A').
Proof.
  intros SY loops fuel prm lip A A' SA Hb Hs E S. destruct (iter_spec _ _ _ _ _ _ SA Hb Hs E) as (SA' & Mz & Ey & _). destruct (handed SY A SA) as (lin & K & Ll & El & HL). unfold point, admm_round. split; [|split; [apply Mz|exact Ey]].
  destruct (S lin El) as (Lx & _ & M). split; [auto|]. split; [rewrite HL by auto; eauto|]. intros v Lv. rewrite !HL by auto. specialize (M v Lv). cbn in *. lra.
Qed.
(** An iteration started at a solution stays there. *)
Theorem iter_stays : self_adjoint T -> forall loops fuel prm lip A A', state_of loss atom T rho A -> p_backtrack prm = true -> 0 < p_start_step prm -> saddle n n (s_func loss) h T (point A) ->
  admm_iter loops fuel prm lip A = Ok A' -> point A' = point A.
Proof.
  intros SY loops fuel prm lip A A' SA Hb Hs Sd E. destruct (iter_spec _ _ _ _ _ _ SA Hb Hs E) as (SA' & Mz & Ey & lin & hh & C & s & El & Ll & X & G & F & Es & O).
  destruct (of_state A SA) as (Ea & Eo & Et & Er & Lx & Ly & Lz). destruct (handed SY A SA) as (lin' & K & Ll' & El' & HL). assert (lin' = lin) by (apply Ok_inj; congruence). subst lin'.
  assert (Sd' := Sd). destruct Sd' as (Ez & _ & (_ & _ & Mx) & _).
  assert (MX : is_argmin n (fun u => lagrangian (s_func loss) (fun _ => Fin 0) T rho u (a_z A) (a_y A)) (a_x A)).
  { split; [auto|]. split; [unfold lagrangian; cbn; eauto|]. intros u Lu. unfold lagrangian. cbn [ext_add ext_le]. rewrite <- Ez, vsub_self, sqn_zeros, dot_zeros_r. specialize (Mx u Lu). cbn [ext_le] in Mx. assert (Lt := aff_len n n T GD u Lu). rewrite dot_sub_r by vl n.
    assert (DD : forall v, length v = n -> dot (a_y A) (t_aff T v) = dot (a_y A) (t_lin T v) + dot (a_y A) (t_aff T (zeros n))). { intros v Lv. assert (Lo := aff_len n n T GD (zeros n) (zeros_length n)). assert (Lw := lin_len v Lv). rewrite aff_split by auto. apply dot_add_r; vl n. }
    assert (Dz : dot (a_y A) (a_z A) = dot (a_y A) (t_lin T (a_x A)) + dot (a_y A) (t_aff T (zeros n))) by (rewrite Ez at 1; auto). rewrite Dz, DD by auto. assert (Q := sqn_nonneg (vsub (t_aff T u) (a_z A))). nra. }
  assert (MO : is_argmin n (objective (s_func (a_aug A)) hh) (a_x A)).
  { split; [auto|]. split; [rewrite O by auto; eauto|]. intros u Lu. rewrite !O by auto. destruct MX as (_ & _ & M). specialize (M u Lu). cbv beta in M. rewrite !HL in M by auto. cbn in *. lra. }
  assert (Ex : a_x A' = a_x A). { rewrite <- Es. apply (fit_stays n _ hh C prm X (or_introl Hb) loops fuel (a_x A) None false s); auto. }
  assert (RD : admm_round n n (s_func loss) h T rho (point A) (point A')). { unfold point, admm_round. split; [rewrite Ex; exact MX|]. split; [apply Mz|exact Ey]. }
  destruct (round_closer n n (s_func loss) h T rho (smooth_convex n loss GS) (eo_convex n h atom EO) GD HR (point A) (a_x A) (a_z A) (a_y A) (a_x A') (a_z A') (a_y A') Sd Lz Ly RD) as (L1 & L2 & D).
  unfold point, distance in D. rewrite !vsub_self, !sqn_zeros in D. assert (P1 := sqn_nonneg (vsub (a_z A') (a_z A))). assert (P2 := sqn_nonneg (vsub (a_y A') (a_y A))). assert (P3 := sqn_nonneg (vsub (t_aff T (a_x A')) (a_z A))).
  assert (P4 : 0 <= sqn (vsub (a_y A') (a_y A)) / rho) by (apply Rmult_le_pos; [auto|left; apply Rinv_0_lt_compat; auto]).
  assert (Z1 : sqn (vsub (a_z A') (a_z A)) = 0) by nra. assert (Z2 : sqn (vsub (a_y A') (a_y A)) = 0). { assert (W : sqn (vsub (a_y A') (a_y A)) / rho = 0) by nra. unfold Rdiv in W. assert (0 < / rho) by (apply Rinv_0_lt_compat; auto). nra. }
  unfold point. rewrite Ex. rewrite (vsub_eq_zero (a_z A') (a_z A)), (vsub_eq_zero (a_y A') (a_y A)) by (auto; lc). auto.
Qed.
End Code.

(** Factored matrices: their maps, and partial decompositions. *)
From Coq Require Import Reals List Lra Lia Psatz Arith Bool.
From Verif Require Import M_affine P_affine P_affine2 Vec Spec SpecLoss M_quad M_prox M_semi M_shift SpecAtom SpecBase SpecMode M_mode SpecModed SpecPart SpecBlock M_cones SpecCone P_quad P_calc P_sep P_cv P_pl P_prox P_feas P_semi P_shift P_conj P_cones P_gauge P_part P_mixed M_linear SpecLinear P_linear SpecSvd P_svd1 P_svd2 P_svd3 M_svd SpecSvd2 P_svd4 M_factored SpecFactored.
From Verif Require P_block P_block3.
Import ListNotations.
Local Open Scope R_scope.

(** ** sums of rank one matrices *)
Lemma rank1s_app : forall U1 V1 U2 V2, length U1 = length V1 -> rank1s (U1 ++ U2) (V1 ++ V2) = rank1s U1 V1 ++ rank1s U2 V2.
Proof. induction U1 as [|u U1 IH]; intros [|v V1] U2 V2 L; try discriminate; auto. cbn. rewrite IH by (cbn in L; lia). auto. Qed.
Lemma rank1s_lengths : forall r c U V, Forall (fun u => length u = r) U -> Forall (fun v => length v = c) V -> Forall (fun x => length x = (r * c)%nat) (rank1s U V).
Proof. intros r c. induction U as [|u U IH]; intros [|v V] FU FV; cbn; constructor; inversion FU; inversion FV; subst; auto. apply rank1_length. Qed.
Lemma tvec_zeros : forall n B k, Forall (fun x => length x = n) B -> mat_tvec n B (zeros k) = zeros n.
Proof.
  intros n. induction B as [|b B IH]; intros [|k] F; auto. inversion F; subst. cbn [zeros repeat mat_tvec]. fold (zeros k). rewrite IH by auto. rewrite vscal_0. apply vadd_zeros_l. apply zeros_length.
Qed.
Lemma tvec_pad : forall n B1 B2 d1 k, Forall (fun x => length x = n) B2 -> length d1 = length B1 -> mat_tvec n (B1 ++ B2) (d1 ++ zeros k) = mat_tvec n B1 d1.
Proof.
  intros n. induction B1 as [|b B1 IH]; intros B2 [|a d1] k F L; try discriminate; cbn [app mat_tvec]; [|rewrite IH by (auto; cbn in L; lia); auto].
  rewrite tvec_zeros by auto. destruct B2; auto.
Qed.
Lemma usv_pad : forall r c U1 V1 U2 V2 d1 k, length U1 = length d1 -> length V1 = length d1 -> Forall (fun u => length u = r) U2 -> Forall (fun v => length v = c) V2 ->
  usv (r * c) (U1 ++ U2) (d1 ++ zeros k) (V1 ++ V2) = usv (r * c) U1 d1 V1.
Proof. intros r c U1 V1 U2 V2 d1 k H H0 FU FV. unfold usv. rewrite rank1s_app by (exact (eq_trans H (eq_sym H0))). apply tvec_pad; [apply rank1s_lengths; auto|]. rewrite rank1s_length by (exact (eq_trans H (eq_sym H0))). symmetry. exact H. Qed.
Lemma vsub_vadd : forall a b x y : vec, length a = length b -> length x = length a -> length y = length a -> vsub (vadd a b) (vadd x y) = vadd (vsub a x) (vsub b y).
Proof. induction a as [|a0 a IH]; intros [|b0 b] [|x0 x] [|y0 y] L1 L2 L3; try discriminate; auto. unfold vsub, vadd in *. cbn [vzip]. rewrite IH by (cbn in *; lia). f_equal. ring. Qed.
Lemma vsub_vscal : forall s t (x : vec), vsub (vscal s x) (vscal t x) = vscal (s - t) x.
Proof. intros s t. induction x as [|a x IH]; auto. unfold vsub, vscal in *. cbn [map vzip]. rewrite IH. f_equal. ring. Qed.
Lemma usv_sub : forall n U V a b, Forall (fun x => length x = n) (rank1s U V) -> length a = length b -> vsub (usv n U a V) (usv n U b V) = usv n U (vsub a b) V.
Proof.
  intros n U V. unfold usv. generalize (rank1s U V) as B. induction B as [|x B IH]; intros [|s a] [|t b] F L; try discriminate; [cbn; rewrite vsub_self, zeros_length; auto|cbn; rewrite vsub_self, zeros_length; auto|cbn; rewrite vsub_self, zeros_length; auto|].
  inversion F; subst. change (vsub (s :: a) (t :: b)) with ((s - t) :: vsub a b). cbn [mat_tvec]. rewrite <- IH by (auto; cbn in *; lia).
  assert (L1 : forall d, length (mat_tvec (length x) B d) = length x) by (intros; apply mat_tvec_length; auto). rewrite vsub_vadd by (rewrite ?vscal_length, ?L1; auto). rewrite vsub_vscal. auto.
Qed.
(** ** X, and the maps *)
Lemma get_X_usv : forall f, factors_fit f -> get_X f = usv (f_r f * f_c f) (f_U f) (f_D f) (f_VT f).
Proof.
  intros f (LU & LV & FU & FV & E). unfold get_X. destruct (f_rank1 f) eqn:Er.
  - symmetry in E. apply Nat.eqb_eq in E. destruct (f_D f) as [|d [|]]; try discriminate. destruct (f_U f) as [|u [|]]; try discriminate. destruct (f_VT f) as [|v [|]]; try discriminate.
    rewrite recompose_usv by auto. unfold usv. cbn [rank1s mat_tvec nth]. inversion FU; inversion FV; subst. rewrite !vadd_zeros_r by (vlen; rewrite rank1_length; congruence). unfold vscal. rewrite map_map. apply map_ext. intros. ring.
  - exact (recompose_usv _ _ _ _ _ (eq_trans LU (eq_sym LV)) (eq_sym LV) FU FV).
Qed.
Lemma usv_bilinear : forall r c U d V u x, Forall (fun w => length w = r) U -> Forall (fun w => length w = c) V -> length U = length d -> length V = length d -> length u = r -> length x = c ->
  dot (usv (r * c) U d V) (rank1 u x) = dot (vmul d (mat_vec V x)) (mat_vec U u).
Proof.
  intros r c U d V u x FU FV. revert d V FV. induction FU as [|w U Hw FU IH]; intros [|a d] [|v V] FV LU LV Lu Lx; try discriminate.
  - unfold usv. cbn [rank1s mat_tvec]. rewrite dot_zeros_l. symmetry. apply dot_nil_l.
  - pose proof (Forall_inv FV) as Hv. pose proof (Forall_inv_tail FV) as FV'. cbn beta in Hv. change (usv (r * c) (w :: U) (a :: d) (v :: V)) with (vadd (vscal a (rank1 w v)) (usv (r * c) U d V)).
    change (dot (vmul (a :: d) (mat_vec (v :: V) x)) (mat_vec (w :: U) u)) with (dot ((a * dot v x) :: vmul d (mat_vec V x)) (dot w u :: mat_vec U u)).
    rewrite dot_add_l; [|rewrite vscal_length, rank1_length; unfold usv; rewrite mat_tvec_length by (apply rank1s_lengths; auto); congruence|rewrite vscal_length, !rank1_length; congruence].
    rewrite dot_scal_l, dot_rank1 by congruence. rewrite dot_cons. rewrite IH by (auto; cbn in *; lia). ring.
Qed.
Lemma vec_ext : forall n (a b : vec), length a = n -> length b = n -> (forall x, length x = n -> dot x a = dot x b) -> a = b.
Proof.
  intros n a b La Lb H. apply vsub_eq_zero; [congruence|]. assert (Ld : length (vsub a b) = n) by vlen. apply Req_le. unfold sqn. rewrite dot_sub_r by congruence. rewrite (H _ Ld). ring.
Qed.
Lemma f_linear_eq : forall f x, factors_fit f -> f_linear f x = mat_tvec (f_r f) (f_U f) (vmul (f_D f) (mat_vec (f_VT f) x)).
Proof.
  intros f x (LU & LV & FU & FV & E). unfold f_linear, dot_U, dot_VT. destruct (f_rank1 f); auto. symmetry in E. apply Nat.eqb_eq in E. destruct (f_D f) as [|d [|]]; try discriminate.
  destruct (f_U f) as [|u [|]]; try discriminate. destruct (f_VT f) as [|v [|]]; try discriminate. cbn [mat_vec map vmul vzip mat_tvec nth]. inversion FU; subst. rewrite !vadd_zeros_r by (vlen; auto). unfold vscal. rewrite map_map. apply map_ext. intros. ring.
Qed.
Lemma f_adjoint_eq : forall f u, factors_fit f -> f_adjoint f u = mat_tvec (f_c f) (f_VT f) (vmul (f_D f) (mat_vec (f_U f) u)).
Proof.
  intros f x (LU & LV & FU & FV & E). unfold f_adjoint, dot_V, dot_UT. destruct (f_rank1 f); auto. symmetry in E. apply Nat.eqb_eq in E. destruct (f_D f) as [|d [|]]; try discriminate.
  destruct (f_U f) as [|u [|]]; try discriminate. destruct (f_VT f) as [|v [|]]; try discriminate. cbn [mat_vec map vmul vzip mat_tvec nth]. inversion FV; subst. rewrite !vadd_zeros_r by (vlen; auto). unfold vscal. rewrite map_map. apply map_ext. intros. ring.
Qed.
Lemma vmul_move : forall a b d : vec, length a = length d -> length b = length d -> dot (vmul d a) b = dot a (vmul d b).
Proof. induction a as [|x a IH]; intros [|y b] [|z d] L1 L2; try discriminate; auto. unfold vmul in *. cbn [vzip]. rewrite !dot_cons, IH by (cbn in *; lia). ring. Qed.
(** The maps of a factored matrix are those of the matrix X it stands for. *)
Theorem factored_maps : forall f x u, factors_fit f -> length x = f_c f -> length u = f_r f ->
  length (get_X f) = (f_r f * f_c f)%nat /\ f_linear f x = mat_vec (rows (f_r f) (f_c f) (get_X f)) x /\ length (f_adjoint f u) = f_c f /\ dot (f_linear f x) u = dot x (f_adjoint f u) /\
  f_affine f x = match f_off f with Some a => vadd (f_linear f x) a | None => f_linear f x end.
Proof.
  intros f x u H Lx Lu. pose proof H as (LU & LV & FU & FV & _). assert (LX : length (get_X f) = (f_r f * f_c f)%nat) by (rewrite get_X_usv by auto; apply mat_tvec_length, rank1s_lengths; auto).
  assert (MV : forall z, length (mat_vec (f_VT f) z) = length (f_D f)) by (intros; unfold mat_vec; rewrite map_length; exact LV).
  assert (MU : forall z, length (mat_vec (f_U f) z) = length (f_D f)) by (intros; unfold mat_vec; rewrite map_length; exact LU).
  assert (LM : forall z, length z = length (f_D f) -> length (vmul (f_D f) z) = length (f_D f)) by (intros; vlen).
  assert (AU : forall w z, length w = f_r f -> dot w (mat_tvec (f_r f) (f_U f) (vmul (f_D f) (mat_vec (f_VT f) z))) = dot (mat_vec (f_U f) w) (vmul (f_D f) (mat_vec (f_VT f) z))).
  { intros w z Lw. symmetry. apply mat_adjoint; auto. rewrite LM by auto. symmetry. exact LU. }
  split; auto. split; [|split; [|split]].
  - apply (vec_ext (f_r f)); [rewrite f_linear_eq by auto; apply mat_tvec_length; auto|unfold mat_vec; rewrite map_length; apply P_block.rows_length|]. intros w Lw. rewrite <- bil_rows by auto. rewrite get_X_usv by auto.
    rewrite usv_bilinear by (auto; try (symmetry; exact LU); exact LU || exact LV). rewrite f_linear_eq by auto. rewrite AU by auto. apply dot_comm.
  - rewrite f_adjoint_eq by auto. apply mat_tvec_length. auto.
  - rewrite f_linear_eq, f_adjoint_eq by auto. rewrite dot_comm, AU by auto. rewrite <- mat_adjoint by (auto; rewrite LM by auto; symmetry; exact LV). rewrite <- (vmul_move (mat_vec (f_VT f) x)) by auto. apply dot_comm.
  - reflexivity.
Qed.
(** ** Partial decompositions *)
Lemma positive_pos : forall d, positive (map pos d) = positive d.
Proof. intros d. unfold positive. rewrite map_map. apply map_ext. intros a. unfold pos, Rmax. destruct (Rle_dec a 0), (Rlt_dec 0 a); try lra; destruct (Rlt_dec 0 0); auto; lra. Qed.
Lemma kept_pos : forall d, kept (positive d) (map pos d) = kept (positive d) d.
Proof. induction d as [|a d IH]; auto. cbn [positive map kept]. fold (positive d). destruct (Rlt_dec 0 a); rewrite IH; auto. f_equal. unfold pos. apply Rmax_left. lra. Qed.
Lemma kept_positive : forall r c U d V, length U = length d -> length V = length d -> Forall (fun u => length u = r) U -> Forall (fun v => length v = c) V ->
  usv (r * c) (kept (positive d) U) (kept (positive d) d) (kept (positive d) V) = usv (r * c) U (map pos d) V.
Proof.
  intros r c U d V LU LV FU FV. rewrite <- (kept_pos d), <- (positive_pos d). apply kept_usv.
  - exact (eq_trans LU (eq_sym LV)).
  - rewrite map_length. symmetry. exact LV.
  - apply Forall_map, Forall_forall. intros a _. apply Rmax_r.
  - apply rank1s_lengths; auto.
Qed.
Lemma kept_fit : forall r c U d V f, length U = length d -> length V = length d -> Forall (fun u => length u = r) U -> Forall (fun v => length v = c) V ->
  new_factored r c (kept (positive d) U) (kept (positive d) d) (kept (positive d) V) None 0 = Ok f ->
  factors_fit f /\ f_r f = r /\ f_c f = c /\ get_X f = usv (r * c) U (map pos d) V.
Proof.
  intros r c U d V f LU LV FU FV E. unfold new_factored in E. destruct (Rle_dec 0 0); [|lra]. apply Ok_inj in E.
  assert (K : factors_fit f). { subst f. unfold factors_fit. cbn [f_r f_c f_U f_D f_VT f_rank1]. split; [apply kept_length; exact LU|]. split; [apply kept_length; exact LV|]. split; [apply kept_Forall; auto|]. split; [apply kept_Forall; auto|auto]. }
  split; auto. split; [subst f; auto|]. split; [subst f; auto|]. rewrite get_X_usv by auto. subst f. cbn [f_r f_c f_U f_D f_VT]. apply kept_positive; auto.
Qed.
Section Lead.
Variables (r c : nat) (X : vec) (U1 V1 : list vec) (D1 D2 : vec).
Hypothesis Hr : (1 <= r)%nat.
Hypothesis Hc : (1 <= c)%nat.
Hypothesis LX : length X = (r * c)%nat.
Hypothesis Ld : leading r c X U1 D1 V1 D2.
Lemma lead_fit : length U1 = length D1 /\ length V1 = length D1 /\ Forall (fun u => length u = r) U1 /\ Forall (fun v => length v = c) V1 /\ all_nonneg (D1 ++ D2) /\ (length D1 + length D2 = Nat.min r c)%nat.
Proof.
  destruct Ld as (U2 & V2 & Sv & A & B). split; auto. split; auto. pose proof (rows_length _ _ (sv_ou _ _ _ _ _ _ Sv)) as FU. pose proof (rows_length _ _ (sv_ov _ _ _ _ _ _ Sv)) as FV. apply Forall_app in FU. apply Forall_app in FV.
  split; [tauto|]. split; [tauto|]. split; [exact (sv_pos _ _ _ _ _ _ Sv)|]. rewrite <- app_length. apply Sv.
Qed.
(** Padding with zeros gives a decomposition of the result *)
Lemma lead_pad : forall d1, length d1 = length D1 -> exists U V, is_svd r c X U (D1 ++ D2) V /\ usv (r * c) U1 d1 V1 = recompose r c U (d1 ++ zeros (length D2)) V.
Proof.
  intros d1 E. destruct Ld as (U2 & V2 & Sv & A & B). exists (U1 ++ U2), (V1 ++ V2). split; auto. pose proof (rows_length _ _ (sv_ou _ _ _ _ _ _ Sv)) as FU. pose proof (rows_length _ _ (sv_ov _ _ _ _ _ _ Sv)) as FV.
  rewrite recompose_usv; auto.
  - symmetry. apply usv_pad; [exact (eq_trans A (eq_sym E))|exact (eq_trans B (eq_sym E))|apply Forall_app in FU; tauto|apply Forall_app in FV; tauto].
  - exact (eq_trans (sv_u _ _ _ _ _ _ Sv) (eq_sym (sv_v _ _ _ _ _ _ Sv))).
  - refine (eq_trans _ (eq_sym (sv_v _ _ _ _ _ _ Sv))). rewrite <- (sv_d _ _ _ _ _ _ Sv), !app_length, zeros_length. congruence.
Qed.
Lemma soft_nonneg : forall t a, 0 <= t -> 0 <= a -> soft t a = pos (a - t).
Proof. intros t a Ht Ha. unfold soft, sgn, pos, Rmax. rewrite Rabs_right by lra. destruct (Rlt_dec 0 a), (Rlt_dec a 0), (Rle_dec (a - t) 0); try lra. Qed.
Lemma soft_pad : forall t, 0 <= t -> Forall (fun a => a <= t) D2 -> map (soft t) (D1 ++ D2) = map (fun a => pos (a - t)) D1 ++ zeros (length D2).
Proof.
  intros t Ht H. pose proof lead_fit as (_ & _ & _ & _ & P & _). unfold all_nonneg in P. apply Forall_app in P. destruct P as [P1 P2]. rewrite map_app. f_equal.
  - apply map_ext_in. intros a I. apply soft_nonneg; auto. apply (proj1 (Forall_forall _ _) P1 a I).
  - clear -H P2 Ht. induction D2 as [|a d IH]; auto. inversion H; inversion P2; subst. cbn [map length zeros repeat]. rewrite IH by auto. unfold zeros. f_equal. rewrite soft_nonneg by auto. unfold pos. apply Rmax_right. lra.
Qed.
Lemma lead_lag_form : forall lam f, 0 <= lam -> Forall (fun a => a <= lam) D2 ->
  new_factored r c (kept (positive (map (fun d => d - lam) D1)) U1) (kept (positive (map (fun d => d - lam) D1)) (map (fun d => d - lam) D1)) (kept (positive (map (fun d => d - lam) D1)) V1) None 0 = Ok f ->
  factors_fit f /\ f_r f = r /\ f_c f = c /\ exists U V, is_svd r c X U (D1 ++ D2) V /\ get_X f = recompose r c U (map (soft lam) (D1 ++ D2)) V.
Proof.
  intros lam f Hl H E. pose proof lead_fit as (LU & LV & FU & FV & P & _). apply kept_fit in E; [|rewrite map_length; auto|rewrite map_length; auto|auto|auto]. destruct E as (K & Er & Ec & EX). split; auto. split; auto. split; auto. rewrite EX. rewrite map_map.
  destruct (lead_pad (map (fun x => pos (x - lam)) D1) ltac:(apply map_length)) as (U & V & Sv & ->). rewrite <- soft_pad by auto. eauto.
Qed.
Lemma soft_is_proj : forall n x b t, length x = n -> 0 <= t -> vsum (map (fun a => pos (Rabs a - t)) x) <= b -> t * (vsum (map (fun a => pos (Rabs a - t)) x) - b) = 0 -> is_proj n (in_ball CL1 b) x (map (soft t) x).
Proof.
  intros n x b t Hn Ht Hs Hc0. apply proj_certificate; auto; [vlen| |].
  - unfold in_ball. simpl. rewrite ell1_map. erewrite map_ext; [exact Hs|]. intros. apply soft_abs; auto.
  - intros v Hv HS. unfold in_ball in HS. simpl in HS. rewrite dot_map_zip by congruence. eapply Rle_trans.
    + apply vsum_zip_le with (P := fun _ => True) (k2 := fun b => t * Rabs b) (k1 := fun a => t * pos (Rabs a - t)); auto using Forall_True; [congruence|].
      intros a d _. pose proof (soft_resid t a Ht). pose proof (soft_align t a Ht). rewrite <- soft_abs by auto.
      assert ((a - soft t a) * d <= t * Rabs d). { eapply Rle_trans; [apply Rle_abs|]. rewrite Rabs_mult. apply Rmult_le_compat_r; auto. apply Rabs_pos. } nra.
    + rewrite !vsum_map_scale. fold (ell1 v). nra.
Qed.
Lemma proj_once : forall n S x p q, is_proj n S x p -> is_proj n S x q -> p = q.
Proof. intros n S x p q (A & B & C) (A' & B' & C'). destruct (C q A' B') as [c1 c2]. destruct (C' p A B) as [c3 c4]. apply c4. lra. Qed.
Lemma sum_map_le : forall (f g : R -> R) l, (forall a, In a l -> f a <= g a) -> vsum (map f l) <= vsum (map g l).
Proof. intros f g. induction l as [|c0 l IH]; intros H; [unfold vsum; simpl; lra|]. cbn [map]. rewrite !vsum_cons. assert (f c0 <= g c0) by (apply H; left; auto). assert (vsum (map f l) <= vsum (map g l)) by (apply IH; intros; apply H; right; auto). lra. Qed.
Lemma vmin_in : forall d : vec, d <> [] -> In (vmin d) d /\ Forall (fun a => vmin d <= a) d.
Proof.
  intros [|a d] N; [congruence|]. cbn [vmin]. clear N. induction d as [|b d [I F]]; cbn [fold_right]; [split; [left; auto|repeat constructor; lra]|].
  set (m := fold_right Rmin a d) in *. split.
  - unfold Rmin. destruct (Rle_dec b m); [right; left; auto|]. destruct I; [left; auto|right; right; auto].
  - inversion F; subst. pose proof (Rmin_l b m). pose proof (Rmin_r b m). constructor; [lra|]. constructor; [lra|]. eapply Forall_impl; [|exact H2]. intros z Hz. cbn in Hz |- *. lra.
Qed.
Lemma descending_app : forall (d e : vec) a b, descending (d ++ e) -> In a d -> In b e -> b <= a.
Proof.
  assert (T : forall (e : vec) x b, descending (x :: e) -> In b e -> b <= x).
  { induction e as [|y e IH]; intros x b H I; [destruct I|]. destruct H as [H1 H2]. destruct I as [->|I]; auto. pose proof (IH y b H2 I). lra. }
  induction d as [|x d IH]; intros e a b H Ia Ib; [destruct Ia|]. assert (H' : descending (d ++ e)) by (cbn in H; destruct (d ++ e); [exact I|apply H]).
  destruct Ia as [->|Ia]; [|eapply IH; eauto]. apply (T (d ++ e)); auto. apply in_or_app. auto.
Qed.
Lemma lead_desc : descending (D1 ++ D2). Proof. destruct Ld as (U2 & V2 & Sv & _). apply Sv. Qed.
Lemma abs_D1 : vabs D1 = D1.
Proof. pose proof lead_fit as (_ & _ & _ & _ & P & _). unfold all_nonneg in P. apply Forall_app in P. destruct P as [P _]. unfold vabs. rewrite <- (map_id D1) at 2. apply map_ext_in. intros a I. apply Rabs_pos_eq. apply (proj1 (Forall_forall _ _) P a I). Qed.
Lemma svt_enough : forall lam, 0 <= lam -> D1 <> [] -> (Forall (fun a => a = 0) D2 \/ svt_rule lam (vabs D1) = true) -> Forall (fun a => a <= lam) D2.
Proof.
  intros lam Hl N [Z|T]; [eapply Forall_impl; [|exact Z]; intros a ->; auto|]. unfold svt_rule, rleb in T. rewrite abs_D1, abs_D1 in T. destruct Rle_dec as [T'|]; [|discriminate]. destruct (vmin_in D1 N) as [I _].
  apply Forall_forall. intros b Ib. pose proof (descending_app D1 D2 _ b lead_desc I Ib). lra.
Qed.
Lemma lead_bound_form : forall b p f, 0 <= b -> D1 <> [] -> (Forall (fun a => a = 0) D2 \/ bound_rule b (vabs D1) = true) -> bound_prox CL1 D1 b = Ok p ->
  new_factored r c (kept (positive p) U1) (kept (positive p) p) (kept (positive p) V1) None 0 = Ok f ->
  factors_fit f /\ f_r f = r /\ f_c f = c /\ exists U V p', is_svd r c X U (D1 ++ D2) V /\ bound_prox CL1 (D1 ++ D2) b = Ok p' /\ get_X f = recompose r c U p' V.
Proof.
  intros b p f Hb N T Ep E. pose proof lead_fit as (LU & LV & FU & FV & P & _). destruct (l1_project_spec D1 b N Hb) as (t & E1 & _ & Ht & Hs & Hc0). cbn [bound_prox] in Ep. rewrite E1 in Ep. apply Ok_inj in Ep. subst p.
  unfold all_nonneg in P. pose proof P as P'. apply Forall_app in P'. destruct P' as [P1 P2].
  assert (B2 : Forall (fun a => a <= t) D2).
  { destruct T as [Z|T]; [eapply Forall_impl; [|exact Z]; intros a ->; auto|]. unfold bound_rule, rleb in T. rewrite abs_D1, abs_D1 in T. destruct Rle_dec as [|T']; [discriminate|]. destruct (vmin_in D1 N) as [I F]. set (m := vmin D1) in *.
    assert (M : m <= t).
    { destruct (Rle_dec m t) as [|C]; auto. exfalso. apply T'. eapply Rle_trans; [|exact Hs]. apply sum_map_le. intros a Ia. pose proof (proj1 (Forall_forall _ _) P1 a Ia) as Pa. cbn in Pa. rewrite Rabs_right by lra. unfold pos. pose proof (Rmax_l (a - t) 0). lra. }
    apply Forall_forall. intros a Ia. pose proof (descending_app D1 D2 _ a lead_desc I Ia). lra. }
  assert (S1 : map (soft t) D1 = map (fun a => pos (a - t)) D1). { apply map_ext_in. intros a I. apply soft_nonneg; auto. apply (proj1 (Forall_forall _ _) P1 a I). }
  apply kept_fit in E; [|rewrite map_length; auto|rewrite map_length; auto|auto|auto]. destruct E as (K & Er & Ec & EX). split; auto. split; auto. split; auto.
  assert (MP : map pos (map (soft t) D1) = map (fun a => pos (a - t)) D1). { rewrite S1, map_map. apply map_ext. intros a. unfold pos at 1. apply Rmax_left. apply Rmax_r. }
  rewrite MP in EX. destruct (lead_pad (map (fun a => pos (a - t)) D1) ltac:(apply map_length)) as (U & V & Sv & E2). rewrite <- soft_pad in E2 by auto. exists U, V, (map (soft t) (D1 ++ D2)). split; auto. split; [|congruence].
  assert (NN : D1 ++ D2 <> []) by (destruct D1; [congruence|discriminate]). destruct (l1_project_spec (D1 ++ D2) b NN Hb) as (t' & E3 & _). cbn [bound_prox]. rewrite E3. f_equal.
  pose proof (bound_l1 _ (D1 ++ D2) b _ eq_refl NN Hb E3) as Q1. apply (proj_once _ _ _ _ _ Q1). 
  assert (Z2 : vsum (map (fun a => pos (Rabs a - t)) D2) = 0).
  { clear -B2 P2. induction D2 as [|a d IH]; auto. inversion B2; inversion P2; subst. cbn [map]. rewrite vsum_cons, IH by auto. rewrite Rabs_right by lra. unfold pos. rewrite Rmax_right by lra. ring. }
  apply soft_is_proj; auto; rewrite map_app, vsum_app, Z2, Rplus_0_r; auto.
Qed.
End Lead.

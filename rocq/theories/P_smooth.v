(** Chain and sum rules for smooth objects of any depth. *)
From Coq Require Import Reals List Lra Lia Arith Bool.
From Verif Require Import M_affine SpecAffine P_affine Vec Spec M_quad SpecConvex M_loss SpecLoss M_smooth SpecSmooth P_quad P_calc P_sep P_loss P_loss2 P_loss3.
Import ListNotations.
Local Open Scope R_scope.

Lemma satom_rect2 : forall P : satom -> Prop,
  (forall k n c off cw q, P (SLoss k n c off cw q)) -> (forall Q n c off q, P (SQuad Q n c off q)) -> (forall n q, P (SZero n q)) ->
  (forall k n c off cw T goff q, P (SGlm k n c off cw T goff q)) -> (forall a T q, P a -> P (SAff a T q)) -> (forall l ws q, Forall P l -> P (SSum l ws q)) -> forall a, P a.
Proof.
  intros P H1 H2 H3 H4 H5 H6. fix IH 1. intros [k n c off cw q|Q n c off q|n q|k n c off cw T goff q|a T q|l ws q]; [apply H1|apply H2|apply H3|apply H4|apply H5, IH|].
  apply H6. induction l as [|a l IHl]; constructor; [apply IH|exact IHl].
Qed.
Lemma fold_and : forall (A : Type) (P : A -> Prop) l, fold_right (fun a Q => P a /\ Q) True l <-> Forall P l.
Proof. intros A P. induction l as [|a l IH]; cbn; [split; auto|]. rewrite IH. split; [intros [H1 H2]; auto|intros H; inversion H; auto]. Qed.
Lemma fits_predictor : forall k m off cw x, fits_loss k m off cw -> predictor k off x = minus x off.
Proof. intros k m off cw x (_ & _ & _ & H). destruct k; auto. subst off. auto. Qed.

(** ** Sums *)
Lemma fold_plus : forall l a, fold_left Rplus l a = a + vsum l.
Proof. induction l as [|b l IH]; intros a; cbn [fold_left]; [cbn; ring|]. rewrite IH. change (vsum (b :: l)) with (b + vsum l). ring. Qed.
Lemma acc_func_dot : forall ws fs, acc_func ws fs = dot ws fs.
Proof. intros. unfold acc_func. rewrite fold_plus. unfold dot, vmul. ring. Qed.
Lemma fold_vadd : forall n l (a : vec), length a = n -> Forall (fun v : vec => length v = n) l -> length (fold_left vadd l a) = n /\ forall d, length d = n -> dot (fold_left vadd l a) d = dot a d + vsum (map (fun v => dot v d) l).
Proof.
  intros n. induction l as [|v l IH]; intros a La F; cbn [fold_left map].
  - split; auto. intros; change (vsum []) with 0; ring.
  - assert (Lv := Forall_inv F). cbn in Lv. destruct (IH (vadd a v)) as [L H]; [unfold vadd; apply zl; auto|apply Forall_inv_tail in F; auto|]. split; auto. intros d Ld. rewrite H by auto. rewrite dot_add_l by congruence. change (vsum (dot v d :: map (fun v => dot v d) l)) with (dot v d + vsum (map (fun v => dot v d) l)). ring.
Qed.
Lemma acc_grad_dot : forall n ws (gs : list vec), length ws = length gs -> Forall (fun v : vec => length v = n) gs ->
  length (acc_grad n ws gs) = n /\ forall d, length d = n -> dot (acc_grad n ws gs) d = dot ws (map (fun g => dot g d) gs).
Proof.
  intros n ws gs L F. unfold acc_grad.
  assert (F' : Forall (fun v : vec => length v = n) (map (fun p => vscal (fst p) (snd p)) (combine ws gs))).
  { apply Forall_forall. intros v Hv. apply in_map_iff in Hv. destruct Hv as ([w g] & <- & Hp). apply in_combine_r in Hp. rewrite Forall_forall in F. cbn. rewrite vscal_length. auto. }
  destruct (fold_vadd n _ (zeros n) (zeros_length n) F') as [A B]. split; auto. intros d Ld. rewrite B by auto. rewrite dot_zeros_l. rewrite map_map. rewrite Rplus_0_l. clear - L.
  revert gs L. induction ws as [|w ws IH]; intros [|g gs] L; try discriminate; try reflexivity. cbn [combine map fst snd]. specialize (IH gs ltac:(cbn in L; congruence)). cbn [fst snd] in IH.
  transitivity (dot (vscal w g) d + dot ws (map (fun g => dot g d) gs)); [rewrite <- IH; reflexivity|]. rewrite dot_scal_l. reflexivity.
Qed.
(** ** Chain rule *)
Lemma aff_line : forall T n m x d t, good_design T n m -> length x = n -> length d = n -> t_aff T (vadd x (vscal t d)) = vadd (t_aff T x) (vscal t (t_lin T d)).
Proof.
  intros T n m x d t (A & F & <- & <-) Lx Ld. assert (Li := adjoint_linear T A). destruct F as [F1 F2]. destruct Li as [L1 L2]. destruct A as (A1 & A2 & A3).
  assert (Lt : length (vscal t d) = t_in T) by (rewrite vscal_length; auto). rewrite F2, (F2 x) by (auto; rewrite vadd_length; congruence). rewrite L1, L2 by auto.
  set (o := t_aff T (zeros (t_in T))) in *. assert (Lo : length o = t_out T) by exact F1. assert (La := A1 x Lx). assert (Lb := A1 d Ld). revert La Lb Lo. generalize (t_lin T x), (t_lin T d), o, (t_out T). unfold vadd, vscal. clear.
  induction v as [|a v IH]; intros [|b w] [|c z] n La Lb Lc; cbn in *; try congruence; auto. destruct n; [discriminate|]. f_equal; [ring|]. apply (IH _ _ n); congruence.
Qed.
Lemma aff_length : forall T n m x, good_design T n m -> length x = n -> length (t_aff T x) = m.
Proof. intros T n m x (A & (F1 & F2) & <- & <-) Lx. rewrite F2 by auto. destruct A as (A1 & _). unfold vadd. apply zl; auto. Qed.
Theorem chain : forall T n m f x g, good_design T n m -> length x = n -> is_gradient m f (t_aff T x) g -> is_gradient n (fun x => f (t_aff T x)) x (t_adj T g).
Proof.
  intros T n m f x g G Lx [Lg H]. assert (G' := G). destruct G' as ((A1 & A2 & A3) & _ & En & Em). split; [rewrite A2; congruence|]. intros d Ld. rewrite dot_comm, <- A3 by congruence. rewrite dot_comm.
  apply (derive_ext (fun t => f (vadd (t_aff T x) (vscal t (t_lin T d))))); [|apply H; rewrite A1; congruence]. intros t. rewrite (aff_line T n m) by auto. auto.
Qed.
Lemma lin_design : forall T n m, good_design T n m -> good_design (mk_transform (t_lin T) (t_lin T) (t_adj T) (t_off T) (t_in T) (t_out T)) n m.
Proof. intros T n m (A & _ & En & Em). split; [exact A|]. split; [|auto]. apply linear_affine; auto. Qed.
Lemma glm_chain : forall T n m o f x g, good_design T n m -> off_fits n o -> length x = n -> is_gradient m f (t_lin T (minus x o)) g -> is_gradient n (fun x => f (t_lin T (minus x o))) x (t_adj T g).
Proof.
  intros T n m o f x g G O Lx H. apply (gradient_minus n (fun z => f (t_lin T z))); auto. exact (chain _ n m f (minus x o) g (lin_design T n m G) (minus_length x o n Lx O) H).
Qed.
(** ** The theorem *)
Lemma weighted_gradient : forall n x l (ws : vec), length x = n -> length ws = length l -> Forall (fun a => is_gradient n (s_func a) x (s_grad a x)) l ->
  is_gradient n (fun z => acc_func ws (map (fun a => s_func a z) l)) x (acc_grad n ws (map (fun a => s_grad a x) l)).
Proof.
  intros n x l ws Lx Lw F. destruct (acc_grad_dot n ws (map (fun a => s_grad a x) l)) as [L D]; [rewrite map_length; auto| |].
  { apply Forall_forall. intros g Hg. apply in_map_iff in Hg. destruct Hg as (a & <- & Ha). rewrite Forall_forall in F. apply (F a Ha). }
  split; auto. intros d Ld. rewrite D by auto. rewrite map_map. clear L D. apply (derive_ext (fun t => dot ws (map (fun a => s_func a (vadd x (vscal t d))) l))); [intros; symmetry; apply acc_func_dot|].
  revert ws Lw. induction l as [|a l IH]; intros [|w ws] Lw; cbn in Lw; try discriminate; cbn [map].
  - apply (derive_ext (fun _ => 0)); [reflexivity|]. apply derivable_pt_lim_const.
  - assert (Fa := Forall_inv F). apply Forall_inv_tail in F. apply (derive_ext (fun t => w * s_func a (vadd x (vscal t d)) + dot ws (map (fun a => s_func a (vadd x (vscal t d))) l))); [intros; reflexivity|].
    change (dot (w :: ws) (dot (s_grad a x) d :: map (fun a0 => dot (s_grad a0 x) d) l)) with (w * dot (s_grad a x) d + dot ws (map (fun a0 => dot (s_grad a0 x) d) l)).
    apply derivable_pt_lim_plus; [|apply IH; auto]. apply (derivable_pt_lim_scal (fun t => s_func a (vadd x (vscal t d)))). apply Fa. auto.
Qed.
Theorem smooth_gradient : forall a n x, wf a n -> length x = n -> everywhere regular_case a x -> is_gradient n (s_func a) x (s_grad a x).
Proof.
  induction a as [k m c off cw q|Q m c off q|m q|k m c off cw T goff q|a T q IH|l ws q IH] using satom_rect2; intros n x W Lx E.
  - destruct W as [-> Hf]. cbn in E. assert (P := fits_predictor k n off cw x Hf). destruct Hf as (F & O & Lc & _). apply loss_gradient; auto. unfold regular. rewrite P. auto.
  - destruct W as (-> & O & S). apply quad_gradient; auto.
  - cbn in W. subst m. cbn [s_func s_grad]. rewrite Lx. split; [apply zeros_length|]. intros d Ld. rewrite dot_zeros_l. apply derivable_pt_lim_const.
  - destruct W as (Hf & O & G). cbn in E. change (is_gradient n (fun z => loss_func k c off cw (t_lin T (minus z goff))) x (t_adj T (loss_grad k c off cw (t_lin T (minus x goff))))).
    apply (glm_chain T n m goff (loss_func k c off cw)); auto. assert (P := fits_predictor k m off cw (t_lin T (minus x goff)) Hf). destruct Hf as (F & Of & Lc & _). apply loss_gradient; auto.
    + destruct G as ((A & _) & _ & En & Em). rewrite A; [auto|]. rewrite En. apply minus_length; auto.
    + unfold regular. rewrite P. auto.
  - destruct W as (G & W). cbn [s_func s_grad]. apply (chain T n (t_out T) (s_func a)); auto. apply IH; auto. apply (aff_length T n (t_out T)); auto.
  - destruct W as (Nl & Lw & W). apply fold_and in W. cbn [everywhere] in E. apply fold_and in E. cbn [s_func s_grad]. rewrite Lx. apply weighted_gradient; auto.
    apply Forall_forall. intros a Ha. rewrite Forall_forall in *. apply IH; auto.
Qed.
Lemma quad_value : forall Q c off x, quad_func Q c off x = c / 2 * dot (minus x off) (apply_Q Q (minus x off)).
Proof. intros [Q|] c off x; unfold quad_func; cbn [apply_Q]; change (sub_offset off x) with (minus x off); rewrite scale_eq, ?norm_sq; unfold sqn; field. Qed.
Theorem smooth_value : forall a n x, wf a n -> length x = n -> everywhere exact_case a x -> s_func a x = meaning a x.
Proof.
  induction a as [k m c off cw q|Q m c off q|m q|k m c off cw T goff q|a T q IH|l ws q IH] using satom_rect2; intros n x W Lx E.
  - destruct W as [-> Hf]. cbn in E. assert (P := fits_predictor k n off cw x Hf). destruct Hf as (F & O & Lc & _). cbn [s_func meaning]. rewrite <- P in *. apply loss_value; auto.
  - apply quad_value.
  - reflexivity.
  - destruct W as (Hf & O & G). cbn [s_func meaning everywhere] in *. change (sub_offset goff x) with (minus x goff). assert (P := fits_predictor k m off cw (t_lin T (minus x goff)) Hf). destruct Hf as (F & Of & Lc & _). rewrite <- P in *. apply loss_value; auto.
    destruct G as ((A & _) & _ & En & Em). rewrite A; [auto|]. rewrite En. apply minus_length; auto.
  - destruct W as (G & W). cbn [s_func meaning]. apply (IH (t_out T)); auto. apply (aff_length T n (t_out T)); auto.
  - destruct W as (Nl & Lw & W). apply fold_and in W. cbn [everywhere] in E. apply fold_and in E. cbn [s_func meaning]. rewrite acc_func_dot. f_equal. apply map_ext_in. intros a Ha. rewrite Forall_forall in *. apply (IH a Ha n); auto.
Qed.
(** ** Tangents *)
Lemma aff_diff : forall T n m x y, good_design T n m -> length x = n -> length y = n -> vsub (t_aff T y) (t_aff T x) = t_lin T (vsub y x).
Proof.
  intros T n m x y G Lx Ly. assert (Ld : length (vsub y x) = n) by (unfold vsub; apply zl; auto). assert (E : y = vadd x (vscal 1 (vsub y x))).
  { clear - Lx Ly. revert y n Lx Ly. unfold vadd, vscal, vsub. induction x as [|a x IH]; intros [|b y] n Lx Ly; cbn in *; try congruence; auto. destruct n; [discriminate|]. f_equal; [ring|]. apply (IH _ n); congruence. }
  rewrite E at 1. rewrite (aff_line T n m) by auto. assert (La := aff_length T n m x G Lx). destruct G as ((A1 & _) & _ & En & Em). assert (Lb := A1 (vsub y x) ltac:(congruence)). rewrite Em in Lb.
  revert La Lb. generalize (t_aff T x), (t_lin T (vsub y x)). clear. revert m. unfold vadd, vscal, vsub. intros m v. revert m. induction v as [|a v IH]; intros m [|b w] La Lb; cbn in *; try congruence; auto. destruct m; [discriminate|]. f_equal; [ring|]. apply (IH m); congruence.
Qed.
Lemma s_grad_length : forall a n x, wf a n -> length x = n -> length (s_grad a x) = n.
Proof.
  induction a as [k m c off cw q|Q m c off q|m q|k m c off cw T goff q|a T q IH|l ws q IH] using satom_rect2; intros n x W Lx.
  - destruct W as [-> (F & O & Lc & _)]. apply (loss_grad_cases k n); auto.
  - destruct W as (-> & O & S). cbn [s_grad]. unfold quad_grad. assert (Lm := minus_length x off n Lx O). destruct Q as [Q|]; rewrite vscale_eq, vscal_length; auto. apply S. auto.
  - cbn. apply zeros_length || (rewrite zeros_length; auto).
  - destruct W as ((F & Of & Lc & _) & O & G). cbn [s_grad]. destruct G as ((A1 & A2 & _) & _ & En & Em). rewrite A2; [auto|]. rewrite Em. apply (loss_grad_cases k m); auto. rewrite <- Em. apply A1. rewrite En. apply minus_length; auto.
  - destruct W as (G & W). cbn [s_grad]. assert (La := aff_length T n (t_out T) x G Lx). destruct G as ((A1 & A2 & _) & _ & En & Em). rewrite A2; [auto|]. apply IH; auto.
  - destruct W as (Nl & Lw & W). apply fold_and in W. cbn [s_grad]. rewrite Lx. apply acc_grad_dot; [rewrite map_length; auto|]. apply Forall_forall. intros g Hg. apply in_map_iff in Hg. destruct Hg as (a & <- & Ha). rewrite Forall_forall in *. apply IH; auto.
Qed.
Lemma adj_dot : forall T n m g d, good_design T n m -> length g = m -> length d = n -> dot (t_adj T g) d = dot g (t_lin T d).
Proof. intros T n m g d ((A1 & A2 & A3) & _ & En & Em) Lg Ld. rewrite dot_comm, <- A3 by congruence. apply dot_comm. Qed.
Lemma sum_tangent : forall n x y l (ws : vec), length ws = length l -> nonneg ws -> length (vsub y x) = n -> Forall (fun a => length (s_grad a x) = n /\ s_func a x + dot (s_grad a x) (vsub y x) <= s_func a y) l ->
  acc_func ws (map (fun a => s_func a x) l) + dot (acc_grad n ws (map (fun a => s_grad a x) l)) (vsub y x) <= acc_func ws (map (fun a => s_func a y) l).
Proof.
  intros n x y l ws Lw Nw Ld F. destruct (acc_grad_dot n ws (map (fun a => s_grad a x) l)) as [L D]; [rewrite map_length; auto| |].
  { apply Forall_forall. intros g Hg. apply in_map_iff in Hg. destruct Hg as (a & <- & Ha). rewrite Forall_forall in F. apply (F a Ha). }
  rewrite D by auto. rewrite map_map, !acc_func_dot. clear L D. revert ws Lw Nw. induction l as [|a l IH]; intros [|w ws] Lw Nw; cbn in Lw; try discriminate; [cbn; unfold dot; cbn; lra|]. cbn [map].
  assert (Fa := proj2 (Forall_inv F)). apply Forall_inv_tail in F. assert (W := Forall_inv Nw). apply Forall_inv_tail in Nw. specialize (IH F ws ltac:(congruence) Nw). rewrite !dot_cons. cbv beta in W, Fa.
  assert (X := Rmult_le_compat_l w _ _ W Fa). lra.
Qed.
Lemma quad_tangent : forall Q n c off x y, off_fits n off -> (match Q with Some Q => symmetric_map n Q | None => True end) -> length x = n -> length y = n -> 0 <= c -> (forall d, length d = n -> 0 <= dot d (apply_Q Q d)) ->
  quad_func Q c off x + dot (quad_grad Q c off x) (vsub y x) <= quad_func Q c off y.
Proof.
  intros Q n c off x y O S Lx Ly Hc P. rewrite !quad_value. assert (Sy : symmetric_map n (apply_Q Q)) by (destruct Q; [exact S|apply id_symmetric]). destruct Sy as (L & A & M & Y).
  assert (E : quad_grad Q c off x = vscal c (apply_Q Q (minus x off))) by (unfold quad_grad; destruct Q; rewrite vscale_eq; reflexivity). rewrite E, <- (minus_diff x y off n) by auto.
  assert (Lu := minus_length x off n Lx O). assert (Lv := minus_length y off n Ly O). set (u := minus x off) in *. set (v := minus y off) in *. clearbody u v. set (d := vsub v u). assert (Ld : length d = n) by (unfold d, vsub; apply zl; auto).
  assert (Ev : v = vadd u d). { unfold d. clear - Lu Lv. revert u n Lu Lv. unfold vadd, vsub. induction v as [|b v IH]; intros [|a u] n Lu Lv; cbn in *; try congruence; auto. destruct n; [discriminate|]. f_equal; [ring|]. apply (IH _ n); congruence. }
  clearbody d. rewrite Ev. rewrite A by auto. assert (L1 := L u Lu). assert (L2 := L d Ld). rewrite dot_add_l by (unfold vadd; rewrite ?(zl _ _ _ n) by auto; congruence). rewrite !dot_add_r by congruence. rewrite dot_scal_l. rewrite <- (Y u d) by auto. rewrite (dot_comm d (apply_Q Q u)). assert (Z := P d Ld).
  assert (0 <= c * dot d (apply_Q Q d)) by (apply Rmult_le_pos; auto). lra.
Qed.
Theorem smooth_tangent : forall a n x y, wf a n -> convex_parts a -> length x = n -> length y = n -> everywhere exact_case a y -> s_func a x + dot (s_grad a x) (vsub y x) <= s_func a y.
Proof.
  induction a as [k m c off cw q|Q m c off q|m q|k m c off cw T goff q|a T q IH|l ws q IH] using satom_rect2; intros n x y W C Lx Ly E.
  - destruct W as [-> Hf]. cbn in E, C. assert (P := fits_predictor k n off cw y Hf). destruct Hf as (F & O & Lc & _). apply (loss_tangent k n); auto; try tauto. rewrite P. auto.
  - destruct W as (-> & O & S). destruct C as [Hc P]. apply (quad_tangent Q n); auto.
  - cbn [s_func s_grad]. rewrite dot_zeros_l. lra.
  - destruct W as (Hf & O & G). cbn [s_func s_grad everywhere convex_parts] in *. change (sub_offset goff x) with (minus x goff). change (sub_offset goff y) with (minus y goff).
    assert (P := fits_predictor k m off cw (t_lin T (minus y goff)) Hf). destruct Hf as (F & Of & Lc & _). assert (Lmx := minus_length x goff n Lx O). assert (Lmy := minus_length y goff n Ly O).
    assert (Ll : forall z, length z = n -> length (t_lin T z) = m) by (intros z Lz; destruct G as ((A & _) & _ & En & Em); rewrite A; congruence).
    rewrite (adj_dot T n m); auto; [|apply (loss_grad_cases k m); auto|unfold vsub; apply zl; auto].
    rewrite <- (minus_diff x y goff n) by auto. assert (AD := aff_diff _ n m (minus x goff) (minus y goff) (lin_design T n m G) Lmx Lmy). cbn [t_aff t_lin] in AD. rewrite <- AD. apply (loss_tangent k m); auto; try tauto. rewrite P. auto.
  - destruct W as (G & W). cbn [s_func s_grad]. assert (La := aff_length T n (t_out T) x G Lx). assert (Lb := aff_length T n (t_out T) y G Ly).
    rewrite (adj_dot T n (t_out T)); auto; [|apply s_grad_length; auto|unfold vsub; apply zl; auto]. rewrite <- (aff_diff T n (t_out T)) by auto. apply (IH (t_out T)); auto.
  - destruct W as (Nl & Lw & W). apply fold_and in W. cbn [everywhere] in E. apply fold_and in E. destruct C as [Nw C]. apply fold_and in C. cbn [s_func s_grad]. rewrite Lx. apply sum_tangent; auto; [unfold vsub; apply zl; auto|].
    apply Forall_forall. intros a Ha. rewrite Forall_forall in *. split; [apply s_grad_length; auto|apply (IH a Ha n); auto].
Qed.
(** ** The constructors *)
Lemma opp_minus : forall (x b : vec), length x = length b -> minus x (Some (vopp b)) = vadd x b.
Proof. cbn [minus]. unfold vsub, vadd, vopp. induction x as [|a x IH]; intros [|c b] L; cbn in *; try congruence; auto. f_equal; [ring|]. apply IH. congruence. Qed.
Lemma vsub_zeros_r : forall x : vec, vsub x (zeros (length x)) = x.
Proof. unfold vsub. induction x as [|a x IH]; cbn; auto. f_equal; [ring|exact IH]. Qed.
Lemma minus_norm : forall (x : vec) v, length x = length v -> minus x (norm_offset (Some v)) = minus x (Some v).
Proof.
  intros x v L. cbn [norm_offset]. destruct (M_quad.all_zero v) eqn:E; auto. apply -> P_quad.all_zero_spec in E. cbn [minus]. rewrite E, <- L. symmetry. apply vsub_zeros_r.
Qed.
Lemma loss_shift : forall k n c off cw x, fits_loss k n off cw -> (match k with Cloglog _ _ => off = None | _ => True end) -> loss_func k c off cw x = loss_func k c None cw (minus x off) /\ loss_grad k c off cw x = loss_grad k c None cw (minus x off).
Proof. intros k n c off cw x _ H. destruct k; split; try reflexivity; subst off; reflexivity. Qed.
Definition subtracts_offset (k : family) : Prop := match k with Cloglog _ _ => False | _ => True end.
Theorem affine_rule : forall k T n m b c q cw a x, subtracts_offset k -> good_design T n m -> length b = m -> length x = n -> cls_affine k T (Some b) c q cw = Ok a ->
  s_func a x = loss_func k c None cw (vadd (t_aff T x) b) /\ s_grad a x = t_adj T (loss_grad k c None cw (vadd (t_aff T x) b)).
Proof.
  intros k T n m b c q cw a x S G Lb Lx E. unfold cls_affine in E. destruct (Rlt_dec c 0); [discriminate|]. apply Ok_inj in E. subst a. cbn [s_func s_grad].
  assert (La := aff_length T n m x G Lx). assert (M : minus (t_aff T x) (norm_offset (Some (vopp b))) = vadd (t_aff T x) b) by (rewrite minus_norm by (unfold vopp; rewrite map_length; congruence); apply opp_minus; congruence).
  rewrite <- M. set (off := norm_offset (Some (vopp b))). destruct k; cbn in S; try contradiction; split; reflexivity.
Qed.
Theorem linear_rule : forall k T n m o c q cw a x, subtracts_offset k -> good_design T n m -> off_fits m o -> length x = n -> cls_linear k T o c q cw = Ok a ->
  s_func a x = loss_func k c None cw (minus (t_aff T x) o) /\ s_grad a x = t_adj T (loss_grad k c None cw (minus (t_aff T x) o)).
Proof.
  intros k T n m o c q cw a x S G Lb Lx E. unfold cls_linear in E. destruct (Rlt_dec c 0); [discriminate|]. apply Ok_inj in E. subst a. cbn [s_func s_grad].
  assert (La := aff_length T n m x G Lx). assert (M : minus (t_aff T x) (norm_offset o) = minus (t_aff T x) o) by (destruct o as [v|]; [apply minus_norm; cbn in Lb; congruence|reflexivity]).
  rewrite <- M. set (off := norm_offset o). destruct k; cbn in S; try contradiction; split; reflexivity.
Qed.
Theorem shift_rule : forall k o c q cw a x, subtracts_offset k -> length x = length o -> cls_shift k o c q cw = Ok a ->
  s_func a x = loss_func k c None cw (vsub x o) /\ s_grad a x = loss_grad k c None cw (vsub x o).
Proof.
  intros k o c q cw a x S Lx E. unfold cls_shift in E. destruct (Rlt_dec c 0); [discriminate|]. apply Ok_inj in E. subst a. cbn [s_func s_grad].
  assert (M : minus x (norm_offset (Some o)) = vsub x o) by (rewrite minus_norm by congruence; reflexivity). rewrite <- M. set (off := norm_offset (Some o)). destruct k; cbn in S; try contradiction; split; reflexivity.
Qed.
Lemma nth_acc_grad : forall n ws (gs : list vec) j, length ws = length gs -> Forall (fun v : vec => length v = n) gs -> (j < n)%nat -> nth j (acc_grad n ws gs) 0 = dot ws (map (fun g => nth j g 0) gs).
Proof.
  intros n ws gs j L F Hj. unfold acc_grad. assert (K : forall (ws : vec) (gs : list vec) (acc : vec), length ws = length gs -> Forall (fun v : vec => length v = n) gs -> length acc = n ->
    nth j (fold_left vadd (map (fun p => vscal (fst p) (snd p)) (combine ws gs)) acc) 0 = nth j acc 0 + dot ws (map (fun g => nth j g 0) gs)).
  { clear ws gs L F. induction ws as [|w ws IH]; intros [|g gs] acc L F La; cbn in L; try discriminate; cbn [combine map fold_left fst snd]; [change (dot [] []) with 0; ring|].
    assert (Lg := Forall_inv F). cbn in Lg. apply Forall_inv_tail in F. assert (Ls : length (vscal w g) = n) by (rewrite vscal_length; auto). rewrite IH; [|congruence|auto|unfold vadd; apply zl; auto]. rewrite dot_cons. unfold vadd. rewrite (nth_zip0 _ _ _ n) by auto. unfold vscal. rewrite nth_map0 by lia. ring. }
  rewrite K; auto; [|apply zeros_length]. rewrite P_affine.nth_zeros. ring.
Qed.
Theorem sum_rule : forall l weights a n x, new_sum l weights = Ok a -> Forall (fun b => wf b n) l -> length x = n ->
  let ws := match weights with Some w => w | None => const_vec (length l) 1 end in
  length ws = length l /\ nonneg ws /\ s_func a x = dot ws (map (fun b => s_func b x) l) /\ forall j, (j < n)%nat -> nth j (s_grad a x) 0 = dot ws (map (fun b => nth j (s_grad b x) 0) l).
Proof.
  intros l weights a n x E W Lx. unfold new_sum in E. set (ws := match weights with Some w => w | None => const_vec (length l) 1 end) in *. destruct (negb (Nat.eqb (length ws) (length l))) eqn:L; [discriminate|]. apply negb_false_iff, Nat.eqb_eq in L.
  destruct (existsb _ ws) eqn:N; [discriminate|]. assert (E' : a = SSum l ws no_quad) by (destruct l; [discriminate|apply Ok_inj in E; auto]). subst a. cbv zeta. split; auto. split; [|split].
  - apply Forall_forall. intros r Hr. destruct (Rlt_dec r 0) as [Q|Q]; [|lra]. exfalso. assert (X : existsb (fun a => if Rlt_dec a 0 then true else false) ws = true) by (apply existsb_exists; exists r; split; auto; destruct (Rlt_dec r 0); auto). congruence.
  - cbn [s_func]. apply acc_func_dot.
  - intros j Hj. cbn [s_grad]. rewrite Lx, nth_acc_grad; auto.
    + rewrite map_map. auto.
    + rewrite map_length. auto.
    + apply Forall_forall. intros g Hg. apply in_map_iff in Hg. destruct Hg as (b & <- & Hb). rewrite Forall_forall in W. apply s_grad_length; auto.
Qed.
Theorem sum_accepts : forall l w, (exists a, new_sum l (Some w) = Ok a) <-> (l <> [] /\ length w = length l /\ nonneg w).
Proof.
  intros l w. unfold new_sum. split.
  - intros [a E]. destruct (negb (Nat.eqb (length w) (length l))) eqn:L; [discriminate|]. apply negb_false_iff, Nat.eqb_eq in L. destruct (existsb _ w) eqn:N; [discriminate|]. destruct l; [discriminate|]. split; [discriminate|]. split; auto.
    apply Forall_forall. intros r Hr. destruct (Rlt_dec r 0) as [Q|Q]; [|lra]. exfalso. assert (X : existsb (fun a => if Rlt_dec a 0 then true else false) w = true) by (apply existsb_exists; exists r; split; auto; destruct (Rlt_dec r 0); auto). congruence.
  - intros (Nl & L & N). rewrite L, Nat.eqb_refl. cbn [negb]. destruct (existsb _ w) eqn:X; [|destruct l; [congruence|eauto]]. exfalso. apply existsb_exists in X. destruct X as (r & Hr & X). unfold nonneg in N. rewrite Forall_forall in N. specialize (N r Hr). destruct (Rlt_dec r 0); [lra|discriminate].
Qed.
Theorem squared_error_rule : forall T n m (Y : vec) c a x, good_design T n m -> length Y = m -> length x = n -> squared_error T Y c = Ok a ->
  s_func a x = c / 2 * sqn (vsub (t_aff T x) Y) /\ s_grad a x = t_adj T (vscal c (vsub (t_aff T x) Y)).
Proof.
  intros T n m Y c a x G LY Lx E. unfold squared_error in E. destruct (Rlt_dec c 0); [discriminate|]. apply Ok_inj in E.
  assert (La := aff_length T n m x G Lx). assert (EY : vopp (vopp Y) = Y) by (unfold vopp; rewrite map_map; rewrite <- (map_id Y) at 2; apply map_ext; intros; ring).
  rewrite EY in E. assert (M : minus (t_aff T x) (norm_offset (Some Y)) = vsub (t_aff T x) Y) by (rewrite minus_norm by congruence; reflexivity).
  set (o := norm_offset (Some Y)) in *. clearbody o. subst a. cbn [s_func s_grad]. rewrite quad_value. unfold quad_grad. rewrite vscale_eq. change (sub_offset o (t_aff T x)) with (minus (t_aff T x) o). rewrite M. split; reflexivity.
Qed.
(** what is lost *)
Theorem cloglog_affine_ignores : exists a, cls_affine (Cloglog [0] [1]) (matrix [[1]] 1 None) (Some [-1]) 1 None [1] = Ok a /\ s_func a [0] = exp 0 /\ doc_loss (Cloglog [0] [1]) 1 1 [1] (vadd (mat_vec [[1]] [0]) [-1]) = exp (-1).
Proof.
  unfold cls_affine. destruct (Rlt_dec 1 0); [lra|]. eexists. split; [reflexivity|]. cbn [s_func matrix t_aff with_offset]. replace (mat_vec [[1]] [0]) with [0] by (cbn; unfold dot; cbn; f_equal; ring). split.
  - rewrite (loss_func_cases (Cloglog [0] [1]) 1) by (auto; try (cbn [off_fits norm_offset]; match goal with |- context [M_quad.all_zero ?v] => destruct (M_quad.all_zero v) end); cbn; auto). unfold sum_over. cbn -[clip5]. rewrite clip5_id by lra. rewrite ln_exp. ring.
  - unfold doc_loss, sum_over. cbn. replace (0 + -1) with (-1) by ring. ring.
Qed.

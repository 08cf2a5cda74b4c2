(** Exactness of the proximal maps of the seminorm classes. *)
From Coq Require Import Reals List Lra Lia Psatz Bool.
From Verif Require Import Vec Spec M_quad M_prox P_quad P_pl.
Import ListNotations.
Local Open Scope R_scope.

(** ** Certificates *)

Lemma shift_sq : forall n c p v, length c = n -> length p = n -> length v = n ->
  sqn (vsub c v) = sqn (vsub c p) - 2 * dot (vsub c p) (vsub v p) + sqn (vsub v p).
Proof.
  intros n c p v Hc Hp Hv. rewrite !sqn_sub by congruence.
  rewrite dot_sub_l, !dot_sub_r by vlen. rewrite (dot_comm p v). unfold sqn. lra.
Qed.

Lemma prox_certificate : forall n L c g p r, 0 < L -> length c = n -> length p = n ->
  g p = Fin r ->
  (forall v s, length v = n -> g v = Fin s -> r + L * dot (vsub c p) (vsub v p) <= s) ->
  is_unique_argmin n (prox_objective L c g) p.
Proof.
  intros n L c g p r HL Hc Hp Hg H.
  assert (K : forall v, length v = n -> forall s, g v = Fin s ->
     L / 2 * sqn (vsub c p) + r + L / 2 * sqn (vsub v p) <= L / 2 * sqn (vsub c v) + s).
  { intros v Hv s Hs. specialize (H v s Hv Hs). rewrite (shift_sq n c p v) by auto. nra. }
  split; [split; [auto|split]|].
  - unfold prox_objective. rewrite Hg. simpl. eauto.
  - intros v Hv. unfold prox_objective. rewrite Hg. destruct (g v) eqn:E; simpl; auto.
    specialize (K v Hv _ E). pose proof (sqn_nonneg (vsub v p)). nra.
  - intros v Hv. unfold prox_objective. rewrite Hg. destruct (g v) eqn:E; simpl; [|tauto].
    intros Hle. specialize (K v Hv _ E). apply vsub_eq_zero; [congruence|]. nra.
Qed.

Lemma proj_certificate : forall n S c p, length c = n -> length p = n -> (S p : Prop) ->
  (forall v, length v = n -> S v -> dot (vsub c p) (vsub v p) <= 0) ->
  is_proj n S c p.
Proof.
  intros n S c p Hc Hp HS H. split; auto. split; auto. intros v Hv HSv.
  specialize (H v Hv HSv). rewrite (shift_sq n c p v) by auto.
  pose proof (sqn_nonneg (vsub v p)). split; [lra|]. intros E. apply vsub_eq_zero; [congruence|lra].
Qed.

Lemma proj_certificate_inv : forall n (S : vec -> Prop) c p, length c = n -> is_proj n S c p ->
  (forall v t, length v = n -> S v -> 0 < t <= 1 -> S (vadd (vscal (1 - t) p) (vscal t v))) ->
  forall v, length v = n -> S v -> dot (vsub c p) (vsub v p) <= 0.
Proof.
  intros n S c p Hc (Hp & HSp & H) Hconv v Hv HSv.
  apply Rnot_lt_le. intros C.
  assert (Hq := sqn_nonneg (vsub v p)).
  set (D := dot (vsub c p) (vsub v p)) in *. set (Q := sqn (vsub v p)) in *.
  set (t := Rmin 1 (D / (Q + 1))).
  assert (HQ : 0 < Q + 1) by lra.
  assert (0 < D / (Q + 1)) by (apply Rdiv_lt_0_compat; lra).
  assert (Ht : 0 < t <= 1).
  { unfold t. split; [apply Rmin_glb_lt; lra|apply Rmin_l]. }
  assert (HtD : t * Q < D).
  { assert (t <= D / (Q + 1)) by apply Rmin_r.
    assert (t * (Q + 1) <= D). { apply Rmult_le_compat_r with (r := Q + 1) in H1; [|lra].
      unfold Rdiv in H1. rewrite Rmult_assoc, Rinv_l, Rmult_1_r in H1 by lra. auto. }
    destruct (Req_dec Q 0); nra. }
  destruct (H (vadd (vscal (1 - t) p) (vscal t v))) as [H1 _]; [vlen|apply Hconv; auto|].
  rewrite (shift_sq n c p (vadd (vscal (1 - t) p) (vscal t v))) in H1 by vlen.
  replace (vsub (vadd (vscal (1 - t) p) (vscal t v)) p) with (vscal t (vsub v p)) in H1.
  2:{ assert (A : length p = length v) by congruence. clear - A. pattern p, v. apply vec_ind2; auto.
      intros a b x y _ IH. unfold vadd, vsub, vscal in *. simpl. rewrite IH. f_equal. ring. }
  rewrite dot_scal_r, sqn_scal in H1. fold D in H1. fold Q in H1. nra.
Qed.

(** ** Spec functions *)

Lemma vsub_scal_self : forall k x, vsub x (vscal k x) = vscal (1 - k) x.
Proof. intros. unfold vsub, vscal. induction x as [|a x IH]; simpl; auto. rewrite IH. f_equal. ring. Qed.


Lemma vsum_sq : forall x, vsum (map (fun a => a * a) x) = sqn x.
Proof. induction x as [|a x IH]; auto. cbn [map]. rewrite vsum_cons, sqn_cons, IH. auto. Qed.
Lemma ell2_norm : forall x, ell2 x = norm x.
Proof. intros. unfold ell2, norm. rewrite vsum_sq. auto. Qed.

Lemma max_list_le : forall x d m, max_list d x <= m <-> d <= m /\ Forall (fun a => a <= m) x.
Proof.
  induction x as [|a x IH]; intros d m; simpl.
  - split; [intros; split; auto|tauto].
  - split.
    + intros H. pose proof (Rmax_l a (max_list d x)). pose proof (Rmax_r a (max_list d x)).
      destruct (IH d m) as [I1 _]. destruct I1; [lra|]. split; auto. constructor; auto; lra.
    + intros [H1 H2]. inversion H2; subst. apply Rmax_lub; auto. apply IH. auto.
Qed.
Lemma max_list_ge_d : forall x d, d <= max_list d x.
Proof. intros. apply (max_list_le x d (max_list d x)). lra. Qed.
Lemma max_list_ge : forall x d, Forall (fun a => a <= max_list d x) x.
Proof. intros. apply (max_list_le x d (max_list d x)). lra. Qed.
Lemma max_list_ext : forall x y d, map Rabs x = map Rabs y -> max_list d (map Rabs x) = max_list d (map Rabs y).
Proof. intros. rewrite H. auto. Qed.

Lemma ellinf_le : forall x m, 0 <= m -> (ellinf x <= m <-> Forall (fun a => Rabs a <= m) x).
Proof.
  intros x m Hm. unfold ellinf. rewrite max_list_le, Forall_map. tauto.
Qed.
Lemma ellinf_nonneg : forall x, 0 <= ellinf x.
Proof. intros. apply max_list_ge_d. Qed.
Lemma ellinf_ge : forall x, Forall (fun a => Rabs a <= ellinf x) x.
Proof. intros. apply ellinf_le; [apply ellinf_nonneg|lra]. Qed.
Lemma max_pos_le : forall x m, 0 <= m -> (max_pos x <= m <-> Forall (fun a => a <= m) x).
Proof. intros x m Hm. unfold max_pos. rewrite max_list_le. tauto. Qed.
Lemma max_pos_nonneg : forall x, 0 <= max_pos x.
Proof. intros. apply max_list_ge_d. Qed.
Lemma max_pos_ge : forall x, Forall (fun a => a <= max_pos x) x.
Proof. intros. apply max_list_ge. Qed.

Lemma ell1_cons : forall a x, ell1 (a :: x) = Rabs a + ell1 x.
Proof. reflexivity. Qed.
Lemma sum_pos_cons : forall a x, sum_pos (a :: x) = pos a + sum_pos x.
Proof. reflexivity. Qed.
Lemma ell1_nonneg : forall x, 0 <= ell1 x.
Proof. induction x; [unfold ell1; simpl; lra|]. rewrite ell1_cons. pose proof (Rabs_pos a). lra. Qed.
Lemma sum_pos_nonneg : forall x, 0 <= sum_pos x.
Proof. induction x; [unfold sum_pos; simpl; lra|]. rewrite sum_pos_cons. pose proof (pos_nonneg a). lra. Qed.

(** ** Scalar soft threshold *)

Definition soft (r a : R) : R := sgn a * Rmax (Rabs a - r) 0.

Lemma sgn_abs : forall a, sgn a * Rabs a = a.
Proof.
  intros. unfold sgn, Rabs. destruct (Rcase_abs a); destruct (Rlt_dec 0 a); try destruct (Rlt_dec a 0); try lra.
Qed.

Ltac scal :=
  unfold soft, soft1, sgn, pos, Rmax, Rmin, Rabs in *;
  repeat match goal with
  | |- context [Rcase_abs ?a] => destruct (Rcase_abs a)
  | |- context [Rlt_dec ?a ?b] => destruct (Rlt_dec a b)
  | |- context [Rle_dec ?a ?b] => destruct (Rle_dec a b)
  | H : context [Rcase_abs ?a] |- _ => destruct (Rcase_abs a)
  | H : context [Rlt_dec ?a ?b] |- _ => destruct (Rlt_dec a b)
  | H : context [Rle_dec ?a ?b] |- _ => destruct (Rle_dec a b)
  end; try lra; try nra.

Lemma soft_abs : forall r a, 0 <= r -> Rabs (soft r a) = pos (Rabs a - r).
Proof. intros. scal. Qed.
Lemma soft_resid : forall r a, 0 <= r -> Rabs (a - soft r a) <= r.
Proof. intros. scal. Qed.
Lemma soft_align : forall r a, 0 <= r -> (a - soft r a) * soft r a = r * Rabs (soft r a).
Proof. intros. scal. Qed.
Lemma soft1_soft : forall r a, 0 <= r -> soft1 r a = soft r a.
Proof. intros. scal. Qed.
Lemma cutoff_soft : forall r a, 0 <= r -> sgn a * (Rabs a - r) * (if Rlt_dec r (Rabs a) then 1 else 0) = soft r a.
Proof. intros. scal. Qed.

Lemma map_ext_vec : forall (f g : R -> R) x, (forall a, f a = g a) -> map f x = map g x.
Proof. intros. apply map_ext. auto. Qed.

(** ** Sums over coordinates *)

Lemma dot_map_zip : forall (f : R -> R) x v, length x = length v ->
  dot (vsub x (map f x)) (vsub v (map f x)) = vsum (vzip (fun a b => (a - f a) * (b - f a)) x v).
Proof.
  intros f x v H. pattern x, v. apply vec_ind2; auto.
  intros a b x' v' _ IH. unfold vsub in *. cbn [map vzip]. rewrite dot_cons, vsum_cons, IH. auto.
Qed.

Lemma vsum_zip_le : forall (h : R -> R -> R) (P : R -> Prop) (k1 k2 : R -> R) x v, length x = length v ->
  Forall P v -> (forall a b, P b -> h a b <= k2 b - k1 a) ->
  vsum (vzip h x v) <= vsum (map k2 v) - vsum (map k1 x).
Proof.
  intros h P k1 k2 x v H HP Hk. revert HP. pattern x, v. apply vec_ind2; auto; [simpl; lra|].
  intros a b x' v' _ IH HP. inversion HP; subst. cbn [map vzip]. rewrite !vsum_cons.
  specialize (IH H3). specialize (Hk a b H2). lra.
Qed.

Lemma Forall_True : forall (x : vec), Forall (fun _ => True) x.
Proof. induction x; auto. Qed.

Lemma vsum_map_scale : forall (k : R -> R) c x, vsum (map (fun a => c * k a) x) = c * vsum (map k x).
Proof. induction x as [|a x IH]; [simpl; lra|]. cbn [map]. rewrite !vsum_cons, IH. lra. Qed.

Lemma ell1_map : forall (f : R -> R) x, ell1 (map f x) = vsum (map (fun a => Rabs (f a)) x).
Proof. intros. unfold ell1. rewrite map_map. auto. Qed.
Lemma sum_pos_map : forall (f : R -> R) x, sum_pos (map f x) = vsum (map (fun a => pos (f a)) x).
Proof. intros. unfold sum_pos. rewrite map_map. auto. Qed.

(** ** Masks *)

Lemma put_pos_map : forall (f g : R -> R) x,
  put_pos x (map g x) (map f (select_pos x)) = map (fun a => if posb a then f a else g a) x.
Proof.
  intros f g. induction x as [|a x IH]; auto. unfold select_pos in *. simpl. destruct (posb a); simpl; rewrite IH; auto.
Qed.
Lemma put_pos_self : forall (f : R -> R) x,
  put_pos x x (map f (select_pos x)) = map (fun a => if posb a then f a else a) x.
Proof. intros. rewrite <- (put_pos_map f (fun a => a)), map_id. auto. Qed.
Lemma zeros_map : forall (x : vec), zeros (length x) = map (fun _ : R => 0) x.
Proof. unfold zeros. induction x as [|a x IH]; simpl; auto. rewrite IH. auto. Qed.
Lemma put_pos_zeros : forall (f : R -> R) x,
  put_pos x (zeros (length x)) (map f (select_pos x)) = map (fun a => if posb a then f a else 0) x.
Proof. intros. rewrite zeros_map. apply put_pos_map. Qed.

Lemma select_sum : forall (f : R -> R) x,
  vsum (map f (select_pos x)) = vsum (map (fun a => if posb a then f a else 0) x).
Proof.
  intros f. induction x as [|a x IH]; auto. unfold select_pos in *. simpl filter. cbn [map].
  destruct (posb a); cbn [map]; rewrite ?vsum_cons, IH; lra.
Qed.
Lemma any_pos_false : forall x, any_pos x = false -> Forall (fun a => a <= 0) x.
Proof.
  intros x H. apply Forall_forall. intros a Ha. unfold any_pos in H.
  assert (posb a = false). { destruct (posb a) eqn:E; auto. rewrite <- H. symmetry. apply existsb_exists. eauto. }
  unfold posb in *. destruct (Rlt_dec 0 a); [discriminate|lra].
Qed.
Lemma any_pos_true : forall x, any_pos x = true -> select_pos x <> [].
Proof.
  intros x H. apply existsb_exists in H. destruct H as (a & Ha & Hp).
  intros E. assert (In a (select_pos x)) by (apply filter_In; auto). rewrite E in H. destruct H.
Qed.

Lemma vabs_nonneg : forall x, Forall (fun a => 0 <= a) (vabs x).
Proof. intros. unfold vabs. apply Forall_map. apply Forall_forall. intros. apply Rabs_pos. Qed.

Lemma sum_cut_abs : forall t x, vsum (map (fun a => pos (a - t)) (vabs x)) = vsum (map (fun a => pos (Rabs a - t)) x).
Proof. intros. unfold vabs. rewrite map_map. auto. Qed.

(** l1 projection used by several classes *)
Lemma l1_project_spec : forall x b, x <> [] -> 0 <= b ->
  exists t, l1_project x b = Ok (map (soft t) x) /\ projl1 x b = Ok (map (soft t) x) /\ 0 <= t /\
    vsum (map (fun a => pos (Rabs a - t)) x) <= b /\
    t * (vsum (map (fun a => pos (Rabs a - t)) x) - b) = 0.
Proof.
  intros x b Hx Hb.
  destruct (find_c_slope0 b (vabs x)) as (t & E & (H1 & H2 & H3) & _); auto using vabs_nonneg.
  { destruct x; [congruence|discriminate]. }
  exists t. unfold l1_project, projl1. rewrite E. simpl. rewrite sum_cut_abs in H2, H3.
  repeat split; auto.
  - f_equal. apply map_ext. intros. apply cutoff_soft. auto.
  - f_equal. apply map_ext. intros. apply soft1_soft. auto.
Qed.

Lemma posb_true : forall a, posb a = true -> 0 < a.
Proof. intros a. unfold posb. destruct (Rlt_dec 0 a); auto; discriminate. Qed.
Lemma posb_false : forall a, posb a = false -> a <= 0.
Proof. intros a. unfold posb. destruct (Rlt_dec 0 a); try discriminate; lra. Qed.

Lemma select_cut_sum : forall t x, 0 <= t ->
  vsum (map (fun a => pos (Rabs a - t)) (select_pos x)) = vsum (map (fun a => if posb a then pos (a - t) else 0) x).
Proof.
  intros t x Ht. rewrite select_sum. f_equal. apply map_ext. intros a.
  destruct (posb a) eqn:E; auto. apply posb_true in E. rewrite Rabs_right by lra. auto.
Qed.

(** ** Bound form *)

Lemma all_nonneg_dec_true : forall c x v, all_nonneg x -> (if nonneg_dec x then Fin v else c) = Fin v.
Proof. intros. destruct (nonneg_dec x); tauto. Qed.

Lemma bound_l1 : forall n x b p, length x = n -> x <> [] -> 0 <= b -> bound_prox CL1 x b = Ok p ->
  is_proj n (in_ball CL1 b) x p.
Proof.
  intros n x b p Hn Hx Hb E. destruct (l1_project_spec x b Hx Hb) as (t & E1 & _ & Ht & Hs & Hc).
  simpl in E. rewrite E1 in E. injection E as <-.
  apply proj_certificate; auto; [vlen| |].
  - unfold in_ball. simpl. rewrite ell1_map. erewrite map_ext; [exact Hs|]. intros. apply soft_abs; auto.
  - intros v Hv HS. unfold in_ball in HS. simpl in HS. rewrite dot_map_zip by congruence.
    eapply Rle_trans.
    + apply vsum_zip_le with (P := fun _ => True) (k2 := fun b => t * Rabs b) (k1 := fun a => t * pos (Rabs a - t)); auto using Forall_True; [congruence|].
      intros a c _. pose proof (soft_resid t a Ht). pose proof (soft_align t a Ht). rewrite <- soft_abs by auto.
      assert ((a - soft t a) * c <= t * Rabs c).
      { eapply Rle_trans; [apply Rle_abs|]. rewrite Rabs_mult. apply Rmult_le_compat_r; auto. apply Rabs_pos. }
      nra.
    + rewrite !vsum_map_scale. fold (ell1 v). nra.
Qed.

Lemma is_proj_coord : forall n (S : vec -> Prop) (P : R -> Prop) (f : R -> R) x,
  length x = n -> (forall v, length v = n -> (S v <-> Forall P v)) ->
  (forall a, P (f a)) -> (forall a b, P b -> (a - f a) * (b - f a) <= 0) -> is_proj n S x (map f x).
Proof.
  intros n S P f x Hn HS Hf Hk. apply proj_certificate; auto; [vlen| |].
  - apply HS; [vlen|]. apply Forall_map. apply Forall_forall. auto.
  - intros v Hv HSv. apply HS in HSv; auto. rewrite dot_map_zip by congruence.
    eapply Rle_trans.
    + apply vsum_zip_le with (P := P) (k2 := fun b => 0) (k1 := fun a => 0); auto; [congruence|].
      intros a b Hb. specialize (Hk a b Hb). lra.
    + assert (Z : forall y : vec, vsum (map (fun _ => 0) y) = 0).
      { induction y; [auto|]. cbn [map]. rewrite vsum_cons, IHy. lra. }
      rewrite !Z. lra.
Qed.

Lemma bound_sup : forall n x b p, length x = n -> 0 <= b -> bound_prox CSup x b = Ok p ->
  is_proj n (in_ball CSup b) x p.
Proof.
  intros n x b p Hn Hb E. injection E as <-. unfold clip.
  apply is_proj_coord with (P := fun a => Rabs a <= b); auto.
  - intros v Hv. unfold in_ball. simpl. apply ellinf_le. auto.
  - intros a. scal.
  - intros a c Hc. scal.
Qed.
Lemma bound_conmax : forall n x b p, length x = n -> 0 <= b -> bound_prox CConMax x b = Ok p ->
  is_proj n (in_ball CConMax b) x p.
Proof.
  intros n x b p Hn Hb E. injection E as <-. unfold clip.
  apply is_proj_coord with (P := fun a => 0 <= a <= b); auto.
  - intros v Hv. unfold in_ball, doc_seminorm. destruct (nonneg_dec v) as [Hp|Hp]; simpl.
    + rewrite ellinf_le by auto. unfold all_nonneg in Hp. rewrite !Forall_forall in *. split; intros H a Ha; specialize (H a Ha); specialize (Hp a Ha); simpl in *.
      * rewrite Rabs_right in H by lra. lra.
      * rewrite Rabs_right by lra. lra.
    + split; [tauto|]. intros H. apply Hp. eapply Forall_impl; [|exact H]. simpl. intros; lra.
  - intros a. scal.
  - intros a c Hc. scal.
Qed.
Lemma bound_maxpos : forall n x b p, length x = n -> 0 <= b -> bound_prox CMaxPos x b = Ok p ->
  is_proj n (in_ball CMaxPos b) x p.
Proof.
  intros n x b p Hn Hb E. injection E as <-.
  apply is_proj_coord with (P := fun a => a <= b); auto.
  - intros v Hv. unfold in_ball. simpl. apply max_pos_le. auto.
  - intros a. scal.
  - intros a c Hc. scal.
Qed.
Lemma bound_l2 : forall n x b p, length x = n -> 0 <= b -> bound_prox CL2 x b = Ok p ->
  is_proj n (in_ball CL2 b) x p.
Proof.
  intros n x b p Hn Hb E. simpl in E. unfold in_ball. simpl.
  destruct (Rle_dec (norm x) b) as [C|C]; injection E as <-.
  - apply proj_certificate; auto. { rewrite ell2_norm. auto. }
    intros v Hv _. rewrite vsub_self, dot_zeros_l. lra.
  - assert (Hx : 0 < norm x) by lra.
    assert (Hk : 0 <= b / norm x < 1).
    { split. - apply Rmult_le_pos; auto. left. apply Rinv_0_lt_compat; auto.
      - apply Rmult_lt_reg_r with (r := norm x); auto. unfold Rdiv. rewrite Rmult_assoc, Rinv_l by lra. lra. }
    set (k := b / norm x) in *. assert (Ek : k * norm x = b) by (unfold k; field; lra).
    apply proj_certificate; auto; [vlen| |].
    + rewrite ell2_norm, norm_scal, Rabs_right by lra. lra.
    + intros v Hv HS. rewrite ell2_norm in HS.
      rewrite vsub_scal_self.
      rewrite dot_scal_l, dot_sub_r, dot_scal_r by vlen. fold (sqn x). rewrite <- norm_sq.
      pose proof (cauchy_schwarz x v). assert (dot x v <= norm x * norm v) by (apply H; congruence).
      assert (norm x * norm v <= norm x * b) by (apply Rmult_le_compat_l; lra).
      assert (k * (norm x * norm x) = b * norm x) by (rewrite <- Ek; ring). nra.
Qed.

Lemma bound_pospart : forall n x b p, length x = n -> 0 <= b -> bound_prox CPosPart x b = Ok p ->
  is_proj n (in_ball CPosPart b) x p.
Proof.
  intros n x b p Hn Hb E. simpl in E. unfold in_ball. simpl.
  destruct (any_pos x) eqn:Ea.
  - destruct (l1_project_spec (select_pos x) b (any_pos_true _ Ea) Hb) as (t & _ & E1 & Ht & Hs & Hc).
    rewrite E1 in E. simpl in E. rewrite put_pos_self in E. injection E as <-.
    rewrite select_cut_sum in Hs, Hc by auto.
    set (f := fun a => if posb a then soft t a else a).
    assert (Hf : forall a, pos (f a) = if posb a then pos (a - t) else 0).
    { intros a. unfold f. destruct (posb a) eqn:Ep; [apply posb_true in Ep|apply posb_false in Ep]; scal. }
    apply proj_certificate; auto; [vlen| |].
    + rewrite sum_pos_map. erewrite map_ext; [exact Hs|]. auto.
    + intros v Hv HS. rewrite dot_map_zip by congruence.
      eapply Rle_trans.
      * apply vsum_zip_le with (P := fun _ => True) (k2 := fun b => t * pos b) (k1 := fun a => t * (if posb a then pos (a - t) else 0)); auto using Forall_True; [congruence|].
        intros a c _. rewrite <- Hf. unfold f. destruct (posb a) eqn:Ep; [apply posb_true in Ep|apply posb_false in Ep]; scal.
      * rewrite !vsum_map_scale. fold (sum_pos v). nra.
  - injection E as <-. apply proj_certificate; auto.
    + apply any_pos_false in Ea. replace (sum_pos x) with 0; auto. clear - Ea. induction x; [reflexivity|].
      inversion Ea; subst. rewrite sum_pos_cons, pos_of_nonpos, <- IHx by auto. lra.
    + intros v Hv _. rewrite vsub_self, dot_zeros_l. lra.
Qed.

Lemma nonneg_map : forall (f : R -> R) x, (forall a, 0 <= f a) -> all_nonneg (map f x).
Proof. intros. apply Forall_map. apply Forall_forall. auto. Qed.

Lemma bound_conpospart : forall n x b p, length x = n -> 0 <= b -> bound_prox CConPosPart x b = Ok p ->
  is_proj n (in_ball CConPosPart b) x p.
Proof.
  intros n x b p Hn Hb E. simpl in E.
  destruct (any_pos x) eqn:Ea.
  - destruct (l1_project_spec (select_pos x) b (any_pos_true _ Ea) Hb) as (t & _ & E1 & Ht & Hs & Hc).
    rewrite E1 in E. simpl in E. rewrite put_pos_zeros in E. injection E as <-.
    rewrite select_cut_sum in Hs, Hc by auto.
    set (f := fun a => if posb a then soft t a else 0).
    assert (Hf : forall a, Rabs (f a) = if posb a then pos (a - t) else 0).
    { intros a. unfold f. destruct (posb a) eqn:Ep; [apply posb_true in Ep|]; scal. }
    assert (Hf0 : forall a, 0 <= f a).
    { intros a. unfold f. destruct (posb a) eqn:Ep; [apply posb_true in Ep|]; scal. }
    apply proj_certificate; auto; [vlen| |].
    + unfold in_ball, doc_seminorm. destruct (nonneg_dec (map f x)) as [Hp|Hp]; [|destruct Hp; apply nonneg_map; auto].
      simpl. rewrite ell1_map. erewrite map_ext; [exact Hs|]. auto.
    + intros v Hv HS. unfold in_ball, doc_seminorm in HS. destruct (nonneg_dec v) as [Hp|Hp]; [simpl in HS|destruct HS].
      rewrite dot_map_zip by congruence.
      eapply Rle_trans.
      * apply vsum_zip_le with (P := fun b => 0 <= b) (k2 := fun b => t * Rabs b) (k1 := fun a => t * (if posb a then pos (a - t) else 0)); auto; [congruence|].
        intros a c Hc0. rewrite <- Hf. unfold f. destruct (posb a) eqn:Ep; [apply posb_true in Ep|apply posb_false in Ep]; scal.
      * rewrite !vsum_map_scale. fold (ell1 v). nra.
  - injection E as <-. apply any_pos_false in Ea. rewrite zeros_map. apply proj_certificate; auto; [vlen| |].
    + unfold in_ball, doc_seminorm. destruct (nonneg_dec (map (fun _ => 0) x)) as [Hp|Hp]; [|destruct Hp; apply nonneg_map; intros; lra].
      simpl. unfold ell1. rewrite map_map. rewrite Rabs_R0. clear - Hb. induction x; [simpl; lra|]. cbn [map]. rewrite vsum_cons. lra.
    + intros v Hv HS. unfold in_ball, doc_seminorm in HS. destruct (nonneg_dec v) as [Hp|Hp]; [simpl in HS|destruct HS].
      rewrite <- zeros_map, !vsub_zeros_r by congruence.
      assert (A : length x = length v) by congruence. clear - Ea Hp A. revert Ea Hp. pattern x, v. apply vec_ind2; auto; [intros; unfold dot; simpl; lra|].
      intros a c x' v' _ IH H1 H2. pose proof (Forall_inv H1) as P1. pose proof (Forall_inv H2) as P2. simpl in P1, P2. rewrite dot_cons. specialize (IH (Forall_inv_tail H1) (Forall_inv_tail H2)). nra.
Qed.

Lemma bound_prox_ok : forall c x b, x <> [] -> 0 <= b -> exists p, bound_prox c x b = Ok p.
Proof.
  intros c x b Hx Hb. destruct c; simpl; eauto.
  - destruct (l1_project_spec x b Hx Hb) as (t & -> & _). eauto.
  - destruct (Rle_dec (norm x) b); eauto.
  - destruct (any_pos x) eqn:E; eauto. destruct (l1_project_spec _ b (any_pos_true _ E) Hb) as (t & _ & -> & _). simpl. eauto.
  - destruct (any_pos x) eqn:E; eauto. destruct (l1_project_spec _ b (any_pos_true _ E) Hb) as (t & _ & -> & _). simpl. eauto.
Qed.

Theorem bound_prox_correct : forall c n x b, (1 <= n)%nat -> length x = n -> 0 <= b ->
  exists p, bound_prox c x b = Ok p /\ is_proj n (in_ball c b) x p.
Proof.
  intros c n x b Hn Hx Hb. assert (Hne : x <> []) by (intros ->; simpl in Hx; lia).
  destruct (bound_prox_ok c x b Hne Hb) as [p E]. exists p. split; auto.
  destruct c; [apply bound_l1|apply bound_sup|apply bound_l2|apply bound_pospart|apply bound_conmax|apply bound_conpospart|apply bound_maxpos]; auto.
Qed.

(** ** Lagrange form *)

Lemma lagrange_l1 : forall n x L lam p, length x = n -> 0 < L -> 0 <= lam -> lagrange_prox CL1 x L lam = Ok p ->
  is_unique_argmin n (prox_objective L x (fun v => ext_scale lam (doc_seminorm CL1 v))) p.
Proof.
  intros n x L lam p Hn HL Hlam E. injection E as <-. unfold l1_lagrange.
  set (r := lam / L). assert (Hr : 0 <= r) by (apply Rmult_le_pos; auto; left; apply Rinv_0_lt_compat; auto).
  assert (ErL : L * r = lam) by (unfold r; field; lra).
  change (fun a => sgn a * Rmax (Rabs a - r) 0) with (soft r).
  apply prox_certificate with (r := lam * ell1 (map (soft r) x)); auto; [vlen|].
  intros v s Hv Hs. simpl in Hs. injection Hs as <-. rewrite dot_map_zip by congruence.
  assert (K : vsum (vzip (fun a b => (a - soft r a) * (b - soft r a)) x v) <= vsum (map (fun b => r * Rabs b) v) - vsum (map (fun a => r * Rabs (soft r a)) x)).
  { apply vsum_zip_le with (P := fun _ => True); auto using Forall_True; [congruence|].
    intros a c _. pose proof (soft_resid r a Hr). pose proof (soft_align r a Hr).
      assert ((a - soft r a) * c <= r * Rabs c).
      { eapply Rle_trans; [apply Rle_abs|]. rewrite Rabs_mult. apply Rmult_le_compat_r; auto. apply Rabs_pos. }
      nra. }
  rewrite !vsum_map_scale in K. fold (ell1 v) in K. rewrite ell1_map. rewrite <- ErL. nra.
Qed.

Lemma lagrange_pospart : forall n x L lam p, length x = n -> 0 < L -> 0 <= lam -> lagrange_prox CPosPart x L lam = Ok p ->
  is_unique_argmin n (prox_objective L x (fun v => ext_scale lam (doc_seminorm CPosPart v))) p.
Proof.
  intros n x L lam p Hn HL Hlam E. simpl in E. rewrite put_pos_self in E. injection E as <-.
  set (r := lam / L). assert (Hr : 0 <= r) by (apply Rmult_le_pos; auto; left; apply Rinv_0_lt_compat; auto).
  assert (ErL : L * r = lam) by (unfold r; field; lra).
  set (f := fun a => if posb a then Rmax (a - r) 0 else a).
  apply prox_certificate with (r := lam * sum_pos (map f x)); auto; [vlen|].
  intros v s Hv Hs. simpl in Hs. injection Hs as <-. rewrite dot_map_zip by congruence.
  assert (K : vsum (vzip (fun a b => (a - f a) * (b - f a)) x v) <= vsum (map (fun b => r * pos b) v) - vsum (map (fun a => r * pos (f a)) x)).
  { apply vsum_zip_le with (P := fun _ => True); auto using Forall_True; [congruence|].
    intros a c _. unfold f. destruct (posb a) eqn:Ep; [apply posb_true in Ep|apply posb_false in Ep]; scal. }
  rewrite !vsum_map_scale in K. fold (sum_pos v) in K. rewrite sum_pos_map. rewrite <- ErL. nra.
Qed.

Lemma ell1_of_nonneg : forall x, all_nonneg x -> ell1 x = vsum x.
Proof. induction 1; auto. rewrite ell1_cons, vsum_cons, IHForall, Rabs_right; lra. Qed.

Lemma lagrange_conpospart : forall n x L lam p, length x = n -> 0 < L -> 0 <= lam -> lagrange_prox CConPosPart x L lam = Ok p ->
  is_unique_argmin n (prox_objective L x (fun v => ext_scale lam (doc_seminorm CConPosPart v))) p.
Proof.
  intros n x L lam p Hn HL Hlam E. simpl in E.
  set (r := lam / L) in *. assert (Hr : 0 <= r) by (apply Rmult_le_pos; auto; left; apply Rinv_0_lt_compat; auto).
  assert (ErL : L * r = lam) by (unfold r; field; lra).
  set (f := fun a => if posb a then Rmax (a - r) 0 else 0).
  assert (Ep : p = map f x).
  { destruct (any_pos x) eqn:Ea; injection E as <-.
    - rewrite put_pos_zeros. auto.
    - rewrite zeros_map. apply any_pos_false in Ea. clear - Ea. induction Ea; simpl; auto. rewrite IHEa. f_equal.
      unfold f, posb. destruct (Rlt_dec 0 x); auto; lra. }
  subst p. clear E.
  assert (Hf0 : forall a, 0 <= f a). { intros a. unfold f. destruct (posb a) eqn:Ep; [apply posb_true in Ep|]; scal. }
  apply prox_certificate with (r := lam * ell1 (map f x)); auto; [vlen| |].
  - simpl. destruct (nonneg_dec (map f x)) as [Hp|Hp]; auto. destruct Hp. apply nonneg_map; auto.
  - intros v s Hv Hs. simpl in Hs. destruct (nonneg_dec v) as [Hp|Hp]; [|discriminate]. injection Hs as <-. rewrite dot_map_zip by congruence.
    assert (K : vsum (vzip (fun a b => (a - f a) * (b - f a)) x v) <= vsum (map (fun b => r * Rabs b) v) - vsum (map (fun a => r * Rabs (f a)) x)).
    { apply vsum_zip_le with (P := fun b => 0 <= b); auto; [congruence|].
      intros a c Hc. unfold f. destruct (posb a) eqn:Ep; [apply posb_true in Ep|apply posb_false in Ep]; scal. }
    rewrite !vsum_map_scale in K. fold (ell1 v) in K. rewrite ell1_map. rewrite <- ErL. nra.
Qed.

Lemma vsub_map_self : forall (f : R -> R) x, vsub x (map f x) = map (fun a => a - f a) x.
Proof. intros f. unfold vsub. induction x as [|a x IH]; simpl; auto. rewrite IH. auto. Qed.


Lemma combine_aux : forall L r e D M S t z, 0 < L -> 0 <= r -> e <= t -> D <= 0 * z - (t - M) * S ->
  t * (S - r) = 0 -> S <= r -> 0 <= M -> L * r * e + L * D <= L * r * M.
Proof.
  intros L r e D M S t z HL Hr He HD Hc HS HM.
  assert (0 <= r * (t - e)) by (apply Rmult_le_pos; lra).
  assert (0 <= M * (r - S)) by (apply Rmult_le_pos; lra).
  assert (r * e + D <= r * M) by nra. nra.
Qed.

Lemma lagrange_sup : forall n x L lam p, length x = n -> x <> [] -> 0 < L -> 0 <= lam -> lagrange_prox CSup x L lam = Ok p ->
  is_unique_argmin n (prox_objective L x (fun v => ext_scale lam (doc_seminorm CSup v))) p.
Proof.
  intros n x L lam p Hn Hx HL Hlam E. simpl in E.
  set (r := lam / L) in *. assert (Hr : 0 <= r) by (apply Rmult_le_pos; auto; left; apply Rinv_0_lt_compat; auto).
  assert (ErL : L * r = lam) by (unfold r; field; lra).
  destruct (l1_project_spec x r Hx Hr) as (t & E1 & _ & Ht & Hs & Hc).
  rewrite E1 in E. simpl in E. injection E as <-. rewrite vsub_map_self.
  set (f := fun a => a - soft t a).
  apply prox_certificate with (r := lam * ellinf (map f x)); auto; [vlen|].
  intros v s Hv Hs'. simpl in Hs'. injection Hs' as <-. rewrite dot_map_zip by congruence.
  assert (Hp : ellinf (map f x) <= t).
  { apply ellinf_le; auto. apply Forall_map, Forall_forall. intros a _. apply soft_resid; auto. }
  set (M := ellinf v).
  assert (K : vsum (vzip (fun a b => (a - f a) * (b - f a)) x v) <= vsum (map (fun b => 0 * b) v) - vsum (map (fun a => (t - M) * pos (Rabs a - t)) x)).
  { apply vsum_zip_le with (P := fun b => Rabs b <= M); [congruence|apply ellinf_ge|].
    intros a c Hcm. unfold f. replace (a - (a - soft t a)) with (soft t a) by lra.
    pose proof (soft_align t a Ht). rewrite <- soft_abs by auto.
    assert (soft t a * c <= Rabs (soft t a) * M).
    { eapply Rle_trans; [apply Rle_abs|]. rewrite Rabs_mult. apply Rmult_le_compat_l; auto. apply Rabs_pos. }
    nra. }
  rewrite (vsum_map_scale (fun b => b) 0 v), vsum_map_scale in K.
  set (S := vsum (map (fun a => pos (Rabs a - t)) x)) in *.
  assert (0 <= M) by apply ellinf_nonneg. rewrite <- ErL. eapply combine_aux; eauto.
Qed.

Lemma lagrange_conmax : forall n x L lam p, length x = n -> 0 < L -> 0 <= lam -> lagrange_prox CConMax x L lam = Ok p ->
  is_unique_argmin n (prox_objective L x (fun v => ext_scale lam (doc_seminorm CConMax v))) p.
Proof.
  intros n x L lam p Hn HL Hlam E. simpl in E.
  set (r := lam / L) in *. assert (Hr : 0 <= r) by (apply Rmult_le_pos; auto; left; apply Rinv_0_lt_compat; auto).
  assert (ErL : L * r = lam) by (unfold r; field; lra).
  assert (exists t, p = map (fun a => a - (if posb a then soft t a else a)) x /\ 0 <= t /\
     vsum (map (fun a => if posb a then pos (a - t) else 0) x) <= r /\
     t * (vsum (map (fun a => if posb a then pos (a - t) else 0) x) - r) = 0) as (t & -> & Ht & Hs & Hc).
  { destruct (any_pos x) eqn:Ea.
    - destruct (l1_project_spec (select_pos x) r (any_pos_true _ Ea) Hr) as (t & _ & E1 & Ht & Hs & Hc).
      rewrite E1 in E. simpl in E. rewrite put_pos_self in E. injection E as <-.
      rewrite select_cut_sum in Hs, Hc by auto. exists t. rewrite vsub_map_self. auto.
    - injection E as <-. apply any_pos_false in Ea. exists 0. 
      assert (Z : map (fun a => if posb a then pos (a - 0) else 0) x = map (fun _ => 0) x).
      { apply map_ext_in. intros a Ha. rewrite Forall_forall in Ea. specialize (Ea a Ha).
        unfold posb. destruct (Rlt_dec 0 a); auto; lra. }
      rewrite Z. split.
      + rewrite vsub_self, zeros_map. apply map_ext_in. intros a Ha. rewrite Forall_forall in Ea. specialize (Ea a Ha).
        unfold posb. destruct (Rlt_dec 0 a); lra.
      + assert (Z0 : vsum (map (fun _ => 0) x) = 0). { clear. induction x; [auto|]. cbn [map]. rewrite vsum_cons, IHx. lra. }
        rewrite Z0. repeat split; lra. }
  clear E.
  set (f := fun a => a - (if posb a then soft t a else a)).
  assert (Hf : forall a, 0 <= f a <= t).
  { intros a. unfold f. destruct (posb a) eqn:Ep; [apply posb_true in Ep|]; scal. }
  assert (Hp : ellinf (map f x) <= t).
  { apply ellinf_le; auto. apply Forall_map, Forall_forall. intros a _. specialize (Hf a). rewrite Rabs_right; lra. }
  apply prox_certificate with (r := lam * ellinf (map f x)); auto; [vlen| |].
  { simpl. destruct (nonneg_dec (map f x)) as [Hq|Hq]; auto. destruct Hq. apply nonneg_map. intros a. apply Hf. }
  intros v s Hv Hs'. simpl in Hs'. destruct (nonneg_dec v) as [Hvp|Hvp]; [|discriminate]. injection Hs' as <-. rewrite dot_map_zip by congruence.
  set (M := ellinf v).
  assert (K : vsum (vzip (fun a b => (a - f a) * (b - f a)) x v) <= vsum (map (fun b => 0 * b) v) - vsum (map (fun a => (t - M) * (if posb a then pos (a - t) else 0)) x)).
  { apply vsum_zip_le with (P := fun b => 0 <= b <= M); [congruence| |].
    - unfold M. apply Forall_forall. intros b Hb. unfold all_nonneg in Hvp. rewrite Forall_forall in Hvp. specialize (Hvp b Hb).
      pose proof (ellinf_ge v) as G. rewrite Forall_forall in G. specialize (G b Hb). pose proof (Rle_abs b). lra.
    - intros a c Hcm. specialize (Hf a). unfold f in *. destruct (posb a) eqn:Ep; [apply posb_true in Ep|apply posb_false in Ep].
      + replace (a - (a - soft t a)) with (soft t a) by lra.
        replace (soft t a) with (pos (a - t)) by scal.
        assert (pos (a - t) * (a - pos (a - t)) = t * pos (a - t)) by scal.
        pose proof (pos_nonneg (a - t)). nra.
      + nra. }
  rewrite (vsum_map_scale (fun b => b) 0 v), vsum_map_scale in K.
  set (S := vsum (map (fun a => if posb a then pos (a - t) else 0) x)) in *.
  assert (0 <= M) by apply ellinf_nonneg. rewrite <- ErL. eapply combine_aux; eauto.
Qed.

Lemma lagrange_maxpos : forall n x L lam p, length x = n -> 0 < L -> 0 <= lam -> lagrange_prox CMaxPos x L lam = Ok p ->
  is_unique_argmin n (prox_objective L x (fun v => ext_scale lam (doc_seminorm CMaxPos v))) p.
Proof.
  intros n x L lam p Hn HL Hlam E. simpl in E.
  set (r := lam / L) in *. assert (Hr : 0 <= r) by (apply Rmult_le_pos; auto; left; apply Rinv_0_lt_compat; auto).
  assert (ErL : L * r = lam) by (unfold r; field; lra).
  assert (exists t, p = map (fun a => a - (if posb a then soft t a else 0)) x /\ 0 <= t /\
     vsum (map (fun a => if posb a then pos (a - t) else 0) x) <= r /\
     t * (vsum (map (fun a => if posb a then pos (a - t) else 0) x) - r) = 0) as (t & -> & Ht & Hs & Hc).
  { destruct (any_pos x) eqn:Ea.
    - destruct (l1_project_spec (select_pos x) r (any_pos_true _ Ea) Hr) as (t & _ & E1 & Ht & Hs & Hc).
      rewrite E1 in E. simpl in E. rewrite put_pos_zeros in E. injection E as <-.
      rewrite select_cut_sum in Hs, Hc by auto. exists t. rewrite vsub_map_self. auto.
    - injection E as <-. apply any_pos_false in Ea. exists 0. 
      assert (Z : map (fun a => if posb a then pos (a - 0) else 0) x = map (fun _ => 0) x).
      { apply map_ext_in. intros a Ha. rewrite Forall_forall in Ea. specialize (Ea a Ha).
        unfold posb. destruct (Rlt_dec 0 a); auto; lra. }
      rewrite Z. split.
      + rewrite zeros_map, vsub_map_self. apply map_ext_in. intros a Ha. rewrite Forall_forall in Ea. specialize (Ea a Ha).
        unfold posb. destruct (Rlt_dec 0 a); lra.
      + assert (Z0 : vsum (map (fun _ => 0) x) = 0). { clear. induction x; [auto|]. cbn [map]. rewrite vsum_cons, IHx. lra. }
        rewrite Z0. repeat split; lra. }
  clear E.
  set (f := fun a => a - (if posb a then soft t a else 0)).
  assert (Hf : forall a, f a <= t).
  { intros a. unfold f. destruct (posb a) eqn:Ep; [apply posb_true in Ep|apply posb_false in Ep]; scal. }
  assert (Hp : max_pos (map f x) <= t).
  { apply max_pos_le; auto. apply Forall_map, Forall_forall. intros a _. apply Hf. }
  apply prox_certificate with (r := lam * max_pos (map f x)); auto; [vlen|].
  intros v s Hv Hs'. simpl in Hs'. injection Hs' as <-. rewrite dot_map_zip by congruence.
  set (M := max_pos v).
  assert (K : vsum (vzip (fun a b => (a - f a) * (b - f a)) x v) <= vsum (map (fun b => 0 * b) v) - vsum (map (fun a => (t - M) * (if posb a then pos (a - t) else 0)) x)).
  { apply vsum_zip_le with (P := fun b => b <= M); [congruence|apply max_pos_ge|].
    - intros a c Hcm. specialize (Hf a). unfold f in *. destruct (posb a) eqn:Ep; [apply posb_true in Ep|apply posb_false in Ep].
      + replace (a - (a - soft t a)) with (soft t a) by lra.
        replace (soft t a) with (pos (a - t)) by scal.
        assert (pos (a - t) * (a - pos (a - t)) = t * pos (a - t)) by scal.
        pose proof (pos_nonneg (a - t)). nra.
      + nra. }
  rewrite (vsum_map_scale (fun b => b) 0 v), vsum_map_scale in K.
  set (S := vsum (map (fun a => if posb a then pos (a - t) else 0) x)) in *.
  assert (0 <= M) by apply max_pos_nonneg. rewrite <- ErL. eapply combine_aux; eauto.
Qed.

Lemma lagrange_l2 : forall n x L lam p, length x = n -> 0 < L -> 0 <= lam -> lagrange_prox CL2 x L lam = Ok p ->
  is_unique_argmin n (prox_objective L x (fun v => ext_scale lam (doc_seminorm CL2 v))) p.
Proof.
  intros n x L lam p Hn HL Hlam E. simpl in E.
  set (r := lam / L) in *. assert (Hr : 0 <= r) by (apply Rmult_le_pos; auto; left; apply Rinv_0_lt_compat; auto).
  assert (ErL : L * r = lam) by (unfold r; field; lra).
  destruct (Rle_dec (norm x) r) as [C|C]; injection E as <-.
  - rewrite vsub_self. apply prox_certificate with (r := 0); auto; [vlen| |].
    + simpl. rewrite ell2_norm, norm_zeros. f_equal. lra.
    + intros v s Hv Hs. simpl in Hs. injection Hs as <-. rewrite ell2_norm, !vsub_zeros_r by congruence.
      assert (dot x v <= norm x * norm v) by (apply cauchy_schwarz; congruence).
      pose proof (norm_nonneg v). rewrite <- ErL.
      assert (norm x * norm v <= r * norm v) by (apply Rmult_le_compat_r; auto).
      assert (L * dot x v <= L * (r * norm v)) by (apply Rmult_le_compat_l; lra). lra.
  - assert (Hx : 0 < norm x) by lra.
    replace (lam / (L * norm x)) with (r / norm x) by (unfold r; field; lra).
    set (k := r / norm x). assert (Ek : k * norm x = r) by (unfold k; field; lra).
    assert (Hk : 0 <= k < 1).
    { unfold k. split. - apply Rmult_le_pos; auto. left. apply Rinv_0_lt_compat; auto.
      - apply Rmult_lt_reg_r with (r := norm x); auto. fold k. rewrite Ek. lra. }
    rewrite vsub_scal_self.
    apply prox_certificate with (r := lam * ((1 - k) * norm x)); auto; [vlen| |].
    + simpl. rewrite ell2_norm, norm_scal, Rabs_right by lra. auto.
    + intros v s Hv Hs. simpl in Hs. injection Hs as <-. rewrite ell2_norm, vsub_scal_self.
      replace (1 - (1 - k)) with k by lra.
      rewrite dot_scal_l, dot_sub_r, dot_scal_r by vlen. fold (sqn x). rewrite <- norm_sq.
      assert (dot x v <= norm x * norm v) by (apply cauchy_schwarz; congruence).
      rewrite <- ErL, <- Ek.
      assert (L * k * dot x v <= L * k * (norm x * norm v)) by (apply Rmult_le_compat_l; [nra|auto]). nra.
Qed.

Lemma lagrange_prox_ok : forall c x L lam, x <> [] -> 0 < L -> 0 <= lam -> exists p, lagrange_prox c x L lam = Ok p.
Proof.
  intros c x L lam Hx HL Hlam.
  assert (Hr : 0 <= lam / L) by (apply Rmult_le_pos; auto; left; apply Rinv_0_lt_compat; auto).
  destruct c; simpl; eauto.
  - destruct (l1_project_spec x _ Hx Hr) as (t & -> & _). simpl. eauto.
  - destruct (any_pos x) eqn:E; eauto. destruct (l1_project_spec _ _ (any_pos_true _ E) Hr) as (t & _ & -> & _). simpl. eauto.
  - destruct (any_pos x) eqn:E; eauto.
  - destruct (any_pos x) eqn:E; eauto. destruct (l1_project_spec _ _ (any_pos_true _ E) Hr) as (t & _ & -> & _). simpl. eauto.
Qed.

Theorem lagrange_prox_correct : forall c n x L lam, (1 <= n)%nat -> length x = n -> 0 < L -> 0 <= lam ->
  exists p, lagrange_prox c x L lam = Ok p /\
    is_unique_argmin n (prox_objective L x (fun v => ext_scale lam (doc_seminorm c v))) p.
Proof.
  intros c n x L lam Hn Hx HL Hlam. assert (Hne : x <> []) by (intros ->; simpl in Hx; lia).
  destruct (lagrange_prox_ok c x L lam Hne HL Hlam) as [p E]. exists p. split; auto.
  destruct c; [apply lagrange_l1|apply lagrange_sup|apply lagrange_l2|apply lagrange_pospart|apply lagrange_conmax|apply lagrange_conpospart|apply lagrange_maxpos]; auto.
Qed.

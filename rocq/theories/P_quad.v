(** Proofs about the identity_quadratic model. *)
From Coq Require Import Reals List Lra Lia Psatz.
From Verif Require Import Vec Spec M_quad.
Import ListNotations.
Local Open Scope R_scope.

Lemma derivable_pt_lim_ext_eq : forall f g x l, (forall t, f t = g t) ->
  derivable_pt_lim f x l -> derivable_pt_lim g x l.
Proof.
  intros f g x l H D e He. destruct (D e He) as [d Hd]. exists d. intros h h0 hd.
  rewrite <- !H. apply Hd; auto.
Qed.

Lemma derivable_quadratic_at_0 : forall a b c, derivable_pt_lim (fun t => a + t * b + t * t * c) 0 b.
Proof.
  intros a b c e He.
  assert (Hd : 0 < e / (1 + Rabs c)).
  { apply Rdiv_lt_0_compat; auto. pose proof (Rabs_pos c). lra. }
  exists (mkposreal _ Hd). intros h h0 hd. simpl in hd.
  replace (((a + (0 + h) * b + (0 + h) * (0 + h) * c) - (a + 0 * b + 0 * 0 * c)) / h - b) with (h * c) by (field; auto).
  rewrite Rabs_mult. pose proof (Rabs_pos c). pose proof (Rabs_pos h).
  apply Rmult_lt_compat_r with (r := 1 + Rabs c) in hd; [|lra].
  unfold Rdiv in hd. rewrite Rmult_assoc, Rinv_l, Rmult_1_r in hd by lra. nra.
Qed.


Lemma fbcast_length : forall n f, fshape n f -> length (fbcast n f) = n.
Proof. intros n [|c|v] H; simpl in *; vlen. Qed.

Lemma map_minus_const : forall x c, map (fun t => t - c) x = vsub x (const_vec (length x) c).
Proof. intros x c. unfold vsub, const_vec. induction x as [|a x IH]; simpl; auto. rewrite IH. auto. Qed.
Lemma map_plus_const : forall x c, map (fun t => t + c) x = vadd x (const_vec (length x) c).
Proof. intros x c. unfold vadd, const_vec. induction x as [|a x IH]; simpl; auto. rewrite IH. auto. Qed.
Lemma sum_const_mul : forall x c, vsum (map (fun t => c * t) x) = dot (const_vec (length x) c) x.
Proof. intros x c. unfold const_vec. induction x as [|a x IH]; simpl; auto. rewrite dot_cons, <- IH. auto. Qed.
Lemma const_vec_0 : forall n, const_vec n 0 = zeros n.
Proof. reflexivity. Qed.

Lemma q_resid_eq : forall n q x, q_shape n q -> length x = n -> q_resid q x = vsub x (fbcast n (center q)).
Proof.
  intros n q x [H _] Hx. unfold q_resid. destruct (center q); simpl in *; subst n.
  - rewrite vsub_zeros_r; auto.
  - apply map_minus_const.
  - reflexivity.
Qed.
Lemma q_linpart_eq : forall n q x, q_shape n q -> length x = n -> q_linpart q x = dot (fbcast n (linear_term q)) x.
Proof.
  intros n q x [_ H] Hx. unfold q_linpart. destruct (linear_term q); simpl in *; subst n.
  - rewrite sum_const_mul. reflexivity.
  - apply sum_const_mul.
  - reflexivity.
Qed.
Lemma q_func_eq : forall n q x, q_shape n q -> length x = n -> q_func q x = q_denot n q x.
Proof.
  intros n q x H Hx. unfold q_func, q_denot, quad_fun.
  rewrite (q_resid_eq n), (q_linpart_eq n) by auto. field.
Qed.
Lemma q_gradpart_eq : forall n q x, q_shape n q -> length x = n ->
  q_gradpart q x = vadd (vscal (coef q) (vsub x (fbcast n (center q)))) (fbcast n (linear_term q)).
Proof.
  intros n q x H Hx. unfold q_gradpart. rewrite (q_resid_eq n) by auto.
  fold (vscal (coef q) (vsub x (fbcast n (center q)))).
  assert (Hl : length (vscal (coef q) (vsub x (fbcast n (center q)))) = n).
  { rewrite vscal_length, vsub_length; auto. rewrite fbcast_length; auto. apply H. }
  destruct (linear_term q) as [|c|v]; simpl.
  - rewrite map_plus_const, Hl. reflexivity.
  - rewrite map_plus_const, Hl. reflexivity.
  - reflexivity.
Qed.

Lemma quad_fun_expand : forall n L mu eta gamma x d, length x = n -> length mu = n -> length eta = n -> length d = n ->
  quad_fun L mu eta gamma (vadd x d) =
  quad_fun L mu eta gamma x + dot (vadd (vscal L (vsub x mu)) eta) d + L / 2 * sqn d.
Proof.
  intros n L mu eta gamma x d Hx Hm He Hd. unfold quad_fun.
  rewrite dot_add_l, dot_scal_l, dot_sub_l by vlen.
  rewrite dot_add_r by vlen.
  rewrite !sqn_sub, sqn_add, dot_add_l by vlen.
  rewrite (dot_comm d mu). lra.
Qed.

Lemma quad_fun_gradient : forall n L mu eta gamma x, length x = n -> length mu = n -> length eta = n ->
  is_gradient n (quad_fun L mu eta gamma) x (vadd (vscal L (vsub x mu)) eta).
Proof.
  intros n L mu eta gamma x Hx Hm He. split; [vlen|].
  intros d Hd.
  apply derivable_pt_lim_ext_eq with
    (f := fun t => quad_fun L mu eta gamma x + t * dot (vadd (vscal L (vsub x mu)) eta) d + t * t * (L / 2 * sqn d)).
  - intros t. rewrite (quad_fun_expand n) by vlen. rewrite dot_scal_r, sqn_scal. ring.
  - apply derivable_quadratic_at_0.
Qed.

Lemma is_gradient_ext : forall n f g x v, (forall y, length y = n -> f y = g y) -> length x = n ->
  is_gradient n f x v -> is_gradient n g x v.
Proof.
  intros n f g x v H Hx [Hl Hd]. split; auto. intros d Hdl.
  eapply derivable_pt_lim_ext_eq; [|apply Hd; auto]. intros t. apply H. vlen.
Qed.

Lemma q_objective_correct : forall n q x, q_shape n q -> length x = n ->
  exists f g,
    q_objective q x MFunc = Ok (Some f, None) /\
    q_objective q x MGrad = Ok (None, Some g) /\
    q_objective q x MBoth = Ok (Some f, Some g) /\
    q_objective q x MOther = Err ValueError /\
    f = quad_fun (coef q) (fbcast n (center q)) (fbcast n (linear_term q)) (constant_term q) x /\
    is_gradient n (quad_fun (coef q) (fbcast n (center q)) (fbcast n (linear_term q)) (constant_term q)) x g.
Proof.
  intros n q x H Hx. exists (q_func q x), (q_gradpart q x). repeat split; auto.
  - apply q_func_eq; auto.
  - rewrite (q_gradpart_eq n) by auto. destruct H. vlen; rewrite fbcast_length; auto.
  - rewrite (q_gradpart_eq n) by auto. destruct H. apply quad_fun_gradient; auto; apply fbcast_length; auto.
Qed.

(** ** collapsed *)

Definition center_ok (n : nat) (q : iq) : Prop :=
  match center q with FScal c => c = 0 \/ coef q = 0 \/ n = 1%nat | _ => True end.

Lemma fop_shape : forall op n a b, fshape n a -> fshape n b -> fshape n (fop op a b).
Proof. intros op n [|a|a] [|b|b] Ha Hb; simpl in *; vlen; auto. Qed.
Lemma fscale_shape : forall a n f, fshape n f -> fshape n (fscale a f).
Proof. intros a n [|c|v] H; simpl in *; vlen; auto. Qed.
Lemma collapsed_shape : forall n q, q_shape n q -> q_shape n (collapsed q).
Proof.
  intros n q [H1 H2]. split; [simpl; auto|]. unfold collapsed; simpl.
  destruct (linear_term q), (center q); simpl in *; auto; vlen.
Qed.

Lemma fop_bcast_plus : forall n a b, a <> FNone -> b <> FNone -> fshape n a -> fshape n b ->
  fbcast n (fop Rplus a b) = vadd (fbcast n a) (fbcast n b).
Proof.
  intros n [|a|a] [|b|b] Ha Hb Sa Sb; simpl in *; try congruence.
  - unfold const_vec, vadd. clear. induction n as [|n IH]; simpl; auto. rewrite IH. auto.
  - rewrite vadd_comm. subst n. unfold vadd, const_vec. clear. induction b as [|c b IH]; simpl; auto. rewrite IH. f_equal. lra.
  - subst n. apply map_plus_const.
  - reflexivity.
Qed.
Lemma fop_bcast_minus : forall n a b, a <> FNone -> b <> FNone -> fshape n a -> fshape n b ->
  fbcast n (fop Rminus a b) = vsub (fbcast n a) (fbcast n b).
Proof.
  intros n [|a|a] [|b|b] Ha Hb Sa Sb; simpl in *; try congruence.
  - unfold const_vec, vsub. clear. induction n as [|n IH]; simpl; auto. rewrite IH. auto.
  - subst n. unfold vsub, const_vec. clear. induction b as [|c b IH]; simpl; auto. rewrite IH. f_equal. 
  - subst n. apply map_minus_const.
  - reflexivity.
Qed.
Lemma fscale_bcast : forall n a f, fbcast n (fscale a f) = vscal a (fbcast n f).
Proof.
  intros n a [|c|v]; simpl; auto.
  - rewrite vscal_zeros; auto.
  - unfold const_vec, vscal. induction n as [|n IH]; simpl; auto. rewrite IH. auto.
Qed.

Lemma vsub_zeros_l : forall n x, length x = n -> vsub (zeros n) x = vscal (-1) x.
Proof.
  intros n x <-. unfold vsub, vscal, zeros. induction x as [|a x IH]; simpl; auto. rewrite IH. f_equal. lra.
Qed.
Lemma vadd_zeros_l : forall n x, length x = n -> vadd (zeros n) x = x.
Proof. intros. rewrite vadd_comm. apply vadd_zeros_r; auto. Qed.

Lemma collapsed_lin : forall n q, q_shape n q ->
  fbcast n (linear_term (collapsed q)) =
  vadd (vscal (- coef q) (fbcast n (center q))) (fbcast n (linear_term q)).
Proof.
  intros n q [H1 H2]. unfold collapsed; cbn [linear_term].
  set (lin1 := match center q with FNone => FScal 0 | c => fop Rminus (FScal 0) (fscale (coef q) c) end).
  assert (L1 : lin1 <> FNone /\ fshape n lin1 /\ fbcast n lin1 = vscal (- coef q) (fbcast n (center q))).
  { unfold lin1. destruct (center q) as [|c|v] eqn:E.
    - repeat split; simpl; try discriminate. rewrite vscal_zeros. reflexivity.
    - repeat split; simpl; try discriminate. pose proof (fscale_bcast n (- coef q) (FScal c)) as Hb; simpl in Hb; rewrite <- Hb; f_equal; lra.
    - repeat split; try discriminate.
      + apply fop_shape; simpl; auto. vlen.
      + rewrite fop_bcast_minus; simpl; try discriminate; auto; [|vlen].
        simpl in H1. rewrite const_vec_0. rewrite vsub_zeros_l by vlen. rewrite vscal_vscal. f_equal. lra. }
  destruct L1 as (N1 & S1 & B1).
  destruct (linear_term q) as [|l|l] eqn:E.
  - simpl fbcast. rewrite B1, vadd_zeros_r; auto. rewrite vscal_length, fbcast_length; auto.
  - rewrite fop_bcast_plus; simpl; try discriminate; auto. rewrite B1; auto.
  - rewrite fop_bcast_plus; simpl; try discriminate; auto. rewrite B1; auto.
Qed.

Lemma sqn_const : forall n c, sqn (const_vec n c) = INR n * (c * c).
Proof.
  intros n c. unfold const_vec. induction n as [|n IH]; [unfold sqn, dot; simpl; lra|].
  rewrite S_INR. simpl repeat. rewrite sqn_cons, IH. lra.
Qed.

Lemma collapsed_const : forall n q, center_ok n q ->
  constant_term (collapsed q) = constant_term q + coef q / 2 * sqn (fbcast n (center q)).
Proof.
  intros n q H. unfold collapsed, center_ok in *; simpl. destruct (center q) as [|c|v]; simpl.
  - rewrite sqn_zeros. lra.
  - rewrite sqn_const. destruct H as [-> | [-> | ->]]; simpl; lra.
  - lra.
Qed.

Lemma quad_fun_collapse : forall n L mu eta gamma x, length x = n -> length mu = n -> length eta = n ->
  quad_fun L mu eta gamma x =
  quad_fun L (zeros n) (vadd (vscal (- L) mu) eta) (gamma + L / 2 * sqn mu) x.
Proof.
  intros n L mu eta gamma x Hx Hm He. unfold quad_fun.
  rewrite vsub_zeros_r, dot_add_l, dot_scal_l, sqn_sub, (dot_comm x mu) by vlen. lra.
Qed.

Lemma collapsed_denot : forall n q x, q_shape n q -> center_ok n q -> length x = n ->
  q_denot n (collapsed q) x = q_denot n q x.
Proof.
  intros n q x H Hc Hx. unfold q_denot.
  rewrite (collapsed_lin n), (collapsed_const n) by auto.
  destruct H as [H1 H2].
  rewrite (quad_fun_collapse n (coef q) (fbcast n (center q))) by (auto using fbcast_length).
  reflexivity.
Qed.

(** in general collapsing only changes the constant *)
Lemma collapsed_denot_const : forall n q x, q_shape n q -> length x = n ->
  q_denot n (collapsed q) x = q_denot n q x +
     (constant_term (collapsed q) - constant_term q - coef q / 2 * sqn (fbcast n (center q))).
Proof.
  intros n q x H Hx. unfold q_denot.
  rewrite (collapsed_lin n) by auto. destruct H as [H1 H2].
  rewrite (quad_fun_collapse n (coef q) (fbcast n (center q))) by (auto using fbcast_length).
  unfold quad_fun. simpl (coef (collapsed q)). simpl (center (collapsed q)). simpl fbcast. rewrite const_vec_0. lra.
Qed.

Lemma q_add_denot : forall n q p, q_shape n q -> q_shape n p -> center_ok n q -> center_ok n p ->
  exists s, q_add q (AQuad p) = Ok s /\ q_shape n s /\ center_ok n s /\
    forall x, length x = n -> q_denot n s x = q_denot n q x + q_denot n p x.
Proof.
  intros n q p Hq Hp Cq Cp. eexists. split; [reflexivity|].
  pose proof (collapsed_shape n q Hq) as [_ Sq]. pose proof (collapsed_shape n p Hp) as [_ Sp].
  split; [|split].
  - split; [simpl; auto|]. apply fop_shape; auto.
  - left. reflexivity.
  - intros x Hx. rewrite <- (collapsed_denot n q), <- (collapsed_denot n p) by auto.
    unfold q_denot, quad_fun. cbn [coef center linear_term constant_term].
    assert (N1 : forall r, linear_term (collapsed r) <> FNone).
    { intros r. unfold collapsed; simpl. destruct (linear_term r), (center r); simpl; discriminate. }
    rewrite fop_bcast_plus by auto.
    rewrite dot_add_l by (rewrite !fbcast_length; auto).
    simpl (center (collapsed q)). simpl (center (collapsed p)). simpl (coef (collapsed q)). simpl (coef (collapsed p)). lra.
Qed.

Lemma all_zero_spec : forall x, all_zero x = true <-> x = zeros (length x).
Proof.
  induction x as [|a x IH]; simpl; [tauto|]. destruct (Req_EM_T a 0) as [E|E].
  - rewrite IH. unfold zeros. simpl. split; intros H; [congruence|injection H; auto].
  - split; [discriminate|]. unfold zeros. simpl. intros H. injection H. congruence.
Qed.

Lemma recenter_denot : forall n q o, q_shape n q -> center_ok n q -> center q <> FNone -> length o = n ->
  (forall c, center q = FScal c -> c = 0) ->
  exists o' q', recenter q (Some o) = Ok (o', q') /\ q_shape n q' /\
    (o' = None /\ o = zeros n \/ o' = Some o /\ o <> zeros n) /\
    forall x, length x = n -> q_denot n q' x = q_denot n q (vadd x o) - dot (fbcast n (linear_term q)) o.
Proof.
  intros n q o Hq Cq Nq Ho Hsc. unfold recenter.
  destruct (all_zero o) eqn:E.
  - apply all_zero_spec in E. exists None, (collapsed q). split; auto. split; [apply collapsed_shape; auto|].
    split; [left; split; congruence|]. intros x Hx. rewrite collapsed_denot by auto.
    rewrite E, Ho, vadd_zeros_r, dot_zeros_r by auto. lra.
  - assert (o <> zeros n) as Hne.
    { intros C. rewrite <- Ho in C. apply all_zero_spec in C. congruence. }
    set (q1 := mk_iq (coef q) (fop Rminus (center q) (FVec o)) (linear_term q) (constant_term q)).
    exists (Some o), (collapsed q1).
    assert (S1 : q_shape n q1).
    { destruct Hq. split; simpl; auto. apply fop_shape; auto. }
    assert (C1 : center_ok n q1).
    { unfold center_ok, q1. simpl. destruct (center q); simpl; auto. }
    split. { destruct (center q) eqn:Ec; [congruence| |]; unfold q1; rewrite ?Ec; reflexivity. }
    split; [apply collapsed_shape; auto|]. split; [right; auto|].
    intros x Hx. rewrite collapsed_denot by auto. unfold q_denot, q1, quad_fun. cbn [coef center linear_term constant_term].
    destruct Hq as [Hq1 Hq2].
    rewrite fop_bcast_minus by (simpl; auto; discriminate). simpl (fbcast n (FVec o)).
    assert (Lc := fbcast_length n _ Hq1). assert (Ll := fbcast_length n _ Hq2).
    rewrite dot_add_r by vlen.
    replace (vsub x (vsub (fbcast n (center q)) o)) with (vsub (vadd x o) (fbcast n (center q))); [lra|].
    clear - Lc Hx Ho. revert Lc. generalize (fbcast n (center q)). intros m Lm.
    assert (A1 : length x = length m) by congruence. assert (A2 : length x = length o) by congruence. clear Hx Ho Lm.
    pattern x, m, o. apply vec_ind3; auto. intros. unfold vsub, vadd in *. simpl. rewrite H1. f_equal. lra.
Qed.

(** Completing the square: the Fenchel conjugate of a quadratic. *)
Lemma quad_fenchel : forall n L eta gamma u, 0 < L -> length eta = n -> length u = n ->
  is_fenchel n (fun x => Fin (quad_fun L (zeros n) eta gamma x)) u
    (Fin (quad_fun (1 / L) eta (zeros n) (- gamma) u)).
Proof.
  intros n L eta gamma u HL He Hu.
  assert (K : forall x, length x = n ->
     dot u x - quad_fun L (zeros n) eta gamma x =
     quad_fun (1 / L) eta (zeros n) (- gamma) u - / (2 * L) * sqn (vsub (vsub u eta) (vscal L x))).
  { intros x Hx. unfold quad_fun. rewrite vsub_zeros_r by auto. rewrite dot_zeros_l.
    rewrite (sqn_sub (vsub u eta)) by vlen. rewrite dot_scal_r, sqn_scal, dot_sub_l by vlen. field. lra. }
  split.
  - intros x r Hx Hr. injection Hr as <-. rewrite K by auto.
    pose proof (sqn_nonneg (vsub (vsub u eta) (vscal L x))).
    assert (0 < / (2 * L)) by (apply Rinv_0_lt_compat; lra). nra.
  - intros e He0. exists (vscal (/ L) (vsub u eta)). eexists. split; [vlen|]. split; [reflexivity|].
    rewrite K by vlen. rewrite vscal_vscal, Rinv_r, vscal_1, vsub_self, sqn_zeros by lra. lra.
Qed.

Lemma q_conjugate_fenchel : forall n q, q_shape n q -> center_ok n q -> 0 < coef q ->
  exists c, q_conjugate q = Ok c /\ q_shape n c /\
    forall u, length u = n -> is_fenchel n (fun x => Fin (q_denot n q x)) u (Fin (q_denot n c u)).
Proof.
  intros n q Hq Cq Hc. unfold q_conjugate. simpl (coef (collapsed q)).
  destruct (Req_EM_T (coef q) 0); [lra|]. eexists. split; [reflexivity|].
  pose proof (collapsed_shape n q Hq) as [_ Sl].
  split; [split; simpl; auto|].
  intros u Hu. unfold q_denot at 2. cbn [coef center linear_term constant_term].
  simpl (fbcast n (FScal 0)). rewrite const_vec_0.
  pose proof (quad_fenchel n (coef q) (fbcast n (linear_term (collapsed q))) (constant_term (collapsed q)) u Hc (fbcast_length n _ Sl) Hu) as [F1 F2].
  split.
  - intros x r Hx Hr. apply F1; auto. rewrite <- Hr. f_equal. rewrite <- (collapsed_denot n q x) by auto. reflexivity.
  - intros e He. destruct (F2 e He) as (x & r & Hx & Hr & Hlt). exists x, r. split; auto. split; auto.
    rewrite <- Hr. f_equal. rewrite <- (collapsed_denot n q x) by auto. reflexivity.
Qed.

Lemma quad_fun_ext : forall L mu eta gamma mu' x, sqn (vsub x mu) = sqn (vsub x mu') ->
  quad_fun L mu eta gamma x = quad_fun L mu' eta gamma x.
Proof. intros. unfold quad_fun. rewrite H. auto. Qed.

Lemma collapsed_center : forall q, center (collapsed q) = FScal 0.
Proof. reflexivity. Qed.

Lemma linear_collapsed_not_none : forall q, linear_term (collapsed q) <> FNone.
Proof. intros r. unfold collapsed; simpl. destruct (linear_term r), (center r); simpl; discriminate. Qed.

Lemma Ok_inj : forall A (a b : A), Ok a = Ok b -> a = b.
Proof. intros A a b H. injection H. auto. Qed.

(** conjugating twice *)
Lemma q_conjugate_involutive : forall n q c cc, q_shape n q -> center_ok n q -> 0 < coef q ->
  (forall v, linear_term (collapsed q) = FScal v -> v = 0) ->
  q_conjugate q = Ok c -> q_conjugate c = Ok cc ->
  forall x, length x = n -> q_denot n cc x = q_denot n q x.
Proof.
  intros n q c cc Hq Cq Hc Hs E1 E2 x Hx.
  unfold q_conjugate in E1. simpl (coef (collapsed q)) in E1.
  destruct (Req_EM_T (coef q) 0); [lra|]. apply Ok_inj in E1; subst c.
  unfold q_conjugate in E2.
  set (c := mk_iq (1 / coef q) (linear_term (collapsed q)) (FScal 0) (- constant_term (collapsed q))) in *.
  change (coef (collapsed c)) with (1 / coef q) in E2.
  pose proof (collapsed_shape n q Hq) as [_ Sl].
  assert (Sc : q_shape n c) by (split; simpl; auto).
  assert (Cc : center_ok n c).
  { unfold center_ok, c. cbn [center coef]. destruct (linear_term (collapsed q)) eqn:E; auto. }
  assert (0 < 1 / coef q) by (apply Rdiv_lt_0_compat; lra).
  destruct (Req_EM_T (1 / coef q) 0); [lra|]. apply Ok_inj in E2; subst cc.
  rewrite <- (collapsed_denot n q x) by auto.
  unfold q_denot. cbn [coef center linear_term constant_term].
  rewrite (collapsed_lin n c), (collapsed_const n c) by auto.
  unfold c. cbn [coef center linear_term constant_term].
  change (center (collapsed q)) with (FScal 0). simpl (fbcast n (FScal 0)). rewrite !const_vec_0.
  assert (Ll := fbcast_length n _ Sl).
  rewrite vadd_zeros_r by vlen.
  change (coef (collapsed q)) with (coef q).
  rewrite (quad_fun_collapse n _ (vscal _ _)) by vlen.
  unfold quad_fun. rewrite !vsub_zeros_r, vadd_zeros_r, vscal_vscal, sqn_scal by vlen.
  rewrite dot_scal_l.
  replace (1 / (1 / coef q)) with (coef q) by (field; lra).
  replace (- coef q * - (1 / coef q)) with 1 by (field; lra).
  field. lra.
Qed.

(** Scalar non-zero centers: [collapsed] changes the function. *)
Lemma collapsed_scalar_center_wrong :
  q_denot 2 (collapsed (mk_iq 1 (FScal 1) (FScal 0) 0)) [0;0] <> q_denot 2 (mk_iq 1 (FScal 1) (FScal 0) 0) [0;0].
Proof. cbv -[Rplus Rmult Rminus Rdiv Rinv Ropp IZR]. lra. Qed.

Lemma recenter_loses_constant : exists q o q' x, q_shape 1 q /\ length o = 1%nat /\ length x = 1%nat /\
  recenter q (Some o) = Ok (Some o, q') /\ q_denot 1 q' x <> q_denot 1 q (vadd x o).
Proof.
  exists (mk_iq 0 (FScal 0) (FVec [1]) 0), [1]. eexists. exists [0]. repeat split.
  - unfold recenter, all_zero. destruct (Req_EM_T 1 0); [lra|]. reflexivity.
  - cbv -[Rplus Rmult Rminus Rdiv Rinv Ropp IZR]. lra.
Qed.

Lemma q_conjugate_involutive_fails : exists q c cc x, q_shape 2 q /\ center_ok 2 q /\ 0 < coef q /\ length x = 2%nat /\
  q_conjugate q = Ok c /\ q_conjugate c = Ok cc /\ q_denot 2 cc x <> q_denot 2 q x.
Proof.
  exists (mk_iq 1 FNone (FScal 1) 0). do 2 eexists. exists [0;0]. split; [repeat split|]. split; [exact I|].
  split; [simpl; lra|]. split; [reflexivity|]. split.
  { unfold q_conjugate. simpl (coef _). destruct (Req_EM_T 1 0); [lra|]. reflexivity. }
  split.
  { unfold q_conjugate. simpl (coef _). destruct (Req_EM_T (1/1) 0); [lra|]. reflexivity. }
  cbv -[Rplus Rmult Rminus Rdiv Rinv Ropp IZR]. lra.
Qed.

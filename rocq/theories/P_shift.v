(** Proofs about the shared atom code. *)
From Coq Require Import Reals List Lra Lia Psatz Bool.
From Verif Require Import Vec Spec M_quad M_prox M_semi SpecAtom M_shift SpecBase P_quad P_pl P_prox P_feas P_semi P_conj.
Import ListNotations.
Local Open Scope R_scope.

Lemma base_off_length : forall n g, base_wf n g -> length (base_off n g) = n.
Proof. intros n g (_ & H & _). unfold base_off. destruct (b_offset g) as [o|]; simpl; [apply H; auto|vlen]. Qed.

Theorem shifted_prox_correct : forall n h g p inner, base_wf n g -> q_shape n p ->
  0 < coef (b_quadratic g) + coef p -> some_array g p ->
  (forall x, length x = n -> exists e, inner x (coef (b_quadratic g) + coef p) = Ok e /\
     is_unique_argmin n (prox_objective (coef (b_quadratic g) + coef p) x h) e) ->
  exists v, shifted_prox g (AQuad p) inner = Ok v /\ prox_spec n h g p v.
Proof.
  intros n h [sh o q] p inner Hwf Hp HL Hv Hin. destruct Hwf as (Hs & Ho & Hq). unfold some_array, prox_spec, base_doc, base_off in *. simpl in *.
  assert (Ho' : forall v, o = Some v -> length v = n) by (intros; apply Ho; auto).
  assert (Hv' : has_vec q \/ has_vec p \/ (exists v, o = Some v /\ v <> zeros n)).
  { destruct Hv as [H|[H|H]]; auto. right. right. destruct o as [v|]; [|congruence]. exists v. split; auto. apply Ho; auto. }
  destruct (setup n q p o Hq Hp Ho' Hv') as (s & off' & tq & l & E1 & E2 & Ec & El & Ll & Eoff & Eo' & Hl).
  set (off := off_vec n o) in *. set (L := coef q + coef p) in *.
  assert (Hoff : length off = n). { unfold off. destruct o; simpl; auto. vlen. }
  set (arg := map (fun t => - t / L) l).
  assert (Larg : length arg = n) by (unfold arg; vlen).
  destruct (Hin arg Larg) as (e & Ee & He).
  exists (vadd e off). split.
  - unfold shifted_prox. cbn [b_quadratic b_offset]. rewrite E1. cbn [rbind]. rewrite E2. cbn [rbind].
    rewrite Ec. destruct (Req_EM_T L 0) as [C|C]; [lra|]. rewrite El. fold arg.
    rewrite Ee. destruct off' as [o1|].
    + simpl in Eoff. subst o1. auto.
    + simpl in Eoff. rewrite <- Eoff. rewrite vadd_zeros_r; auto. destruct He as [[H _] _]. auto.
  - destruct (q_denot_slope n q Hq) as (k1 & K1). destruct (q_denot_slope n p Hp) as (k2 & K2).
    pose proof (q_slope_length n q Hq) as Lq. pose proof (q_slope_length n p Hp) as Lp.
    apply argmin_transport with (G := prox_objective L arg h)
      (k := k1 + k2 + L / 2 * sqn off + dot (q_slope n q) off + dot (q_slope n p) off - L / 2 * sqn arg); auto.
    intros v Hvn. unfold prox_objective.
    rewrite vsub_vadd by congruence.
    destruct (h v) as [r|]; cbn [ext_add]; auto. f_equal.
    fold (q_denot n q (vadd v off)). fold (q_denot n p (vadd v off)).
    rewrite K1, K2 by vlen.
    rewrite sqn_add, !dot_add_r, (sqn_sub arg v) by vlen.
    assert (Earg : dot arg v = - / L * dot l v).
    { unfold arg. rewrite <- dot_scal_l. f_equal. unfold vscal. apply map_ext. intros. field. lra. }
    rewrite Earg, Hl, !dot_add_l, dot_scal_l by vlen. rewrite (dot_comm v off). unfold L. field. unfold L in *. lra.
Qed.

Theorem shifted_prox_zero : forall n g p inner, base_wf n g -> q_shape n p ->
  coef (b_quadratic g) + coef p = 0 -> shifted_prox g (AQuad p) inner = Err ValueError.
Proof.
  intros n [sh o q] p inner (Hs & Ho & Hq) Hp E. simpl in *. unfold shifted_prox. cbn [b_quadratic b_offset].
  cbn [q_add rbind]. unfold recenter. cbn [center coef].
  destruct (match o with Some o0 => if all_zero o0 then None else Some o0 | None => None end); cbn [rbind fop collapsed coef];
  destruct (Req_EM_T _ 0); auto; tauto.
Qed.

Lemma base_apply_offset_eq : forall n g x, base_wf n g -> length x = n -> base_apply_offset g x = vsub x (base_off n g).
Proof.
  intros n g x H Hx. unfold base_apply_offset, base_off. destruct (b_offset g); simpl; auto. rewrite vsub_zeros_r; auto.
Qed.

Theorem shifted_objective_correct : forall n h g x value, base_wf n g -> length x = n ->
  (forall y, length y = n -> value y = Ok (h y)) ->
  shifted_objective g x value = Ok (base_doc n h g x).
Proof.
  intros n h g x value Hwf Hx Hv. unfold shifted_objective. rewrite (base_apply_offset_eq n) by auto.
  rewrite Hv. 2:{ pose proof (base_off_length n g Hwf). vlen. }
  simpl. f_equal. unfold base_doc. f_equal. f_equal. destruct Hwf as (_ & _ & Hq). rewrite (q_func_doc n) by auto. auto.
Qed.

Lemma new_base_wf : forall n o q, (forall v, o = Some v -> length v = n) -> q_shape n q -> base_wf n (new_base n o (Some q)).
Proof.
  intros n o q Ho Hq. unfold new_base, base_wf. simpl. split; auto. split; auto.
  intros v Hv. unfold fresh_offset in Hv. destruct o as [w|]; [|discriminate].
  destruct (all_zero w) eqn:E; [discriminate|]. injection Hv as <-. split; auto. intros C.
  assert (all_zero w = true) by (rewrite C; apply all_zero_zeros). congruence.
Qed.
Lemma new_base_off : forall n o q, (forall v, o = Some v -> length v = n) -> base_off n (new_base n o q) = off_vec n o.
Proof.
  intros n o q Ho. unfold base_off, new_base. simpl. unfold fresh_offset. destruct o as [v|]; auto.
  destruct (all_zero v) eqn:E; auto. simpl. apply all_zero_spec in E. rewrite (Ho v eq_refl) in E. auto.
Qed.

Lemma conjugate_base_form : forall n g, base_wf n g -> coef (b_quadratic g) = 0 ->
  exists d, conjugate_base g = Some d /\ base_wf n d /\
    base_off n d = fbcast n (linear_term (b_quadratic g)) /\
    fbcast n (linear_term (b_quadratic d)) = base_off n g /\ coef (b_quadratic d) = 0 /\
    constant_term (b_quadratic d) = - constant_term (b_quadratic g) - dot (fbcast n (linear_term (b_quadratic g))) (base_off n g).
Proof.
  intros n [sh og q] (Hs & Ho & Hq1 & Hq2) Hc. simpl in *.
  assert (Hov : forall v, og = Some v -> length v = n) by (intros; apply Ho; auto).
  unfold conjugate_base. cbn [b_quadratic b_offset b_shape]. destruct (Req_EM_T (coef q) 0); [|tauto].
  unfold work_out_conjugate.
  set (o := match linear_term q with FNone => None | FScal c => Some (const_vec sh c) | FVec v => Some v end).
  set (oq := mk_iq _ _ _ _).
  assert (Lo : forall v, o = Some v -> length v = n).
  { unfold o. intros v. destruct (linear_term q) as [|c|l]; intros E; try discriminate; injection E as <-; auto.
    rewrite const_vec_length. auto. }
  subst sh.
  exists (new_base n o (Some oq)). split; [reflexivity|]. split.
  { apply new_base_wf; auto. split; simpl; auto. destruct og as [v|]; simpl; auto. }
  split.
  { rewrite new_base_off by auto. unfold o. destruct (linear_term q); simpl; auto. }
  split.
  { simpl. unfold base_off. simpl. destruct og; auto. }
  split; [reflexivity|]. simpl. f_equal. rewrite (fsum_prod_eq n) by auto. auto.
Qed.

Lemma base_doc_coef0 : forall n h g v, coef (b_quadratic g) = 0 ->
  base_doc n h g v = ext_add (h (vsub v (base_off n g)))
    (Fin (dot (fbcast n (linear_term (b_quadratic g))) v + constant_term (b_quadratic g))).
Proof. intros n h g v H. unfold base_doc, quad_fun. rewrite H. f_equal. f_equal. lra. Qed.

Theorem conjugate_base_fenchel : forall n h h' g, base_wf n g -> coef (b_quadratic g) = 0 ->
  (forall u, length u = n -> is_fenchel n h u (h' u)) ->
  exists d, conjugate_base g = Some d /\ base_wf n d /\
    forall u, length u = n -> is_fenchel n (base_doc n h g) u (base_doc n h' d u).
Proof.
  intros n h h' g Hwf Hc Hh.
  destruct (conjugate_base_form n g Hwf Hc) as (d & E & Ewf & Eoff & Elin & Ecoef & Econst).
  exists d. repeat (split; [assumption|]). intros u Hu.
  pose proof (base_off_length n g Hwf) as La.
  assert (Le : length (fbcast n (linear_term (b_quadratic g))) = n).
  { apply fbcast_length. destruct Hwf as (_ & _ & _ & H). auto. }
  rewrite base_doc_coef0 by auto. rewrite Eoff, Elin, Econst.
  eapply is_fenchel_ext; [intros x Hx; symmetry; apply base_doc_coef0; auto|].
  match goal with |- context [Fin ?e] => replace e with (dot (base_off n g) u - dot (fbcast n (linear_term (b_quadratic g))) (base_off n g) - constant_term (b_quadratic g)) by lra end.
  apply fenchel_shift; auto. apply Hh. vlen.
Qed.

Theorem conjugate_base_twice : forall n h g, base_wf n g -> coef (b_quadratic g) = 0 ->
  exists d e, conjugate_base g = Some d /\ conjugate_base d = Some e /\ base_wf n e /\
    forall v, length v = n -> base_doc n h e v = base_doc n h g v.
Proof.
  intros n h g Hwf Hc.
  destruct (conjugate_base_form n g Hwf Hc) as (d & E & Ewf & Eoff & Elin & Ecoef & Econst).
  destruct (conjugate_base_form n d Ewf Ecoef) as (e & E' & Ewf' & Eoff' & Elin' & Ecoef' & Econst').
  exists d, e. repeat (split; [assumption|]). intros v Hv. rewrite !base_doc_coef0 by auto.
  rewrite Eoff', Elin', Econst', Elin, Eoff, Econst. f_equal. f_equal. rewrite (dot_comm (base_off n g)). lra.
Qed.

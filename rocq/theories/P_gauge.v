(** Duality and proximal maps of gauges, generically. *)
From Coq Require Import Reals List Lra Lia Psatz Bool.
From Verif Require Import Vec Spec M_quad M_prox M_semi SpecAtom M_shift SpecBase SpecMode M_mode SpecModed P_quad P_pl P_prox P_feas P_semi P_conj P_shift.
Import ListNotations.
Local Open Scope R_scope.

Record gauge (n : nat) (h : vec -> ext) : Prop := mk_gauge {
  ga_nonneg : forall x r, length x = n -> h x = Fin r -> 0 <= r;
  ga_scal : forall t x r, length x = n -> 0 <= t -> h x = Fin r -> h (vscal t x) = Fin (t * r);
  ga_zero : h (zeros n) = Fin 0 }.
(** h' is the polar gauge of h *)
Record polar_pair (n : nat) (h h' : vec -> ext) : Prop := mk_polar {
  po_gauge : gauge n h;
  po_gauge' : gauge n h';
  po_holder : forall x u r s, length x = n -> length u = n -> h x = Fin r -> h' u = Fin s -> dot u x <= r * s;
  po_attain : forall u, length u = n -> match h' u with
    | Fin s => exists x r, length x = n /\ h x = Fin r /\ r <= 1 /\ dot u x = s
    | PInf => exists x, length x = n /\ h x = Fin 0 /\ 0 < dot u x end }.

Theorem gauge_fenchel : forall n h h' m u, polar_pair n h h' -> length u = n -> mode_ok m ->
  is_fenchel n (gmode h m) u (gmode h' (dual_mode m) u).
Proof.
  intros n h h' m u [G G' Ho At] Hu Hm. specialize (At u Hu).
  destruct m as [lam|b]; simpl in Hm; cbn [dual_mode gmode].
  - destruct (h' u) as [s|] eqn:Es.
    + pose proof (ga_nonneg _ _ G' _ _ Hu Es) as Hs0. destruct (Rle_dec s lam) as [Hs|Hs].
      * split.
        -- intros x r Hx Hr. unfold gmode in Hr. destruct (h x) as [r'|] eqn:Ex; [|discriminate]. simpl in Hr. injection Hr as <-.
           pose proof (Ho x u r' s Hx Hu Ex Es). pose proof (ga_nonneg _ _ G _ _ Hx Ex). nra.
        -- intros e He. exists (zeros n), 0. split; [vlen|]. unfold gmode. rewrite (ga_zero _ _ G). simpl. split; [f_equal; lra|]. rewrite dot_zeros_r. lra.
      * destruct At as (x & r & Lx & Ex & Hr & Hd).
        apply ray_unbounded with (x := x) (rho := lam) (slope := s - lam); try congruence; try lra.
        intros t Ht. unfold gmode. rewrite (ga_scal _ _ G t x r) by auto. simpl. eexists. split; [reflexivity|].
        assert (0 <= lam * t) by nra. nra.
    + destruct At as (x & Lx & Ex & Hd).
      apply ray_unbounded with (x := x) (rho := 0) (slope := dot u x); try congruence; try lra.
      intros t Ht. unfold gmode. rewrite (ga_scal _ _ G t x 0) by auto. simpl. eexists. split; [reflexivity|]. lra.
  - destruct (h' u) as [s|] eqn:Es; cbn [ext_scale].
    + pose proof (ga_nonneg _ _ G' _ _ Hu Es) as Hs0. split.
      * intros x r Hx Hr. unfold gmode in Hr. destruct (h x) as [r'|] eqn:Ex; [|discriminate]. destruct (Rle_dec r' b); [|discriminate].
        injection Hr as <-. pose proof (Ho x u r' s Hx Hu Ex Es).
        assert (r' * s <= b * s) by (apply Rmult_le_compat_r; auto). lra.
      * intros e He. destruct At as (x & r & Lx & Ex & Hr & Hd). exists (vscal b x), 0. split; [vlen|].
        unfold gmode. rewrite (ga_scal _ _ G b x r) by auto. split.
        -- destruct (Rle_dec (b * r) b) as [|C]; auto. destruct C. nra.
        -- rewrite dot_scal_r, Hd. lra.
    + destruct At as (x & Lx & Ex & Hd).
      apply ray_unbounded with (x := x) (rho := 0) (slope := dot u x); try congruence; try lra.
      intros t Ht. unfold gmode. rewrite (ga_scal _ _ G t x 0) by auto. exists 0. rewrite Rmult_0_r. destruct (Rle_dec 0 b); [|exfalso; lra]. split; [reflexivity|]. lra.
Qed.

Lemma gball_cases : forall h b v, gmode h (Bound b) v = Fin 0 /\ gball h b v \/ gmode h (Bound b) v = PInf /\ ~ gball h b v.
Proof. intros. unfold gmode, gball. destruct (h v) as [r|]; simpl; auto. destruct (Rle_dec r b); auto. Qed.

Lemma gball_argmin : forall n L x h b p, 0 < L -> length x = n -> is_proj n (gball h b) x p ->
  is_unique_argmin n (prox_objective L x (gmode h (Bound b))) p.
Proof.
  intros n L x h b p HL Hx (Hp & HS & H). pose proof (gball_cases h b) as In1.
  unfold prox_objective. destruct (In1 p) as [[Ep _]|[_ C]]; [|tauto].
  split; [split; [auto|split]|].
  - rewrite Ep. simpl. eauto.
  - intros v Hv. rewrite Ep. destruct (In1 v) as [[Ev Iv]|[Ev _]]; rewrite Ev; simpl; auto.
    destruct (H v Hv Iv) as [H1 _]. nra.
  - intros v Hv. rewrite Ep. destruct (In1 v) as [[Ev Iv]|[Ev _]]; rewrite Ev; simpl; [|tauto].
    intros Hle. destruct (H v Hv Iv) as [H1 H2]. apply H2. nra.
Qed.

(** Sufficient condition for p to be the prox of lam*h: the residual lies in the polar ball and is aligned with p. *)
Lemma gauge_prox_cert : forall n h L x lam p r, 0 < L -> length x = n -> length p = n -> h p = Fin r ->
  (forall v s, length v = n -> h v = Fin s -> dot (vsub x p) v <= lam / L * s) -> dot (vsub x p) p = lam / L * r ->
  is_unique_argmin n (prox_objective L x (gmode h (Lagrange lam))) p.
Proof.
  intros n h L x lam p r HL Hx Hp Er Hv Ha.
  apply prox_certificate with (r := lam * r); auto.
  - unfold gmode. rewrite Er. auto.
  - intros v s Lv Es. unfold gmode in Es. destruct (h v) as [s'|] eqn:Ev; [|discriminate]. simpl in Es. injection Es as <-.
    rewrite dot_sub_r by vlen. rewrite Ha. specialize (Hv v s' Lv Ev).
    assert (L * dot (vsub x p) v <= lam * s').
    { replace (lam * s') with (L * (lam / L * s')) by (field; lra). apply Rmult_le_compat_l; lra. }
    replace (lam * r + L * (dot (vsub x p) v - lam / L * r)) with (L * dot (vsub x p) v) by (field; lra). auto.
Qed.

(** Projection on the polar ball {h' <= b} by Moreau: x - prox_{b h}(x). *)
Lemma gauge_moreau : forall n h h' x b p r, polar_pair n h h' -> 0 <= b -> length x = n -> length p = n -> h p = Fin r ->
  (forall v s, length v = n -> h v = Fin s -> dot (vsub x p) v <= b * s) -> dot (vsub x p) p = b * r ->
  is_proj n (gball h' b) x (vsub x p).
Proof.
  intros n h h' x b p r P Hb Hx Hp Er Hv Ha.
  assert (Lr : length (vsub x p) = n) by vlen.
  apply proj_certificate; auto.
  - unfold gball. pose proof (po_attain _ _ _ P (vsub x p) Lr) as At. destruct (h' (vsub x p)) as [s|]; simpl.
    + destruct At as (v & s' & Lv & Ev & Hs & Hd). specialize (Hv v s' Lv Ev). pose proof (ga_nonneg _ _ (po_gauge _ _ _ P) v s' Lv Ev). rewrite <- Hd. nra.
    + destruct At as (v & Lv & Ev & Hd). specialize (Hv v 0 Lv Ev). lra.
  - intros v Lv Bv. unfold gball in Bv. destruct (h' v) as [s|] eqn:Es; simpl in Bv; [|tauto].
    assert (R0 : vsub x (vsub x p) = p).
    { clear - Hx Hp. subst n. unfold vsub. pattern x, p. apply vec_ind2; auto. intros a c X Y HL IH. cbn [vzip]. rewrite IH. f_equal. lra. }
    rewrite R0, dot_sub_r by vlen. rewrite (dot_comm p (vsub x p)), Ha.
    pose proof (po_holder _ _ _ P p v r s Hp Lv Er Es) as Hh. rewrite dot_comm. pose proof (ga_nonneg _ _ (po_gauge _ _ _ P) p r Hp Er).
    assert (r * s <= r * b) by (apply Rmult_le_compat_l; auto). lra.
Qed.

(** ** Objects *)
Theorem moded_proximal_correct : forall n h lprox bprox a m p, moded_wf n a m -> q_shape n p ->
  0 < coef (b_quadratic (m_base a)) + coef p -> some_array (m_base a) p ->
  (forall x L, length x = n -> 0 < L -> match m with
     | Lagrange lam => exists e, lprox x L lam = Ok e /\ is_unique_argmin n (prox_objective L x (gmode h (Lagrange lam))) e
     | Bound b => exists e, bprox x b = Ok e /\ is_proj n (gball h b) x e end) ->
  exists v, moded_proximal lprox bprox a (AQuad p) = Ok v /\ prox_spec n (gmode h m) (m_base a) p v.
Proof.
  intros n h lprox bprox a m p (El & Eb & Hm & Hwf) Hp HL Hv Hin. unfold moded_proximal. apply shifted_prox_correct; auto.
  intros x Hx. specialize (Hin x _ Hx HL). rewrite El, Eb. destruct m as [lam|b]; simpl.
  - exact Hin.
  - destruct Hin as (e & E & He). exists e. split; auto. apply gball_argmin; auto.
Qed.

Lemma new_moded_ok : forall n m o q, mode_ok m -> new_moded n (lag_of m) (bnd_of m) o q = Ok (mk_moded (lag_of m) (bnd_of m) (new_base n o q)).
Proof. intros n m o q H. unfold new_moded. destruct m as [l|b]; simpl in *; destruct (Rlt_dec _ 0); auto; lra. Qed.

Theorem moded_conjugate_correct : forall n h h' a m, moded_wf n a m -> coef (b_quadratic (m_base a)) = 0 -> polar_pair n h h' ->
  exists d, moded_conjugate a = Some (Ok d) /\ moded_wf n d (dual_mode m) /\
    (forall u, length u = n -> is_fenchel n (moded_doc n h a m) u (moded_doc n h' d (dual_mode m) u)) /\
    exists e, moded_conjugate d = Some (Ok e) /\ moded_wf n e m /\ forall v, length v = n -> moded_doc n h e m v = moded_doc n h a m v.
Proof.
  intros n h h' a m (El & Eb & Hm & Hwf) Hc P.
  assert (K : forall a m, moded_wf n a m -> coef (b_quadratic (m_base a)) = 0 -> forall d, conjugate_base (m_base a) = Some d ->
    moded_conjugate a = Some (Ok (mk_moded (lag_of (dual_mode m)) (bnd_of (dual_mode m)) d)) /\ coef (b_quadratic d) = 0).
  { clear. intros a m (El & Eb & Hm & Hwf) Hc d Hd. unfold moded_conjugate. unfold conjugate_base in Hd. destruct (Req_EM_T _ 0); [|congruence].
    unfold work_out_conjugate in *. injection Hd as <-. split; [|reflexivity]. f_equal. rewrite El, Eb. destruct m as [l|b]; cbn [lag_of bnd_of dual_mode].
    - apply (new_moded_ok _ (Bound l)). auto.
    - apply (new_moded_ok _ (Lagrange b)). auto. }
  destruct (conjugate_base_fenchel n (gmode h m) (gmode h' (dual_mode m)) (m_base a) Hwf Hc) as (d & E & W & F).
  { intros u Hu. apply gauge_fenchel; auto. }
  destruct (conjugate_base_twice n (gmode h m) (m_base a) Hwf Hc) as (d' & e & E1 & E2 & We & H).
  assert (d' = d) by congruence. subst d'.
  assert (Hm' : mode_ok (dual_mode m)) by (destruct m; exact Hm).
  assert (DD : dual_mode (dual_mode m) = m) by (destruct m; auto).
  destruct (K a m (conj El (conj Eb (conj Hm Hwf))) Hc d E) as [Q1 Q2].
  exists (mk_moded (lag_of (dual_mode m)) (bnd_of (dual_mode m)) d). split; [exact Q1|]. 
  assert (Wd : moded_wf n (mk_moded (lag_of (dual_mode m)) (bnd_of (dual_mode m)) d) (dual_mode m)) by (repeat (split; auto)).
  split; auto. split; [exact F|].
  destruct (K _ _ Wd Q2 e E2) as [Q3 _]. rewrite DD in Q3. eexists. split; [exact Q3|]. split; [repeat (split; auto)|]. exact H.
Qed.

Theorem moded_objective_correct : forall n h value constraint a m x (chk : bool), moded_wf n a m -> length x = n ->
  (forall y, length y = n -> match m with
     | Lagrange lam => value y lam chk = Ok (ext_scale lam (h y))
     | Bound b => (if chk then constraint y b else Ok (Fin 0)) = Ok (gmode h (Bound b) y) end) ->
  moded_objective value constraint a x chk = Ok (moded_doc n h a m x).
Proof.
  intros n h value constraint a m x chk (El & Eb & Hm & Hwf) Hx Hv. unfold moded_objective, moded_doc. apply shifted_objective_correct; auto.
  intros y Hy. specialize (Hv y Hy). rewrite El, Eb. destruct m; simpl; auto.
Qed.

(** ** The polar relation is symmetric once attainment holds both ways *)
Lemma polar_swap : forall n h h', polar_pair n h h' ->
  (forall x, length x = n -> match h x with
    | Fin r => exists u s, length u = n /\ h' u = Fin s /\ s <= 1 /\ dot x u = r
    | PInf => exists u, length u = n /\ h' u = Fin 0 /\ 0 < dot x u end) ->
  polar_pair n h' h.
Proof.
  intros n h h' [G G' Ho At] At'. constructor; auto. intros x u r s Hx Hu Ex Eu. rewrite dot_comm, Rmult_comm. apply Ho; auto.
Qed.

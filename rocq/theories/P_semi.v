(** Proofs about seminorm atoms: proximal, modes. *)
From Coq Require Import Reals List Lra Lia Psatz Bool.
From Verif Require Import Vec Spec M_quad M_prox M_semi SpecAtom P_quad P_pl P_prox P_feas.
Import ListNotations.
Local Open Scope R_scope.

(** ** A quadratic up to its constant *)
Definition q_slope (n : nat) (q : iq) : vec :=
  vadd (vscal (- coef q) (fbcast n (center q))) (fbcast n (linear_term q)).
Lemma q_slope_length : forall n q, q_shape n q -> length (q_slope n q) = n.
Proof. intros n q [H1 H2]. unfold q_slope. vlen; rewrite ?fbcast_length; auto. Qed.
Lemma q_denot_slope : forall n q, q_shape n q -> exists k, forall x, length x = n ->
  q_denot n q x = coef q / 2 * sqn x + dot (q_slope n q) x + k.
Proof.
  intros n q [H1 H2]. exists (constant_term q + coef q / 2 * sqn (fbcast n (center q))). intros x Hx.
  unfold q_denot. rewrite (quad_fun_collapse n) by (auto using fbcast_length). unfold quad_fun.
  rewrite vsub_zeros_r by auto. fold (q_slope n q). lra.
Qed.

Definition is_fvec (f : fld) : Prop := match f with FVec _ => True | _ => False end.
Lemma collapsed_fvec : forall q, has_vec q -> is_fvec (linear_term (collapsed q)).
Proof. intros q. unfold has_vec, collapsed. simpl. destruct (center q), (linear_term q); simpl; tauto. Qed.
Lemma fop_fvec : forall op a b, a <> FNone -> b <> FNone -> is_fvec a \/ is_fvec b -> is_fvec (fop op a b).
Proof. intros op [|a|a] [|b|b]; simpl; try tauto; congruence. Qed.


Lemma all_zero_zeros : forall n, all_zero (zeros n) = true.
Proof. intros. apply all_zero_spec. vlen. Qed.

Lemma setup : forall n q p (o : option vec), q_shape n q -> q_shape n p ->
  (forall v, o = Some v -> length v = n) ->
  has_vec q \/ has_vec p \/ (exists v, o = Some v /\ v <> zeros n) ->
  exists s off tq l, q_add q (AQuad p) = Ok s /\ recenter s o = Ok (off, tq) /\
    coef tq = coef q + coef p /\ linear_term tq = FVec l /\ length l = n /\
    off_vec n off = off_vec n o /\ (off = None \/ off = o) /\
    l = vadd (vadd (q_slope n q) (q_slope n p)) (vscal (coef q + coef p) (off_vec n o)).
Proof.
  intros n q p o Hq Hp Ho Hv.
  pose proof (collapsed_shape n q Hq) as [_ Sq]. pose proof (collapsed_shape n p Hp) as [_ Sp].
  pose proof (q_slope_length n q Hq) as Lq. pose proof (q_slope_length n p Hp) as Lp.
  set (lin := fop Rplus (linear_term (collapsed q)) (linear_term (collapsed p))).
  set (s := mk_iq (coef q + coef p) (FScal 0) lin (constant_term (collapsed q) + constant_term (collapsed p))).
  assert (Es : q_add q (AQuad p) = Ok s) by reflexivity.
  assert (Slin : fshape n lin) by (apply fop_shape; auto).
  assert (Ss : q_shape n s) by (split; simpl; auto).
  assert (Blin : fbcast n lin = vadd (q_slope n q) (q_slope n p)).
  { unfold lin. rewrite fop_bcast_plus by auto using linear_collapsed_not_none.
    rewrite !collapsed_lin by auto. reflexivity. }
  assert (Nlin : lin <> FNone).
  { unfold lin. pose proof (linear_collapsed_not_none q). pose proof (linear_collapsed_not_none p).
    destruct (linear_term (collapsed q)), (linear_term (collapsed p)); simpl; try congruence; discriminate. }
  exists s.
  assert (Case0 : off_vec n o = zeros n -> is_fvec lin -> recenter s o = Ok (None, collapsed s) ->
     exists off tq l, q_add q (AQuad p) = Ok s /\ recenter s o = Ok (off, tq) /\
    coef tq = coef q + coef p /\ linear_term tq = FVec l /\ length l = n /\
    off_vec n off = off_vec n o /\ (off = None \/ off = o) /\
    l = vadd (vadd (q_slope n q) (q_slope n p)) (vscal (coef q + coef p) (off_vec n o))).
  { intros Hz Hl E. exists None, (collapsed s).
    pose proof (collapsed_lin n s Ss) as B. pose proof (collapsed_shape n s Ss) as [_ S'].
    assert (is_fvec (linear_term (collapsed s))) as F. { apply collapsed_fvec. unfold has_vec, s. simpl. destruct lin; auto. }
    destruct (linear_term (collapsed s)) as [|cc|l]; simpl in F; try tauto. exists l.
    simpl in B. rewrite Blin, const_vec_0, vscal_zeros in B. rewrite Hz, vscal_zeros.
    rewrite vadd_zeros_l in B by vlen. rewrite vadd_zeros_r by vlen.
    repeat split; auto. }
  destruct o as [ov|].
  - specialize (Ho ov eq_refl).
    destruct (all_zero ov) eqn:E.
    + assert (Hz : off_vec n (Some ov) = zeros n). { simpl. apply all_zero_spec in E. congruence. }
      apply Case0; auto.
      * destruct Hv as [H|[H|H]].
        -- apply fop_fvec; auto using linear_collapsed_not_none. left. apply collapsed_fvec; auto.
        -- apply fop_fvec; auto using linear_collapsed_not_none. right. apply collapsed_fvec; auto.
        -- destruct H as (v & Ev & Hne). injection Ev as <-. simpl in Hz. congruence.
      * unfold recenter. rewrite E. auto.
    + set (q1 := mk_iq (coef q + coef p) (FVec (map (Rminus 0) ov)) lin (constant_term s)).
      assert (S1 : q_shape n q1). { split; simpl; auto. vlen. }
      exists (Some ov), (collapsed q1).
      pose proof (collapsed_lin n q1 S1) as B. pose proof (collapsed_shape n q1 S1) as [_ S'].
      assert (is_fvec (linear_term (collapsed q1))) as F. { apply collapsed_fvec. unfold has_vec, q1. simpl. auto. }
      destruct (linear_term (collapsed q1)) as [|cc|l]; simpl in F; try tauto. exists l.
      simpl in B. rewrite Blin in B.
      repeat split; auto.
      * unfold recenter. rewrite E. reflexivity.
      * rewrite B, vadd_comm. simpl off_vec. f_equal. clear. unfold vscal. rewrite map_map. apply map_ext. intros. lra.
  - apply Case0; auto.
    destruct Hv as [H|[H|H]].
    + apply fop_fvec; auto using linear_collapsed_not_none. left. apply collapsed_fvec; auto.
    + apply fop_fvec; auto using linear_collapsed_not_none. right. apply collapsed_fvec; auto.
    + destruct H as (v & Ev & Hne). discriminate.
Qed.

(** ** Minimizers under translation and constants *)
Lemma argmin_transport : forall n F G k o e, length o = n ->
  (forall v, length v = n -> F (vadd v o) = ext_add (Fin k) (G v)) ->
  is_unique_argmin n G e -> is_unique_argmin n F (vadd e o).
Proof.
  intros n F G k o e Ho HF [(Le & (r & Hr) & Hmin) Huniq].
  split; [split; [vlen|split]|].
  - rewrite HF, Hr by auto. simpl. eauto.
  - intros v Hv. rewrite <- (vadd_vsub v o) by congruence. rewrite !HF by vlen.
    specialize (Hmin (vsub v o)). rewrite Hr in *. assert (L : length (vsub v o) = n) by vlen. specialize (Hmin L).
    destruct (G (vsub v o)); simpl in *; auto; lra.
  - intros v Hv H. rewrite <- (vadd_vsub v o) in H |- * by congruence. rewrite !HF in H by vlen.
    f_equal. apply Huniq; [vlen|]. rewrite Hr in *. destruct (G (vsub v o)); simpl in *; auto; lra.
Qed.

Lemma argmin_ext : forall n F G e, (forall v, length v = n -> F v = G v) ->
  is_unique_argmin n F e -> is_unique_argmin n G e.
Proof.
  intros n F G e H [(Le & Hr & Hmin) Hu]. split; [split; [auto|split]|].
  - rewrite <- H by auto. auto.
  - intros v Hv. rewrite <- !H by auto. auto.
  - intros v Hv. rewrite <- !H by auto. auto.
Qed.

Lemma ind_argmin : forall n L x b c p, 0 < L -> length x = n -> is_proj n (in_ball c b) x p ->
  is_unique_argmin n (prox_objective L x (mode_fun c (Bound b))) p.
Proof.
  intros n L x b c p HL Hx (Hp & HS & H).
  assert (In1 : forall v, mode_fun c (Bound b) v = Fin 0 /\ in_ball c b v \/ mode_fun c (Bound b) v = PInf /\ ~ in_ball c b v).
  { intros v. unfold mode_fun, in_ball. destruct (doc_seminorm c v) as [r|]; simpl; auto. destruct (Rle_dec r b); auto. }
  unfold prox_objective. destruct (In1 p) as [[Ep _]|[_ C]]; [|tauto].
  split; [split; [auto|split]|].
  - rewrite Ep. simpl. eauto.
  - intros v Hv. rewrite Ep. destruct (In1 v) as [[Ev Iv]|[Ev _]]; rewrite Ev; simpl; auto.
    destruct (H v Hv Iv) as [H1 _]. nra.
  - intros v Hv. rewrite Ep. destruct (In1 v) as [[Ev Iv]|[Ev _]]; rewrite Ev; simpl; [|tauto].
    intros Hle. destruct (H v Hv Iv) as [H1 H2]. apply H2. nra.
Qed.


Lemma new_atom_ok : forall c n m off q, mode_ok m ->
  new_atom c n (lag_of m) (bnd_of m) (Some off) (Some q) =
  Ok (mk_atom c n (lag_of m) (bnd_of m) (if all_zero off then None else Some off) q).
Proof.
  intros c n [l|b] off q H; simpl in *; destruct (Rlt_dec _ 0); try lra; auto.
Qed.

Lemma mode_prox : forall c n m x L, (1 <= n)%nat -> length x = n -> 0 < L -> mode_ok m ->
  exists e, match bnd_of m with
            | Some b => bound_prox c x b
            | None => rbind (need (lag_of m) None) (fun lam => lagrange_prox c x L lam)
            end = Ok e /\ is_unique_argmin n (prox_objective L x (mode_fun c m)) e.
Proof.
  intros c n [lam|b] x L Hn Hx HL Hm; simpl.
  - apply lagrange_prox_correct; auto.
  - destruct (bound_prox_correct c n x b Hn Hx Hm) as (p & E & Hp). exists p. split; auto. apply ind_argmin; auto.
Qed.

Theorem proximal_correct : forall c n m off q p, (1 <= n)%nat -> mode_ok m -> length off = n ->
  q_shape n q -> q_shape n p -> 0 < coef q + coef p ->
  has_vec q \/ has_vec p \/ off <> zeros n ->
  exists a v, new_atom c n (lag_of m) (bnd_of m) (Some off) (Some q) = Ok a /\
    proximal a (AQuad p) = Ok v /\
    is_unique_argmin n (fun x => ext_add
       (doc_objective c m off (coef q) (fbcast n (center q)) (fbcast n (linear_term q)) (constant_term q) x)
       (Fin (quad_fun (coef p) (fbcast n (center p)) (fbcast n (linear_term p)) (constant_term p) x))) v.
Proof.
  intros c n m off q p Hn Hm Hoff Hq Hp HL Hv.
  rewrite new_atom_ok by auto.
  set (o := if all_zero off then None else Some off).
  exists (mk_atom c n (lag_of m) (bnd_of m) o q).
  assert (Ho : forall v, o = Some v -> length v = n).
  { unfold o. intros v. destruct (all_zero off); [discriminate|]. intros E. injection E as <-. auto. }
  assert (Eo : off_vec n o = off).
  { unfold o. destruct (all_zero off) eqn:E; auto. simpl. apply all_zero_spec in E. congruence. }
  assert (Hv' : has_vec q \/ has_vec p \/ (exists v, o = Some v /\ v <> zeros n)).
  { destruct Hv as [H|[H|H]]; auto. right. right. exists off. split; auto. unfold o. destruct (all_zero off) eqn:E; auto.
    apply all_zero_spec in E. congruence. }
  destruct (setup n q p o Hq Hp Ho Hv') as (s & off' & tq & l & E1 & E2 & Ec & El & Ll & Eoff & Eo' & Hl).
  set (L := coef q + coef p) in *.
  set (arg := map (fun t => - t / L) l).
  assert (Larg : length arg = n) by (unfold arg; vlen).
  destruct (mode_prox c n m arg L Hn Larg HL Hm) as (e & Ee & He).
  exists (vadd e off). split; [reflexivity|]. split.
  - unfold proximal. cbn [a_quadratic a_offset a_bound a_lagrange klass]. fold o. rewrite E1. cbn [rbind]. rewrite E2. cbn [rbind].
    rewrite Ec. destruct (Req_EM_T L 0) as [C|C]; [lra|]. rewrite El. fold arg.
    rewrite Ee. destruct off' as [o1|].
    + simpl in Eoff. rewrite Eo in Eoff. subst o1. auto.
    + simpl in Eoff. rewrite Eo in Eoff. rewrite <- Eoff. rewrite vadd_zeros_r; auto. destruct He as [[H _] _]. auto.
  - destruct (q_denot_slope n q Hq) as (k1 & K1). destruct (q_denot_slope n p Hp) as (k2 & K2).
    pose proof (q_slope_length n q Hq) as Lq. pose proof (q_slope_length n p Hp) as Lp.
    apply argmin_transport with (G := prox_objective L arg (mode_fun c m))
      (k := k1 + k2 + L / 2 * sqn off + dot (q_slope n q) off + dot (q_slope n p) off - L / 2 * sqn arg); auto.
    intros v Hvn. unfold doc_objective, prox_objective.
    rewrite vsub_vadd by congruence.
    destruct (mode_fun c m v) as [r|]; cbn [ext_add]; auto. f_equal.
    fold (q_denot n q (vadd v off)). fold (q_denot n p (vadd v off)).
    rewrite K1, K2 by vlen.
    rewrite sqn_add, !dot_add_r, (sqn_sub arg v) by vlen.
    assert (Earg : dot arg v = - / L * dot l v).
    { unfold arg. rewrite <- dot_scal_l. f_equal. unfold vscal. apply map_ext. intros. field. lra. }
    rewrite Earg, Hl, Eo, !dot_add_l, dot_scal_l by vlen. rewrite (dot_comm v off). unfold L. field. unfold L in *. lra.
Qed.

Theorem proximal_zero_coef : forall a p n, q_shape n (a_quadratic a) -> q_shape n p ->
  (forall v, a_offset a = Some v -> length v = n) ->
  coef (a_quadratic a) + coef p = 0 -> proximal a (AQuad p) = Err ValueError.
Proof.
  intros a p n Hq Hp Ho E. unfold proximal. simpl q_add. cbn [rbind].
  unfold recenter. cbn [center coef linear_term constant_term].
  destruct (match a_offset a with Some o => if all_zero o then None else Some o | None => None end) as [o|]; cbn [rbind fop].
  - cbn [coef collapsed]. simpl coef. destruct (Req_EM_T _ 0); auto. tauto.
  - simpl coef. destruct (Req_EM_T _ 0); auto. tauto.
Qed.

Lemma proximal_negative_coef : exists a q p,
  new_atom CL1 1 (Some 1) None None None = Ok a /\ coef (a_quadratic a) + coef q < 0 /\
  proximal a (AQuad q) = Ok p /\
  ~ is_argmin 1 (fun x => ext_add (doc_objective CL1 (Lagrange 1) [0] 0 [0] [0] 0 x)
                            (Fin (quad_fun (coef q) [1] [0] 0 x))) p.
Proof.
  exists (mk_atom CL1 1 (Some 1) None None (mk_iq 0 (FScal 0) (FScal 0) 0)), (mk_iq (-1) (FVec [1]) (FScal 0) 0), [2].
  split; [|split; [|split]].
  - simpl. destruct (Rlt_dec 1 0); auto; lra.
  - simpl. lra.
  - unfold proximal. cbn. destruct (Req_EM_T (0 + -1) 0); [lra|]. unfold l1_lagrange. cbn [map].
    f_equal. f_equal. 
    set (u := - _ / (0 + -1)). assert (u = 1) by (unfold u; field; lra). rewrite H.
    replace (1 / (0 + -1)) with (-1) by (field; lra). scal.
  - intros (_ & (r & Hr) & H). specialize (H [10] eq_refl). 
    unfold doc_objective, mode_fun, doc_seminorm, ext_scale, ext_add, ell1, quad_fun, sqn, dot in H. simpl in H.
    rewrite !Rabs_right in H by lra. lra.
Qed.

(** ** Modes (C10) *)


Lemma ctor_modes : forall c n l b o q,
  (exists a, new_atom c n l b o q = Ok a /\ one_mode a /\
     ((exists x, l = Some x /\ 0 <= x /\ b = None /\ a_lagrange a = Some x) \/ (exists x, b = Some x /\ 0 <= x /\ l = None /\ a_bound a = Some x)))
  \/ (new_atom c n l b o q = Err ValueError /\
      (l = None /\ b = None \/ (l <> None /\ b <> None) \/ (exists x, x < 0 /\ (l = Some x \/ b = Some x)))).
Proof.
  intros c n [l|] [b|] o q; unfold new_atom; simpl.
  - right. split; auto. right. left. split; discriminate.
  - destruct (Rlt_dec l 0).
    + right. split; auto. right. right. eauto.
    + left. eexists. split; [reflexivity|]. split.
      * left. exists l. auto.
      * left. exists l. repeat split; auto; lra.
  - destruct (Rlt_dec b 0).
    + right. split; auto. right. right. eauto.
    + left. eexists. split; [reflexivity|]. split.
      * right. exists b. auto.
      * right. exists b. repeat split; auto; lra.
  - right. split; auto.
Qed.

Lemma step_modes : forall a o, one_mode a -> real_op o ->
  let (a', e) := sn_step a o in
  one_mode a' /\ (in_lagrange a <-> in_lagrange a') /\
  (klass a', shape a', a_offset a', a_quadratic a') = (klass a, shape a, a_offset a, a_quadratic a) /\
  match o with
  | GetLagrange | GetBound => a' = a /\ e = None
  | SetLagrange v => if a_bound a then a' = a /\ e = Some AttributeError else e = None /\ a_lagrange a' = v
  | SetBound v => if a_lagrange a then a' = a /\ e = Some AttributeError else e = None /\ a_bound a' = v
  end.
Proof.
  intros [c n lg bd of q] o H Ho. unfold one_mode, in_lagrange in *. simpl in H.
  destruct H as [(l & -> & ->)|(b & -> & ->)]; destruct o as [| |[v|]|[v|]]; simpl in *; try tauto;
    repeat split; eauto; try congruence.
Qed.

Lemma run_modes : forall l a, one_mode a -> Forall real_op l ->
  one_mode (sn_run a l) /\ (in_lagrange a <-> in_lagrange (sn_run a l)) /\
  (klass (sn_run a l), shape (sn_run a l), a_offset (sn_run a l), a_quadratic (sn_run a l)) = (klass a, shape a, a_offset a, a_quadratic a).
Proof.
  induction l as [|o l IH]; intros a Ha Hl; simpl.
  - repeat split; auto.
  - inversion Hl; subst. pose proof (step_modes a o Ha H1) as S. destruct (sn_step a o) as [a' e]. simpl.
    destruct S as (S1 & S2 & S3 & _). destruct (IH a' S1 H2) as (I1 & I2 & I3).
    split; auto. split; [tauto|]. congruence.
Qed.

Lemma mode_none_breaks : exists a,
  new_atom CL1 1 (Some 1) None None None = Ok a /\
  ~ one_mode (sn_run a [SetLagrange None]) /\
  a_bound (sn_run a [SetLagrange None; SetBound (Some 2)]) = Some 2.
Proof.
  eexists. split.
  - simpl. destruct (Rlt_dec 1 0); [lra|]. reflexivity.
  - split; [|reflexivity]. intros [(l & H & _)|(b & H & _)]; discriminate.
Qed.
Lemma mode_negative_accepted : exists a,
  new_atom CL1 1 (Some 1) None None None = Ok a /\ a_lagrange (sn_run a [SetLagrange (Some (-1))]) = Some (-1).
Proof.
  eexists. split.
  - simpl. destruct (Rlt_dec 1 0); [lra|]. reflexivity.
  - reflexivity.
Qed.

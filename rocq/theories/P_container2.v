(** Proofs about containers: the proximal map. *)
From Coq Require Import Reals List Lra Lia Arith Bool.
From Verif Require Import M_affine SpecAffine P_affine M_loss M_smooth SpecSmooth P_smooth Vec Spec SpecConvex M_quad P_quad P_calc P_sep M_prox M_semi SpecAtom P_semi P_conj M_shift SpecBase P_shift M_afatom SpecCone M_cones P_cones M_fista SpecFista P_fista P_fista2 M_problem SpecProblem P_problem P_separable M_sconj SpecSconj P_sconj M_container SpecContainer P_dual P_container.
Import ListNotations.
Local Open Scope R_scope.

Lemma sum_quadratics_ok : forall n l q, sound_quad n q -> Forall (fun a => sound_quad n (s_quadratic a)) l ->
  exists s, sum_quadratics q l = Ok s /\ sound_quad n s /\ coef s = coef q + fold_right (fun a v => coef (s_quadratic a) + v) 0 l /\ forall x, length x = n -> q_denot n s x = q_denot n q x + quads_sum n l x.
Proof.
  intros n. induction l as [|a l IH]; intros q Sq F; cbn [sum_quadratics fold_right quads_sum].
  - exists q. repeat split; try apply Sq; try lra. intros. unfold quads_sum. cbn. lra.
  - destruct (add_quad n q (s_quadratic a)) as (s & E & S1 & S2 & K & _ & Dn); try apply Sq; try apply (Forall_inv F). destruct (IH s (Logic.conj S1 S2) (Forall_inv_tail F)) as (s' & E' & Ss & K' & Dn'). exists s'. rewrite E. cbn [rbind]. split; auto. split; auto. split; [lra|]. intros x Lx. rewrite Dn', Dn by auto. unfold quads_sum. cbn [fold_right]. lra.
Qed.
Lemma container_form : forall n smooths Gs Hs parts q0, sound_parts n smooths Gs Hs parts q0 -> exists S sq G H,
  (forall K, container_of n smooths parts q0 K <-> K = mk_container smooths parts S q0 sq (zeros (t_in (st_map S)))) /\ sound_quad n sq /\ coef sq = fold_right (fun a v => coef (s_quadratic a) + v) 0 smooths /\ (forall x, length x = n -> q_denot n sq x = quads_sum n smooths x) /\
  linear_map n (st_map S) /\ exact_obj (t_out (st_map S)) G (st_dual S) /\ (forall y, length y = t_out (st_map S) -> is_fenchel (t_out (st_map S)) G y (H y)) /\ (forall x, length x = n -> H (t_lin (st_map S) x) = parts_fun Hs parts x) /\ (forall u, length u = t_out (st_map S) -> G u = dual_fun Gs parts u) /\
  match st_kind S with
  | TIdentity => t_out (st_map S) = n /\ forall x, length x = n -> t_lin (st_map S) x = x
  | TSelector idx => t_out (st_map S) = length idx /\ legal_groups n [idx] /\ forall x, length x = n -> t_lin (st_map S) x = part_of x idx
  | TGeneral => True
  end /\ (st_kind S <> TGeneral -> exists A, st_primal S = Ok A /\ exact_obj (t_out (st_map S)) H A) /\ stacked_dual n parts = Ok S.
Proof.
  intros n smooths Gs Hs parts q0 (Hn & Ns & Np & X & Fq & Sq). destruct (stack_exact n Gs Hs parts X Np) as (S & G & H & E1 & E2 & E3 & E4 & E5 & Eg & E6 & E7). destruct (zero_quad_ok n) as [Z1 Z2]. destruct (sum_quadratics_ok n smooths zero_quad (Logic.conj Z1 Z2) Fq) as (sq & Eq & Ssq & Kq & Dq).
  exists S, sq, G, H. split; [|split; [exact Ssq|split; [rewrite Kq; cbn; lra|split; [intros x Lx; rewrite Dq, zero_quad_denot by auto; lra|split; [exact E2|repeat (split; auto)]]]]].
  assert (EK : new_container n smooths parts = Ok (mk_container smooths parts S no_quad sq (zeros (t_in (st_map S))))). { unfold new_container. destruct smooths as [|a l]; [congruence|]. destruct parts as [|p ps]; [congruence|]. cbn [rbind]. rewrite E1. cbn [rbind]. rewrite Eq. reflexivity. }
  intros K. unfold container_of. split; [intros (K0 & E0 & ->)|intros ->; eexists; split; [exact EK|reflexivity]]. rewrite EK in E0. apply Ok_inj in E0. subst K0. reflexivity.
Qed.
Lemma total_q_ok : forall n K q l, sound_quad n q -> sound_quad n (ct_quadratic K) -> sound_quad n (ct_smoothq K) -> coef (ct_smoothq K) = fold_right (fun a v => coef (s_quadratic a) + v) 0 l ->
  (forall x, length x = n -> q_denot n (ct_smoothq K) x = quads_sum n l x) ->
  exists t, total_q K q = Ok t /\ sound_quad n t /\ coef t = total_coef l (ct_quadratic K) q /\ (has_vec q -> has_vec t) /\ center t = FScal 0 /\ forall x, length x = n -> Fin (q_denot n t x) = total_fun n l (ct_quadratic K) q x.
Proof.
  intros n K q l S1 S2 S3 K3 D3. destruct (add_quad n q (ct_quadratic K)) as (t1 & E1 & A1 & B1 & K1 & V1 & D1); try apply S1; try apply S2. destruct (add_quad n t1 (ct_smoothq K)) as (t & E & A & B & Kt & V & D); auto; try apply S3.
  exists t. unfold total_q. rewrite E1. cbn [rbind]. split; auto. split; [split; auto|]. split; [unfold total_coef; lra|]. split; [auto|]. split; [cbn [q_add] in E; apply Ok_inj in E; subst t; reflexivity|]. intros x Lx. unfold total_fun. f_equal. rewrite D, D1, D3 by auto. lra.
Qed.
Lemma zero_curved : forall n t, (1 <= n)%nat -> sound_quad n t -> curved_obj n (fun _ => Fin 0) t (of_cone (zero_with n t)).
Proof.
  intros n t Hn [S C]. assert (W : base_wf n (c_base (zero_with n t))) by (split; [reflexivity|split; [intros o E; discriminate|exact S]]). assert (Q := cone_curved n (zero_with n t) Hn ltac:(discriminate) ltac:(discriminate) W C). cbn [c_base zero_with b_quadratic c_class] in Q.
  exact Q.
Qed.
(** The dual problem of the proximal step *)
Theorem container_dual : forall n smooths Gs Hs parts q0 K q, sound_parts n smooths Gs Hs parts q0 -> container_of n smooths parts q0 K -> sound_quad n q -> 0 < total_coef smooths q0 q ->
  exists D f g H, let T := dp_map D in let G := dual_fun Gs parts in ct_dual_problem K q = Ok D /\ T = st_map (ct_stack K) /\ linear_map n T /\ convex_ext (t_out T) G /\ (forall y, length y = t_out T -> is_fenchel (t_out T) G y (H y)) /\ (forall x, length x = n -> H (t_lin T x) = parts_fun Hs parts x) /\
    smooth_conjugate_of n (total_fun n smooths q0 q) (1 / total_coef smooths q0 q) f g /\ (forall u, length u = t_out T -> dp_primal D u = Ok (g (vopp (t_adj T u)))) /\
    forall lip Lo, 0 <= Lo -> opnorm_bound T Lo -> exact_problem (t_out T) (fun u => f (vopp (t_adj T u))) G (dp_composite D lip) /\ lipschitz_map (t_out T) (c_grad (dp_composite D lip)) (Lo * (1 / total_coef smooths q0 q)).
Proof.
  intros n smooths Gs Hs parts q0 K q SP CO Sq HL. destruct (container_form n smooths Gs Hs parts q0 SP) as (S & sq & G & H & EK & Ssq & Ksq & Dsq & LM & XG & FH & EH & EG & _). apply EK in CO. subst K. destruct SP as (Hn & _ & _ & _ & _ & Sq0).
  destruct (total_q_ok n (mk_container smooths parts S q0 sq (zeros (t_in (st_map S)))) q smooths) as (t & Et & St & Kt & _ & _ & Dt); auto. cbn [ct_quadratic] in *.
  destruct (own_sconj n (fun _ => Fin 0) t (of_cone (zero_with n t)) (zero_curved n t Hn St) ltac:(lra)) as (C & EC & EL & f & g & Ev & SC).
  assert (EN : t_in (st_map S) = n) by apply LM. exists (mk_dproblem (sc_eval C) (st_map S) (st_dual S)), f, g, H. cbv zeta. cbn [dp_map ct_stack].
  assert (SC' : smooth_conjugate_of n (total_fun n smooths q0 q) (1 / total_coef smooths q0 q) f g). { rewrite <- Kt, <- EL. eapply attains_ext; [|exact SC]. intros x Lx. rewrite <- Dt by auto. unfold plus_quad. cbn. f_equal. lra. }
  assert (HI : 0 <= 1 / total_coef smooths q0 q) by (apply Rlt_le, Rdiv_lt_0_compat; lra). assert (XG' : exact_obj (t_out (st_map S)) (dual_fun Gs parts) (st_dual S)) by (apply (exact_obj_ext _ G); auto).
  split; [unfold ct_dual_problem; rewrite Et; cbn [rbind ct_stack]; unfold cone_sconj; rewrite EN; cbn [zero_with c_base b_quadratic]; fold (zero_with n t); rewrite EC; reflexivity|].
  split; [reflexivity|]. split; [exact LM|]. split; [apply (eo_convex _ _ _ XG')|]. split; [intros y Ly; apply (is_fenchel_ext _ G); auto|]. split; [exact EH|]. split; [exact SC'|]. split.
  - intros u Lu. destruct LM as (TA & En & _). apply (dual_primal n f g); auto.
  - intros lip Lo H1 H2. destruct (dual_exact n _ _ f g (st_map S) _ (st_dual S) (sc_eval C) Lo lip Ev SC' HI LM XG' H1 H2) as (P1 & P2 & _ & _). auto.
Qed.

(** ** The returned point *)
Lemma point_diff : forall n z c l a L, length z = n -> length c = n -> length l = n -> length a = n -> vsub z (vsub (vsub c (vscal (/ L) l)) (vscal (/ L) a)) = vadd (vsub z c) (vscal (/ L) (vadd l a)).
Proof.
  induction n as [|n IH]; intros [|z0 z] [|c0 c] [|l0 l] [|a0 a] L H1 H2 H3 H4; try discriminate; [reflexivity|]. cbn. f_equal; [ring|]. apply IH; cbn in *; congruence.
Qed.
Lemma quad_point : forall n c l L gam a z, 0 < L -> length c = n -> length l = n -> length a = n -> length z = n ->
  let p := vsub (vsub c (vscal (/ L) l)) (vscal (/ L) a) in
  quad_fun L c l gam p + dot a p <= quad_fun L c l gam z + dot a z.
Proof.
  intros n c l L gam a z HL Lc Ll La Lz p. assert (Lp : length p = n) by (unfold p; vlen). assert (E := point_diff n z c l a L Lz Lc Ll La). fold p in E. assert (E2 := point_diff n p c l a L Lp Lc Ll La). fold p in E2.
  set (b := vadd l a) in *. assert (Lb : length b = n) by (unfold b; vlen). assert (Hi : / L * L = 1) by (field; lra).
  assert (Q1 : L / 2 * sqn (vsub z p) = L / 2 * sqn (vsub z c) + dot (vsub z c) b + / L / 2 * sqn b). { rewrite E, sqn_add, sqn_scal, dot_scal_r by vlen. field. lra. }
  assert (Q2 : L / 2 * sqn (vsub p p) = L / 2 * sqn (vsub p c) + dot (vsub p c) b + / L / 2 * sqn b). { rewrite E2, sqn_add, sqn_scal, dot_scal_r by vlen. field. lra. }
  replace (sqn (vsub p p)) with 0 in Q2. 2:{ unfold vsub. clear. induction p as [|x p IH]; [reflexivity|]. cbn [vzip]. rewrite sqn_cons, <- IH. lra. }
  rewrite (dot_comm (vsub z c)), dot_sub_r in Q1 by vlen. rewrite (dot_comm (vsub p c)), dot_sub_r in Q2 by vlen. unfold quad_fun. assert (Eb : forall y, length y = n -> dot b y = dot l y + dot a y) by (intros y Ly; unfold b; apply dot_add_l; congruence). rewrite !Eb in * by auto.
  assert (0 <= L / 2 * sqn (vsub z p)) by (apply Rmult_le_pos; [lra|apply sqn_nonneg]). lra.
Qed.
Theorem point_is_primal : forall n smooths Gs Hs parts q0 K c l gam L f g u, sound_parts n smooths Gs Hs parts q0 -> container_of n smooths parts q0 K -> 0 < L -> length c = n -> length l = n ->
  no_quadratic n q0 -> (forall x, length x = n -> quads_sum n smooths x = 0) -> let q := mk_iq L (FVec c) (FVec l) gam in
  smooth_conjugate_of n (total_fun n smooths q0 q) (1 / total_coef smooths q0 q) f g -> length u = t_out (st_map (ct_stack K)) ->
  ct_point K q u = Ok (g (vopp (t_adj (st_map (ct_stack K)) u))).
Proof.
  intros n smooths Gs Hs parts q0 K c l gam L f g u SP CO HL Lc Ll Z0 Zs q SC Lu. destruct (container_form n smooths Gs Hs parts q0 SP) as (S & sq & G & H & EK & Ssq & Ksq & Dsq & LM & _). apply EK in CO. subst K. cbn [ct_stack] in *. set (T := st_map S) in *. destruct LM as (TA & En & _).
  assert (La : length (t_adj T u) = n) by (destruct TA as (_ & A2 & _); rewrite A2; auto). set (w := vopp (t_adj T u)). assert (Lw : length w = n) by (unfold w; rewrite vopp_length; auto).
  assert (Ed : t_adj T (map (fun a => a / L) u) = vscal (/ L) (t_adj T u)). { replace (map (fun a => a / L) u) with (vscal (/ L) u) by (unfold vscal; apply map_ext; intros; unfold Rdiv; ring). destruct TA as (A1 & A2 & A3). destruct (adjoint_linear (mk_transform (t_adj T) (t_adj T) (t_lin T) (t_off T) (t_out T) (t_in T))) as [_ B2]. { split; [exact A2|split; [exact A1|]]. intros x y Lx Ly. cbn [t_lin t_adj t_in t_out] in *. rewrite dot_comm, <- A3 by auto. apply dot_comm. } cbn [t_lin t_in] in B2. apply B2. auto. }
  unfold ct_point. cbn [ct_stack center linear_term coef q fop fscale]. fold T. rewrite Ed. cbn [fop]. f_equal. change (vsub (vsub c (vscal (/ L) l)) (vscal (/ L) (t_adj T u)) = g w). set (p := vsub (vsub c _) _). assert (Lp : length p = n) by (unfold p; vlen).
  destruct SC as (At & _). destruct (At w Lw) as ([F1 _] & Lg & Kg & Ug). apply Ug; auto.
  assert (TF : forall z, length z = n -> total_fun n smooths q0 q z = Fin (quad_fun L c l gam z)). { intros z Lz. unfold total_fun. rewrite Z0, Zs by auto. f_equal. unfold q_denot, q. cbn [coef center linear_term constant_term fbcast]. lra. }
  rewrite TF in * by auto. f_equal. assert (B1 := F1 p _ Lp (TF p Lp)). assert (B2 := quad_point n c l L gam (t_adj T u) (g w) HL Lc Ll La Lg). cbv zeta in B2. fold p in B2.
  assert (W : forall z, length z = n -> dot w z = - dot (t_adj T u) z). { intros z Lz. unfold w. rewrite dot_comm, dot_opp_r, dot_comm. reflexivity. }
  assert (Kg' : quad_fun L c l gam (g w) = dot w (g w) - f w) by congruence. rewrite !W in * by auto. lra.
Qed.
(** A minimizer of the dual gives the proximal point; any dual point gives it up to the duality gap. *)
Theorem container_recovers : forall n smooths Gs Hs parts q0 K c l gam L, sound_parts n smooths Gs Hs parts q0 -> container_of n smooths parts q0 K -> 0 < L -> length c = n -> length l = n ->
  no_quadratic n q0 -> (forall x, length x = n -> quads_sum n smooths x = 0) -> total_coef smooths q0 (mk_iq L (FVec c) (FVec l) gam) = L -> let q := mk_iq L (FVec c) (FVec l) gam in
  exists D F, let T := dp_map D in ct_dual_problem K q = Ok D /\ T = st_map (ct_stack K) /\ (forall u, length u = t_out T -> is_fenchel n (fun x => Fin (q_denot n q x)) (vopp (t_adj T u)) (Fin (F u))) /\
    (forall lip Lo, 0 <= Lo -> opnorm_bound T Lo -> exact_problem (t_out T) F (dual_fun Gs parts) (dp_composite D lip) /\ lipschitz_map (t_out T) (c_grad (dp_composite D lip)) (Lo / L)) /\
    (forall u, is_argmin (t_out T) (objective F (dual_fun Gs parts)) u -> exists v, ct_point K q u = Ok v /\ is_unique_argmin n (plus_quad n (parts_fun Hs parts) q) v) /\
    (forall u r v0 p, length u = t_out T -> objective F (dual_fun Gs parts) u = Fin r -> length v0 = n -> plus_quad n (parts_fun Hs parts) q v0 = Fin p -> exists v, ct_point K q u = Ok v /\ L / 2 * sqn (vsub v0 v) <= r + p) /\
    (forall u r v0 p, is_argmin (t_out T) (objective F (dual_fun Gs parts)) u -> objective F (dual_fun Gs parts) u = Fin r -> is_argmin n (plus_quad n (parts_fun Hs parts) q) v0 -> plus_quad n (parts_fun Hs parts) q v0 = Fin p -> r + p = 0).
Proof.
  intros n smooths Gs Hs parts q0 K c l gam L SP CO HL Lc Ll Z0 Zs TC q. assert (Sq : sound_quad n q) by (split; [split; auto|exact I]).
  destruct (container_dual n smooths Gs Hs parts q0 K q SP CO Sq ltac:(fold q in TC; lra)) as (D & f & g & H & ED & ET & LM & CG & FH & EH & SC & _ & EX). fold q in TC. exists D, (fun u => f (vopp (t_adj (dp_map D) u))). cbv zeta in *. set (T := dp_map D) in *.
  assert (TF : forall x, length x = n -> total_fun n smooths q0 q x = Fin (q_denot n q x)) by (intros x Lx; unfold total_fun; rewrite Z0, Zs by auto; f_equal; lra).
  assert (TA : true_adjoint T) by apply LM. assert (En : t_in T = n) by apply LM. assert (La : forall u, length u = t_out T -> length (vopp (t_adj T u)) = n) by (intros u Lu; rewrite vopp_length; destruct TA as (_ & A2 & _); rewrite A2; auto).
  assert (PE : forall x, length x = n -> primal_fun (total_fun n smooths q0 q) T H x = plus_quad n (parts_fun Hs parts) q x). { intros x Lx. unfold primal_fun, plus_quad. rewrite TF, EH by auto. destruct (parts_fun Hs parts x); cbn; auto. f_equal. lra. }
  assert (PT : forall u, length u = t_out T -> ct_point K q u = Ok (g (vopp (t_adj T u)))). { intros u Lu. rewrite ET in *. apply (point_is_primal n smooths Gs Hs parts q0 K c l gam L f g u); auto. }
  split; [exact ED|]. split; [exact ET|]. split; [|split; [|split; [|split]]].
  - intros u Lu. destruct SC as (At & _). destruct (At _ (La u Lu)) as (Fk & _). eapply is_fenchel_ext; [exact TF|exact Fk].
  - intros lip Lo H1 H2. rewrite TC in EX. destruct (EX lip Lo H1 H2) as [X1 X2]. split; auto. replace (Lo / L) with (Lo * (1 / L)) by (field; lra). exact X2.
  - intros u M. assert (M' := M). destruct M' as (Lu & (r & Er) & _). exists (g (vopp (t_adj T u))). split; [apply PT; auto|]. destruct (dual_recovers n _ _ f g T _ H SC TA En CG FH u r M Er) as [[(U0 & (r1 & U1) & U2) U3] _]. split; [split; auto; split; [exists r1; rewrite <- PE; auto|]|].
    + intros v Lv. rewrite <- !PE by auto. apply U2; auto.
    + intros v Lv Hv. apply U3; auto. rewrite !PE by auto. exact Hv.
  - intros u r v0 p Lu Er Lv Ev. exists (g (vopp (t_adj T u))). split; [apply PT; auto|]. unfold objective in Er. destruct (dual_fun Gs parts u) as [gu|] eqn:Eu; [|discriminate]. cbn in Er. assert (Er' : r = f (vopp (t_adj T u)) + gu) by congruence.
    assert (Q := dual_accuracy n _ _ f g T _ H SC TA En FH (fun _ => Fin 0) q u gu v0 p). cbn [coef q] in Q. rewrite Er'. assert (QQ : L / 2 * sqn (vsub v0 (g (vopp (t_adj T u)))) <= p + (f (vopp (t_adj T u)) + gu)); [|lra]. apply Q; auto.
    + intros x y t a b _ _ _ Ea Eb. assert (a = 0) by congruence. assert (b = 0) by congruence. subst a b. cbn. lra.
    + apply Sq.
    + intros x Lx. rewrite TF by auto. unfold plus_quad. cbn. f_equal. lra.
    + rewrite PE; auto.
  - intros u r v0 p M Er M0 E0. destruct (dual_recovers n _ _ f g T _ H SC TA En CG FH u r M Er) as [[(U0 & _ & U2) _] UV]. assert (M0' := M0). destruct M0' as (L0 & _ & M0'). specialize (M0' _ U0). specialize (U2 v0 L0). rewrite <- !PE in * by auto. rewrite E0, UV in *. cbn in *. lra.
Qed.

(** Proofs about quadratic_loss: constructors and conjugate. *)
From Coq Require Import Reals List Arith Lia Lra Bool Psatz.
From Verif Require Import Vec Spec M_quad P_quad M_affine SpecAffine P_affine M_loss SpecLoss M_smooth SpecSmooth M_shift SpecBase SpecCone M_cones M_problem SpecProblem P_problem SpecConvex M_sconj SpecSconj P_sconj P_loss3 P_smooth M_qconj SpecQconj P_sep P_hsvm2.
Import ListNotations.
Local Open Scope R_scope.

Lemma norm_offset_minus : forall n off x, off_fits n off -> length x = n -> minus x (norm_offset off) = minus x off.
Proof.
  intros n [o|] x H Lx; [|reflexivity]. cbn in *. unfold norm_offset. destruct (M_quad.all_zero o) eqn:E; auto. cbn. apply -> P_quad.all_zero_spec in E. assert (Z : vsub x (zeros n) = x) by (apply Vec.vsub_zeros_r; auto). rewrite H in E. rewrite E. auto.
Qed.
Lemma norm_offset_fits : forall n off, off_fits n off -> off_fits n (norm_offset off).
Proof. intros n [o|] H; cbn in *; auto. destruct (M_quad.all_zero o); cbn; auto. Qed.
Lemma conj_spec_plain : forall n c off q L factor, (1 <= n)%nat -> off_fits n off -> q_shape n q -> center_ok n q -> 0 < c + coef q -> new_qloss n QNone c off (Some q) = Ok L ->
  exists C f g, ql_conjugate L factor = Ok C /\ sc_lipschitz C = 1 / (c + coef q) /\ evaluates n (sc_eval C) f g /\ smooth_conjugate_of n (full_quad n c off q) (1 / (c + coef q)) f g.
Proof.
  intros n c off q L factor Hn Ho Sq Cq Hc E. unfold new_qloss in E. destruct (Rlt_dec c 0); [discriminate|]. injection E as <-. unfold ql_conjugate. cbn [ql_Q ql_coef ql_offset ql_quadratic ql_shape].
  set (q1 := mk_iq c (match norm_offset off with Some o => FVec o | None => FNone end) (FScal 0) 0).
  assert (S1 : q_shape n q1). { split; [|exact Logic.I]. unfold q1. cbn [M_quad.center]. assert (F := norm_offset_fits n off Ho). destruct (norm_offset off); cbn in *; auto. }
  assert (C1 : center_ok n q1). { unfold center_ok, q1. cbn [M_quad.center]. destruct (norm_offset off); auto. }
  destruct (add_quad n q1 q S1 Sq C1 Cq) as (t & Et & St & Ct & Kt & _ & Dt). rewrite Et. cbn [rbind].
  set (k := new_cone KZero n None (Some (collapsed t))). assert (W : base_wf n (c_base k)). { split; [reflexivity|]. split; [discriminate|]. cbn. apply collapsed_shape; auto. }
  assert (CC : center_ok n (b_quadratic (c_base k))) by (cbn; left; auto).
  assert (CV := cone_curved n k Hn ltac:(discriminate) ltac:(discriminate) W CC).
  assert (KC : coef (b_quadratic (c_base k)) = c + coef q) by exact Kt. destruct (own_sconj n _ _ _ CV ltac:(rewrite KC; auto)) as (C & EC & EL & f & g & Ev & S). rewrite KC in EL.
  exists C, f, g. split; [exact EC|]. split; [exact EL|]. split; auto. rewrite EL in S.
  assert (EQ : forall v, length v = n -> plus_quad n (fun x => cone_fun (c_class k) (vsub x (base_off n (c_base k)))) (b_quadratic (c_base k)) v = full_quad n c off q v).
  { intros v Lv. unfold plus_quad, full_quad. cbn [c_class k new_cone]. unfold cone_fun. destruct (in_cone_dec KZero _) as [Z|Z]; [|exfalso; apply Z; exact Logic.I]. cbn [ext_add]. f_equal. cbn [b_quadratic c_base k new_cone new_base]. rewrite collapsed_denot by auto. rewrite Dt by auto. rewrite Rplus_0_l. f_equal.
    unfold q1, q_denot, quad_fun. cbn [coef M_quad.center linear_term constant_term fbcast]. replace (const_vec n 0) with (zeros n) by reflexivity. rewrite (dot_comm (zeros n)), dot_zeros_r.
    rewrite <- (norm_offset_minus n off v Ho Lv). destruct (norm_offset off); cbn [minus fbcast]; rewrite ?Vec.vsub_zeros_r by auto; lra. }
  destruct S as (At & Cv & Gr & Lp). split; [|auto]. intros x Lx. destruct (At x Lx) as (A1 & A2 & A3 & A4). split; [|split; [auto|split]].
  - eapply P_conj.is_fenchel_ext; [|exact A1]. intros v Lv. apply EQ; auto.
  - rewrite <- EQ by auto. exact A3.
  - intros v Lv Ev'. apply A4; auto. rewrite EQ by auto. exact Ev'.
Qed.
Lemma fenchel_unique : forall n F u a b, is_fenchel n F u (Fin a) -> is_fenchel n F u (Fin b) -> a = b.
Proof.
  intros n F u a b (A1 & A2) (B1 & B2). apply Rle_antisym; apply Rnot_lt_le; intros C.
  - destruct (A2 (a - b) ltac:(lra)) as (x & r & Lx & Er & H). specialize (B1 x r Lx Er). lra.
  - destruct (B2 (b - a) ltac:(lra)) as (x & r & Lx & Er & H). specialize (A1 x r Lx Er). lra.
Qed.
(** |u|^2 / (2c) + <u, off>, attained at off + u/c *)
Lemma plain_closed : forall n c off q L f g u, 0 < c -> off_fits n off -> (forall v, length v = n -> q_denot n q v = 0) -> smooth_conjugate_of n (full_quad n c off q) L f g -> length u = n ->
  f u = sqn u / (2 * c) + dot u (SpecAtom.off_vec n off) /\ g u = vadd (vscal (1 / c) u) (SpecAtom.off_vec n off).
Proof.
  intros n c off q L f g u Hc Ho Hq (At & _) Lu. destruct (At u Lu) as (A1 & A2 & A3 & A4). set (o := SpecAtom.off_vec n off). assert (Lo : length o = n) by (unfold o; destruct off; cbn in *; vlen). 
  assert (ME : forall v, length v = n -> minus v off = vsub v o) by (intros v Lv; unfold o; destruct off; cbn; [auto|rewrite Vec.vsub_zeros_r; auto]).
  set (w := vadd (vscal (1 / c) u) o). assert (Lw : length w = n) by (unfold w; vlen).
  assert (FQ : forall v, length v = n -> full_quad n c off q v = Fin (c / 2 * sqn (vsub v o))) by (intros v Lv; unfold full_quad; rewrite Hq, ME by auto; f_equal; lra).
  assert (VW : dot u w - c / 2 * sqn (vsub w o) = sqn u / (2 * c) + dot u o).
  { unfold w. rewrite (Vec.vsub_vadd (vscal (1 / c) u) o) by vlen. rewrite dot_add_r by vlen. rewrite dot_scal_r, sqn_scal. fold (sqn u). field. lra. }
  assert (F : is_fenchel n (full_quad n c off q) u (Fin (sqn u / (2 * c) + dot u o))).
  { split.
    - intros v r Lv Er. rewrite FQ in Er by auto. injection Er as <-. set (d := vsub v o). assert (Ld : length d = n) by (unfold d; vlen). assert (E : dot u v = dot u d + dot u o) by (unfold d; rewrite dot_sub_r by vlen; lra). rewrite E.
      assert (N := sqn_nonneg (vsub d (vscal (1 / c) u))). rewrite sqn_sub, sqn_scal, dot_scal_r, (dot_comm d u) in N by vlen.
      assert (K : c / 2 * (sqn d + 1 / c * (1 / c) * sqn u - 2 * (1 / c * dot u d)) = c / 2 * sqn d + sqn u / (2 * c) - dot u d) by (field; lra). nra.
    - intros e He. exists w, (c / 2 * sqn (vsub w o)). split; auto. split; [apply FQ; auto|]. lra. }
  assert (E := fenchel_unique _ _ _ _ _ A1 F). split; auto. symmetry. apply A4; auto. rewrite FQ by auto. f_equal. rewrite E. lra.
Qed.
(** ** The constructors *)
Lemma sub_minus : forall off x, sub_offset off x = minus x off.
Proof. intros [o|] x; reflexivity. Qed.
Lemma eval_of : forall n Q c off q L, off_fits n off -> new_qloss n Q c off q = Ok L ->
  ql_shape L = n /\ ql_quadratic L = (match q with Some q => q | None => no_quad end) /\ 0 <= c /\
  evaluates n (ql_eval L) (fun x => c / 2 * dot (minus x off) (apply_Q (option_map t_lin (q_transform Q)) (minus x off))) (fun x => vscal c (apply_Q (option_map t_lin (q_transform Q)) (minus x off))).
Proof.
  intros n Q c off q L Ho E. assert (EL : L = mk_qloss n Q c (norm_offset off) (match q with Some q => q | None => no_quad end) /\ 0 <= c).
  { unfold new_qloss in E. destruct (Rlt_dec c 0); [discriminate|]. split; [|lra]. destruct Q; try (injection E as <-; reflexivity). destruct (t_off T); [injection E as <-; reflexivity|discriminate]. }
  destruct EL as [-> Hc]. split; auto. split; auto. split; auto. intros x Lx. unfold ql_eval, ql_map. cbn [ql_Q ql_coef ql_offset].
  assert (F : quad_func (option_map t_lin (q_transform Q)) c (norm_offset off) x = c / 2 * dot (minus x off) (apply_Q (option_map t_lin (q_transform Q)) (minus x off))) by (rewrite quad_value, (norm_offset_minus n) by auto; reflexivity).
  assert (G : quad_grad (option_map t_lin (q_transform Q)) c (norm_offset off) x = vscal c (apply_Q (option_map t_lin (q_transform Q)) (minus x off))).
  { unfold quad_grad. rewrite sub_minus, (norm_offset_minus n) by auto. destruct (option_map t_lin (q_transform Q)); cbn [apply_Q]; apply P_loss.vscale_eq. }
  rewrite F, G. auto.
Qed.
Lemma transposed_symmetric : forall T, true_adjoint T -> symmetric_map (t_in T) (fun x => t_adj T (t_lin T x)).
Proof.
  intros T A. assert (A' : true_adjoint (adjoint T)). { destruct A as (A1 & A2 & A3). split; [exact A2|]. split; [exact A1|]. intros u x Lu Lx. cbn [t_in t_out t_lin t_adj adjoint] in *. rewrite dot_comm, <- A3 by auto. apply dot_comm. }
  destruct (adjoint_linear T A) as [L1 L2]. destruct (adjoint_linear _ A') as [M1 M2]. cbn in M1, M2. destruct A as (A1 & A2 & A3). split; [auto|]. split; [|split].
  - intros x y Lx Ly. rewrite L1, M1 by auto. auto.
  - intros a x Lx. rewrite L2, M2 by auto. auto.
  - intros x y Lx Ly. rewrite dot_comm, <- !A3 by auto. apply dot_comm.
Qed.
Lemma gradient_fits : forall n Q c off f, (match Q with Some Q => symmetric_map n Q | None => True end) -> off_fits n off -> (forall x, length x = n -> f x = c / 2 * dot (minus x off) (apply_Q Q (minus x off))) ->
  gradient_of n f (fun x => vscal c (apply_Q Q (minus x off))).
Proof.
  intros n Q c off f Hs Ho Hf x Lx. destruct (quad_gradient n Q c off x Hs Ho Lx) as [Lg G]. assert (E : quad_grad Q c off x = vscal c (apply_Q Q (minus x off))) by (unfold quad_grad; rewrite sub_minus; destruct Q; cbn [apply_Q]; apply P_loss.vscale_eq). rewrite E in *.
  split; auto. intros d Ld. eapply derivable_pt_lim_ext_eq; [|exact (G d Ld)]. intros t. cbn beta. rewrite quad_value, Hf by vlen. auto.
Qed.
Lemma evaluates_ext : forall n ev f f' g g', evaluates n ev f g -> (forall x, length x = n -> f x = f' x) -> (forall x, length x = n -> g x = g' x) -> evaluates n ev f' g'.
Proof. intros n ev f f' g g' H F G x Lx. rewrite <- F, <- G by auto. apply H; auto. Qed.
Lemma minus_length : forall n x off, length x = n -> off_fits n off -> length (minus x off) = n.
Proof. intros n x [o|] Lx Ho; cbn in *; auto. vlen. Qed.
Theorem fromarray_spec : forall D off q, square_array D -> off_fits (length D) off ->
  exists L, ql_fromarray D off q = Ok L /\ evaluates (length D) (ql_eval L) (fun x => 1 / 2 * dot (minus x off) (mat_vec D (minus x off))) (fun x => mat_vec D (minus x off)) /\
    ((forall x y, length x = length D -> length y = length D -> dot (mat_vec D x) y = dot x (mat_vec D y)) ->
     gradient_of (length D) (fun x => 1 / 2 * dot (minus x off) (mat_vec D (minus x off))) (fun x => mat_vec D (minus x off))).
Proof.
  intros D off q HD Ho. unfold ql_fromarray. destruct (new_qloss (length D) (QArray D) 1 off q) as [L|e] eqn:E.
  - exists L. split; auto. destruct (eval_of _ _ _ _ _ _ Ho E) as (_ & _ & _ & Ev). split.
    + eapply evaluates_ext; [exact Ev|auto|]. intros x Lx. cbn beta. rewrite vscal_1. reflexivity.
    + intros Sy. assert (G := good_matrix D (length D) None HD ltac:(discriminate)). assert (A : true_adjoint (matrix D (length D) None)) by apply G. destruct (adjoint_linear _ A) as [L1 L2]. destruct A as (A1 & _). cbn in *.
      assert (SM : symmetric_map (length D) (mat_vec D)) by (repeat split; auto). intros x Lx. assert (GR := gradient_fits (length D) (Some (mat_vec D)) 1 off _ SM Ho (fun _ _ => eq_refl) x Lx). cbn beta in GR. rewrite vscal_1 in GR. exact GR.
  - exfalso. unfold new_qloss in E. destruct (Rlt_dec 1 0); [lra|discriminate].
Qed.
Theorem diagonal_spec : forall d off q, off_fits (length d) off ->
  exists L, ql_diagonal d off q = Ok L /\ let F := fun x => 1 / 2 * sum_over (length d) (fun i => nth i d 0 * (nth i (minus x off) 0 * nth i (minus x off) 0)) in
    evaluates (length d) (ql_eval L) F (fun x => vmul d (minus x off)) /\ gradient_of (length d) F (fun x => vmul d (minus x off)).
Proof.
  intros d off q Ho. unfold ql_diagonal. destruct (new_qloss (length d) (QDiag d) 1 off q) as [L|e] eqn:E.
  - exists L. split; auto. cbn zeta. destruct (eval_of _ _ _ _ _ _ Ho E) as (_ & _ & _ & Ev). cbn [q_transform option_map t_lin scaler apply_Q] in Ev.
    assert (V : forall x, length x = length d -> dot (minus x off) (vmul d (minus x off)) = sum_over (length d) (fun i => nth i d 0 * (nth i (minus x off) 0 * nth i (minus x off) 0))).
    { intros x Lx. assert (Lm := minus_length _ x off Lx Ho). unfold dot. rewrite P_hsvm2.vsum_nth. unfold vmul. rewrite vzip_length by (rewrite vzip_length by auto; auto). rewrite Lm. apply P_hsvm2.sum_over_eq. intros i Hi. rewrite (P_sep.nth_zip0 _ _ _ (length d)) by (auto; apply vzip_length; auto). rewrite (P_sep.nth_zip0 _ _ _ (length d)) by auto. ring. }
    split.
    + eapply evaluates_ext; [exact Ev| |]; intros x Lx; cbn beta; [rewrite V by auto; auto|rewrite vscal_1; auto].
    + assert (SM : symmetric_map (length d) (vmul d)).
      { assert (G := good_diagonal d None ltac:(discriminate)). assert (A : true_adjoint (diagonal d None)) by apply G. destruct (adjoint_linear _ A) as [L1 L2]. destruct A as (A1 & _ & A3). cbn in *. repeat split; auto. }
      intros x Lx. assert (GR := gradient_fits (length d) (Some (vmul d)) 1 off (fun x => 1 / 2 * sum_over (length d) (fun i => nth i d 0 * (nth i (minus x off) 0 * nth i (minus x off) 0))) SM Ho ltac:(intros y Ly; cbn [apply_Q]; rewrite (V y Ly); reflexivity) x Lx). cbn beta in GR. rewrite vscal_1 in GR. exact GR.
  - exfalso. unfold new_qloss in E. destruct (Rlt_dec 1 0); [lra|discriminate].
Qed.
Theorem squared_spec : forall T off q, true_adjoint T -> off_fits (t_in T) off ->
  exists L, ql_squared T off q = Ok L /\ let F := fun x => 1 / 2 * sqn (t_lin T (minus x off)) in let G := fun x => t_adj T (t_lin T (minus x off)) in
    evaluates (t_in T) (ql_eval L) F G /\ gradient_of (t_in T) F G.
Proof.
  intros T off q A Ho. unfold ql_squared. cbn [composition rbind]. cbn [last t_in].
  match goal with |- context[new_qloss ?n ?Q 1 off q] => destruct (new_qloss n Q 1 off q) as [L|e] eqn:E end.
  - exists L. split; auto. cbn zeta. destruct (eval_of _ _ _ _ _ _ Ho E) as (_ & _ & _ & Ev). cbn [q_transform option_map t_lin wrap apply_Q run_right fold_right adjoint] in Ev.
    assert (V : forall x, length x = t_in T -> dot (minus x off) (t_adj T (t_lin T (minus x off))) = sqn (t_lin T (minus x off))). { intros x Lx. assert (Lm := minus_length _ x off Lx Ho). destruct A as (A1 & A2 & A3). rewrite <- A3 by auto. reflexivity. }
    split.
    + eapply evaluates_ext; [exact Ev| |]; intros x Lx; cbn beta; [rewrite V by auto; auto|rewrite vscal_1; auto].
    + intros x Lx. assert (GR := gradient_fits (t_in T) (Some (fun x => t_adj T (t_lin T x))) 1 off (fun x => 1 / 2 * sqn (t_lin T (minus x off))) (transposed_symmetric T A) Ho ltac:(intros y Ly; cbn [apply_Q]; rewrite V by auto; reflexivity) x Lx). cbn beta in GR. rewrite vscal_1 in GR. exact GR.
  - exfalso. unfold new_qloss in E. destruct (Rlt_dec 1 0); [lra|discriminate].
Qed.
Theorem signal_spec : forall signal c, 0 <= c -> exists L, signal_approximator signal c = Ok L /\
  evaluates (length signal) (ql_eval L) (fun x => c / 2 * sqn (vsub x signal)) (fun x => vscal c (vsub x signal)) /\ gradient_of (length signal) (fun x => c / 2 * sqn (vsub x signal)) (fun x => vscal c (vsub x signal)).
Proof.
  intros signal c Hc. unfold signal_approximator. destruct (new_qloss (length signal) QNone c (Some signal) None) as [L|e] eqn:E.
  - exists L. split; auto. assert (Ho : off_fits (length signal) (Some signal)) by reflexivity. destruct (eval_of _ _ _ _ _ _ Ho E) as (_ & _ & _ & Ev). split; [exact Ev|]. exact (gradient_fits (length signal) None c (Some signal) _ Logic.I Ho (fun _ _ => eq_refl)).
  - exfalso. unfold new_qloss in E. destruct (Rlt_dec c 0); [lra|discriminate].
Qed.
Theorem no_conjugate_with_Q : forall n Q c off q L factor, Q <> QNone -> new_qloss n Q c off q = Ok L -> exists e, ql_conjugate L factor = Err e.
Proof.
  intros n Q c off q L factor HQ E. unfold new_qloss in E. destruct (Rlt_dec c 0); [discriminate|]. unfold ql_conjugate. destruct Q; [tauto| | |].
  - injection E as <-. cbn. destruct factor; eauto.
  - destruct (t_off T); [|discriminate]. injection E as <-. cbn. destruct factor; eauto.
  - injection E as <-. cbn. eauto.
Qed.
Theorem flat_conjugate : forall n c off q L factor, off_fits n off -> q_shape n q -> center_ok n q -> c + coef q = 0 -> new_qloss n QNone c off (Some q) = Ok L -> ql_conjugate L factor = Err ValueError.
Proof.
  intros n c off q L factor Ho Sq Cq Hc E. unfold new_qloss in E. destruct (Rlt_dec c 0); [discriminate|]. injection E as <-. unfold ql_conjugate. cbn [ql_Q ql_coef ql_offset ql_quadratic ql_shape].
  set (q1 := mk_iq c (match norm_offset off with Some o => FVec o | None => FNone end) (FScal 0) 0).
  assert (S1 : q_shape n q1). { split; [|exact Logic.I]. unfold q1. cbn [M_quad.center]. assert (F := norm_offset_fits n off Ho). destruct (norm_offset off); cbn in *; auto. }
  assert (C1 : center_ok n q1). { unfold center_ok, q1. cbn [M_quad.center]. destruct (norm_offset off); auto. }
  destruct (add_quad n q1 q S1 Sq C1 Cq) as (t & Et & St & Ct & Kt & _ & Dt). rewrite Et. cbn [rbind]. unfold cone_sconj.
  assert (KT : coef (collapsed t) = 0) by (cbn; rewrite Kt; exact Hc).
  destruct (needs_curvature n (collapsed t) no_quad (of_cone (new_cone KZero n None (Some (collapsed t)))) false (collapsed_shape n t St) ltac:(split; exact Logic.I) ltac:(left; reflexivity) ltac:(left; reflexivity) ltac:(rewrite KT; cbn; lra)) as [H _]. exact H.
Qed.
Lemma drops_shift : let T := matrix [[1]] 1 (Some [1]) in exists L v, ql_squared T None None = Ok L /\ ql_eval L [0] EvFunc = Ok (VFunc v) /\ v <> 1 / 2 * sqn (t_aff T [0]).
Proof.
  cbn zeta. set (T := matrix [[1]] 1 (Some [1])). assert (A : true_adjoint T) by (apply (good_matrix [[1]] 1 (Some [1])); [repeat constructor|intros a E; injection E as <-; reflexivity]).
  destruct (squared_spec T None None A Logic.I) as (L & E & Ev & _). exists L, (1 / 2 * sqn (t_lin T [0])). split; auto. split; [apply (Ev [0] eq_refl)|]. cbn. unfold sqn, dot. cbn. lra.
Qed.
Theorem transform_spec : forall T b c off q n, t_off T = Some b -> 0 <= c -> off_fits n off ->
  exists L, new_qloss n (QMap T) c off q = Ok L /\ evaluates n (ql_eval L) (fun x => c / 2 * dot (minus x off) (t_lin T (minus x off))) (fun x => vscal c (t_lin T (minus x off))).
Proof.
  intros T b c off q n E0 Hc Ho. destruct (new_qloss n (QMap T) c off q) as [L|e] eqn:E.
  - exists L. split; auto. destruct (eval_of _ _ _ _ _ _ Ho E) as (_ & _ & _ & Ev). exact Ev.
  - exfalso. unfold new_qloss in E. rewrite E0 in E. destruct (Rlt_dec c 0); [lra|discriminate].
Qed.

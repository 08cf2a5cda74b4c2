(** sparse_group_lasso.py: objects and gauge_function_dual. *)
From Coq Require Import Reals List Lra Lia Psatz Bool ZArith.
From Verif Require Import Vec Spec M_quad M_prox M_semi SpecAtom M_shift SpecBase SpecMode M_mode SpecModed SpecWeighted SpecPart SpecGroup M_mixed M_weighted M_group M_mixed_atom SpecGatom SpecLinear SpecSgl M_sgl SpecSglObj
  P_quad P_prox P_semi P_conj P_shift P_gauge P_weighted P_part P_mixed P_kinds P_group P_group2 P_linear P_sgl P_search P_sgl2 P_sgl3.
Import ListNotations.
Local Open Scope R_scope.

(** ** The penalty is a gauge *)
Lemma glasso_gauge : forall labels given n, length labels = n -> weights_nonneg labels given -> gauge n (glasso labels (group_weight given labels)).
Proof. intros labels given n Ln Hw. apply (po_gauge _ _ _ (proj1 (gfun_polar labels given n Ln Hw))). Qed.
Lemma sparse_gauge : forall labels lw given n, length labels = n -> Forall weight_legal lw -> weights_nonneg labels given -> gauge n (sparse_group labels lw (group_weight given labels)).
Proof.
  intros labels lw given n Ln Hl Hw. pose proof (glasso_gauge labels given n Ln Hw) as [A B C]. pose proof (wl1_gauge n lw Hl) as [A' B' C']. constructor; unfold sparse_group.
  - intros x r Lx E. destruct (wl1 lw x) as [s|] eqn:E1; [|discriminate]. destruct (glasso labels _ x) as [t|] eqn:E2; [|discriminate]. injection E as <-. specialize (A x t Lx E2). specialize (A' x s Lx E1). lra.
  - intros t x r Lx Ht E. destruct (wl1 lw x) as [s|] eqn:E1; [|discriminate]. destruct (glasso labels _ x) as [z|] eqn:E2; [|discriminate]. injection E as <-. rewrite (B t x z), (B' t x s) by auto. simpl. f_equal. ring.
  - rewrite C, C'. simpl. f_equal. ring.
Qed.
Lemma pcert_scale : forall n P t x p, gauge n P -> 0 < t -> length x = n -> pcert n P 1 (map (fun a => a / t) x) p -> pcert n P t x (vscal t p).
Proof.
  intros n P t x p G Ht Lx (_ & Lp & r & Er & H1 & H2). assert (E : x = vscal t (map (fun a => a / t) x)).
  { unfold vscal. rewrite map_map. rewrite <- map_id at 1. apply map_ext. intros. field. lra. }
  set (y := map (fun a => a / t) x) in *. assert (Ly : length y = n) by (unfold y; rewrite map_length; auto).
  split; auto. split; [vlen|]. exists (t * r). split; [apply (ga_scal _ _ G); auto; lra|].
  assert (S : vsub x (vscal t p) = vscal t (vsub y p)).
  { rewrite E at 1. unfold vsub, vscal. assert (Lyp : length y = length p) by congruence. clear - Lyp. revert p Lyp. induction y as [|a y IH]; intros [|b p] L; try discriminate; auto. cbn [map vzip]. rewrite IH by (simpl in L; congruence). f_equal. ring. }
  rewrite S. split.
  - intros v s Lv Ev. rewrite dot_scal_l. specialize (H1 v s Lv Ev). rewrite Rmult_1_l in H1. apply Rmult_le_compat_l; lra.
  - rewrite dot_scal_l, dot_scal_r, H2. ring.
Qed.

Section Gauge.
Variables (b : sgl) (n : nat).
Hypothesis Lg : length (s_groups b) = n.
Hypothesis Ll : length (s_lasso b) = n.
Hypothesis Hl : Forall weight_legal (s_lasso b).
Hypothesis Hw : weights_nonneg (s_groups b) (s_weights b).
Let P := spen b.
Let G : gauge n P. Proof. apply sparse_gauge; auto. Qed.
Lemma norm_div : forall (x : vec) t, 0 < t -> norm (map (fun a => a / t) x) = norm x / t.
Proof.
  intros x t Ht. replace (map (fun a => a / t) x) with (vscal (/ t) x) by (unfold vscal; apply map_ext; intros; unfold Rdiv; ring).
  rewrite norm_scal. rewrite Rabs_right; [unfold Rdiv; ring|]. apply Rle_ge. left. apply Rinv_0_lt_compat. auto.
Qed.
Lemma inside_test : forall x t, length x = n -> 0 < t -> exists q v, inside_set b (map (fun a => a / t) x) = Ok v /\ pcert n P t x q /\ (v = true <-> norm q <= / 10 ^ 7 * Rmax (norm x) t).
Proof.
  intros x t Lx Ht. set (y := map (fun a => a / t) x). assert (Ly : length y = n) by (unfold y; rewrite map_length; auto).
  destruct (s_prox_pcert (s_groups b) (s_lasso b) (s_weights b) n Lg Ll Hl Hw y 1 1) as (p & E & C); auto; try lra.
  replace (1 / 1) with 1 in C by field. exists (vscal t p). eexists. unfold inside_set. rewrite E. cbn [rmap]. split; [reflexivity|].
  split; [apply pcert_scale; auto|]. destruct C as (_ & Lp & _).
  assert (N : norm (vsub (vsub y p) y) = norm p).
  { unfold norm. f_equal. rewrite sqn_sub by vlen. rewrite dot_sub_l by vlen. rewrite sqn_sub by vlen. rewrite (dot_comm p y). unfold sqn. ring. }
  rewrite N, norm_scal, Rabs_right by lra. unfold y. rewrite norm_div by auto.
  assert (M : t * Rmax (norm x / t) 1 = Rmax (norm x) t).
  { rewrite <- RmaxRmult by lra. f_equal; field; lra. }
  rewrite <- M. destruct (Rlt_dec _ _) as [L|L]; split; try discriminate; auto; intros H.
  - exfalso. assert (t * (Rmax (norm x / t) 1 * / 10 ^ 7) < t * norm p) by (apply Rmult_lt_compat_l; auto). lra.
  - apply Rnot_lt_le in L. assert (t * norm p <= t * (Rmax (norm x / t) 1 * / 10 ^ 7)) by (apply Rmult_le_compat_l; lra). lra.
Qed.
Theorem gauge_accurate : forall x D r fuel, length x = n -> (34 < fuel)%nat -> is_dual_norm n P x D -> 0 < r -> (forall v s, length v = n -> P v = Fin s -> r * norm v <= s) ->
  exists e, gauge_function_dual b x fuel = Ok e /\
    match e with
    | PInf => 2 ^ 50 < D
    | Fin m => (m = 0 /\ D <= (1 / 2) ^ 50 + / 10 ^ 7 * Rmax (norm x) ((1 / 2) ^ 50) / r) \/
               (0 < m /\ (1 - / 10 ^ 10) * m < D /\ D <= (1 + 2 * / 10 ^ 10) * m + / 10 ^ 7 * Rmax (norm x) ((1 + 2 * / 10 ^ 10) * m) / r)
    end.
Proof.
  intros x D r fuel Lx Hf HD Hr Hball. set (f := fun t => match inside_set b (map (fun a => a / t) x) with Ok v => v | Err _ => false end).
  assert (Hi : forall t, 0 < t -> inside_set b (map (fun a => a / t) x) = Ok (f t)).
  { intros t Ht. unfold f. destruct (inside_test x t Lx Ht) as (q & v & E & _). rewrite E. auto. }
  assert (Hq : forall t, 0 < t -> exists q, pcert n P t x q /\ (f t = true <-> norm q <= / 10 ^ 7 * Rmax (norm x) t)).
  { intros t Ht. destruct (inside_test x t Lx Ht) as (q & v & E & C & H). exists q. split; auto. unfold f. rewrite E. auto. }
  assert (HE : forall t, 0 < t -> 0 < / 10 ^ 7 * Rmax (norm x) t) by (intros t Ht; apply Rmult_lt_0_compat; [lra|]; pose proof (Rmax_r (norm x) t); lra).
  pose proof (reject_below n P x D (ga_nonneg _ _ G) Lx HD f _ HE Hq) as RB.
  pose proof (fun t H => accept_above n P x D Lx HD f _ Hq t r H Hr Hball) as AA.
  destruct (search_ok (fun t => inside_set b (map (fun a => a / t) x)) f (/ 10 ^ 10) Hi ltac:(lra) 50%nat 34%nat fuel) as (e & E & He); auto; try lia; try lra.
  exists e. split; [exact E|]. destruct e as [m|].
  - destruct He as [[-> H]|(lo & hi & (B1 & B2 & B3 & B4 & B5) & H1 & H2 & _)].
    + left. split; auto. apply AA; auto. apply pow_lt. lra.
    + right. split; [lra|]. specialize (RB lo ltac:(lra) B2). specialize (AA hi ltac:(lra) B3).
      assert (W : (1 - / 10 ^ 10) * hi <= lo) by lra. split; [nra|].
      assert (HI : hi <= (1 + 2 * / 10 ^ 10) * m) by lra. eapply Rle_trans; [exact AA|]. apply Rplus_le_compat; auto. apply Rmult_le_compat_r; [left; apply Rinv_0_lt_compat; auto|].
      apply Rmult_le_compat_l; [lra|]. apply Rmax_lub; [apply Rmax_l|]; eapply Rle_trans; [exact HI|apply Rmax_r].
  - apply RB; auto. apply pow_lt. lra.
Qed.
(** A value is accepted as soon as the point is within the slack. *)
Theorem gauge_at_most_one : forall x D fuel, length x = n -> (34 < fuel)%nat -> is_dual_norm n P x D -> D < 2 ^ 50 -> norm x <= / 10 ^ 7 ->
  exists m, gauge_function_dual b x fuel = Ok (Fin m) /\ 0 <= m <= 1.
Proof.
  intros x D fuel Lx Hf HD HD2 Hsmall. set (f := fun t => match inside_set b (map (fun a => a / t) x) with Ok v => v | Err _ => false end).
  assert (Hi : forall t, 0 < t -> inside_set b (map (fun a => a / t) x) = Ok (f t)).
  { intros t Ht. unfold f. destruct (inside_test x t Lx Ht) as (q & v & E & _). rewrite E. auto. }
  assert (F1 : f 1 = true).
  { destruct (inside_test x 1 Lx ltac:(lra)) as (q & v & E & C & H). unfold f. rewrite E. apply H. pose proof (resid_le n P x (ga_nonneg _ _ G) Lx 1 q ltac:(lra) C). pose proof (Rmax_r (norm x) 1). lra. }
  assert (HE : forall t, 0 < t -> 0 < / 10 ^ 7 * Rmax (norm x) t) by (intros t Ht; apply Rmult_lt_0_compat; [lra|]; pose proof (Rmax_r (norm x) t); lra).
  assert (Hq : forall t, 0 < t -> exists q, pcert n P t x q /\ (f t = true <-> norm q <= / 10 ^ 7 * Rmax (norm x) t)).
  { intros t Ht. destruct (inside_test x t Lx Ht) as (q & v & E & C & H). exists q. split; auto. unfold f. rewrite E. auto. }
  destruct (search_ok (fun t => inside_set b (map (fun a => a / t) x)) f (/ 10 ^ 10) Hi ltac:(lra) 50%nat 34%nat fuel) as (e & E & He); auto; try lia; try lra.
  destruct e as [m|].
  - exists m. split; [exact E|]. destruct He as [[-> H]|(lo & hi & (B1 & B2 & B3 & B4 & B5) & H1 & H2 & H3 & _)]; [lra|]. specialize (H3 F1). lra.
  - pose proof (reject_below n P x D (ga_nonneg _ _ G) Lx HD f _ HE Hq (2 ^ 50) ltac:(apply pow_lt; lra) He). lra.
Qed.
End Gauge.

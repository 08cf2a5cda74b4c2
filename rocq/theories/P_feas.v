(** Values and feasibility checks of the seminorm classes. *)
From Coq Require Import Reals List Lra Lia Psatz Bool.
From Verif Require Import Vec Spec M_quad M_prox P_quad P_pl P_prox.
Import ListNotations.
Local Open Scope R_scope.

Lemma tol_pos : 0 < tol.
Proof. unfold tol. apply Rinv_0_lt_compat, pow_lt. lra. Qed.

Lemma fold_max_le : forall x a m, fold_left Rmax x a <= m <-> a <= m /\ Forall (fun b => b <= m) x.
Proof.
  induction x as [|b x IH]; intros a m; simpl.
  - split; [auto|tauto].
  - rewrite IH. split.
    + intros [H1 H2]. pose proof (Rmax_l a b). pose proof (Rmax_r a b). split; [lra|]. constructor; auto; lra.
    + intros [H1 H2]. inversion H2; subst. split; auto. apply Rmax_lub; auto.
Qed.
Lemma np_max_spec : forall x, x <> [] -> exists m, np_max x = Ok m /\ (forall k, m <= k <-> Forall (fun b => b <= k) x) /\ In m x.
Proof.
  intros [|a x] H; [congruence|]. simpl. exists (fold_left Rmax x a). split; auto. split.
  - intros k. rewrite fold_max_le. split; [intros [H1 H2]; auto|]. intros H1. inversion H1; auto.
  - clear H. revert a. induction x as [|b x IH]; intros a; simpl; auto.
    destruct (IH (Rmax a b)) as [E|E]; auto. rewrite <- E. unfold Rmax at 1 2. destruct (Rle_dec a b); auto.
Qed.
Lemma le_antisym_char : forall a b : R, (forall k, a <= k <-> b <= k) -> a = b.
Proof. intros a b H. apply Rle_antisym; apply H; lra. Qed.

Lemma np_max_abs : forall x, x <> [] -> np_max (vabs x) = Ok (ellinf x).
Proof.
  intros x H. destruct (np_max_spec (vabs x)) as (m & E & Hm & HI). { destruct x; [congruence|discriminate]. }
  rewrite E. f_equal. apply le_antisym_char. intros k. rewrite Hm. unfold vabs. rewrite Forall_map. split.
  - intros HF. apply ellinf_le; auto. destruct x as [|a x]; [congruence|]. inversion HF; subst. pose proof (Rabs_pos a). lra.
  - intros HL. apply ellinf_le; auto. pose proof (ellinf_nonneg x). lra.
Qed.
Lemma np_max_clip : forall x, x <> [] -> np_max (map (fun a => Rmax a 0) x) = Ok (max_pos x).
Proof.
  intros x H. destruct (np_max_spec (map (fun a => Rmax a 0) x)) as (m & E & Hm & HI). { destruct x; [congruence|discriminate]. }
  rewrite E. f_equal. apply le_antisym_char. intros k. rewrite Hm, Forall_map. split.
  - intros HF. assert (0 <= k). { destruct x as [|a x]; [congruence|]. inversion HF; subst. pose proof (Rmax_r a 0). lra. }
    apply max_pos_le; auto. eapply Forall_impl; [|exact HF]. simpl. intros a Ha. pose proof (Rmax_l a 0). lra.
  - intros HL. pose proof (max_pos_nonneg x). assert (0 <= k) by lra. apply max_pos_le in HL; [|lra]. eapply Forall_impl; [|exact HL]. simpl. intros a Ha.
    apply Rmax_lub; lra.
Qed.
Lemma np_max_nonneg : forall x, x <> [] -> all_nonneg x -> np_max x = Ok (ellinf x).
Proof.
  intros x H Hp. rewrite <- np_max_abs by auto. f_equal. unfold vabs. rewrite <- (map_id x) at 1. apply map_ext_in.
  intros a Ha. unfold all_nonneg in Hp. rewrite Forall_forall in Hp. specialize (Hp a Ha). simpl in Hp. rewrite Rabs_right; lra.
Qed.

Lemma any_below_false : forall t x, any_below t x = false <-> Forall (fun a => t <= a) x.
Proof.
  intros t x. unfold any_below. split.
  - intros H. apply Forall_forall. intros a Ha. apply Rnot_lt_le. intros C.
    assert (existsb (fun a => if Rlt_dec a t then true else false) x = true).
    { apply existsb_exists. exists a. split; auto. destruct (Rlt_dec a t); auto. }
    congruence.
  - intros H. destruct (existsb _ x) eqn:E; auto. apply existsb_exists in E. destruct E as (a & Ha & Hb).
    rewrite Forall_forall in H. specialize (H a Ha). destruct (Rlt_dec a t); [lra|discriminate].
Qed.
Lemma any_below_nonneg : forall x, any_below (0 + tol) x = false -> all_nonneg x.
Proof. intros x H. apply any_below_false in H. pose proof tol_pos. eapply Forall_impl; [|exact H]. simpl. intros; lra. Qed.

Lemma sum_clip_nonneg : forall x, all_nonneg x -> vsum (map (fun a => Rmax a 0) x) = ell1 x.
Proof.
  induction 1; auto. cbn [map]. rewrite vsum_cons, ell1_cons, IHForall, Rabs_right, Rmax_left by lra. auto.
Qed.

(** seminorm(): unconstrained classes *)
Lemma seminorm_value_plain : forall c x lam chk, x <> [] -> c <> CConMax -> c <> CConPosPart ->
  seminorm_value c x lam chk = Ok (ext_scale lam (doc_seminorm c x)).
Proof.
  intros c x lam chk Hx H1 H2. destruct c; simpl; try congruence; auto.
  - rewrite np_max_abs by auto. auto.
  - rewrite ell2_norm. auto.
  - rewrite np_max_clip by auto. simpl. rewrite Rmult_comm. auto.
Qed.
(** seminorm(): constrained classes, points with all entries >= tol *)
Lemma seminorm_value_con : forall c x lam chk, x <> [] -> c = CConMax \/ c = CConPosPart ->
  (Forall (fun a => tol <= a) x \/ chk = false /\ all_nonneg x) ->
  seminorm_value c x lam chk = Ok (ext_scale lam (doc_seminorm c x)).
Proof.
  intros c x lam chk Hx Hc H.
  assert (Hn : all_nonneg x). { destruct H as [H|[_ H]]; auto. pose proof tol_pos. eapply Forall_impl; [|exact H]. simpl; intros; lra. }
  assert (E : negb (any_below (0 + tol) x) || negb chk = true).
  { destruct H as [H|[-> _]]; [|apply orb_true_r]. replace (any_below (0 + tol) x) with false; auto.
    symmetry. apply any_below_false. rewrite Rplus_0_l. auto. }
  destruct Hc as [-> | ->]; cbn -[any_below]; rewrite E.
  - rewrite np_max_nonneg by auto. simpl. destruct (nonneg_dec x); [auto|tauto].
  - rewrite sum_clip_nonneg by auto. destruct (nonneg_dec x); [|tauto]. simpl. rewrite Rmult_comm. auto.
Qed.

(** constraint() *)
Definition feas_claim (c : snclass) (x : vec) (b : R) : Prop :=
  exists e, constraint_value c x b = Ok e /\ (e = Fin 0 \/ e = PInf) /\
    (in_ball c b x -> e = Fin 0) /\ (e = Fin 0 -> in_ball c (b * (1 + tol)) x).

Lemma ok_or_inf_cases : forall b, ok_or_inf b = Fin 0 \/ ok_or_inf b = PInf.
Proof. destruct b; simpl; auto. Qed.
Lemma ok_or_inf_true : forall b, ok_or_inf b = Fin 0 -> b = true.
Proof. destruct b; simpl; auto; discriminate. Qed.
Lemma rleb_true : forall a b, rleb a b = true <-> a <= b.
Proof. intros. unfold rleb. destruct (Rle_dec a b); split; auto; try discriminate; tauto. Qed.
Lemma bump : forall b, 0 <= b -> b <= b * (1 + tol).
Proof. intros. pose proof tol_pos. nra. Qed.

Lemma constraint_plain : forall c x b, 0 <= b -> x <> [] -> c = CL1 \/ c = CSup \/ c = CL2 \/ c = CPosPart ->
  feas_claim c x b.
Proof.
  intros c x b Hb Hx Hc. pose proof (bump b Hb). unfold feas_claim, in_ball.
  destruct Hc as [-> |[-> |[-> | ->]]]; simpl; eexists; (split; [reflexivity|split; [apply ok_or_inf_cases|split]]).
  - intros H1. replace (rleb _ _) with true; auto. symmetry. apply rleb_true. unfold ell1 in H1. unfold vabs. lra.
  - intros H1. apply ok_or_inf_true, rleb_true in H1. auto.
  - intros H1. replace (forallb _ _) with true; auto. symmetry. apply forallb_forall. intros a Ha. apply rleb_true.
    pose proof (ellinf_ge x) as G. rewrite Forall_forall in G. specialize (G a Ha). lra.
  - intros H1. apply ok_or_inf_true in H1. rewrite forallb_forall in H1. apply ellinf_le; [lra|]. apply Forall_forall.
    intros a Ha. apply rleb_true. auto.
  - rewrite ell2_norm. intros H1. replace (rleb _ _) with true; auto. symmetry. apply rleb_true. lra.
  - rewrite ell2_norm. intros H1. apply ok_or_inf_true, rleb_true in H1. auto.
  - intros H1. replace (rleb _ _) with true; auto. symmetry. apply rleb_true. unfold sum_pos in H1. fold pos. unfold pos in *. lra.
  - intros H1. apply ok_or_inf_true, rleb_true in H1. auto.
Qed.

Lemma constraint_maxpos : forall x b, 0 < b -> x <> [] -> feas_claim CMaxPos x b.
Proof.
  intros x b Hb Hx. unfold feas_claim, in_ball. simpl. rewrite np_max_clip by auto. simpl.
  eexists; split; [reflexivity|]. destruct (Rle_dec (b * (1 + tol)) (max_pos x)); repeat split; auto; try discriminate; try lra.
  intros. pose proof tol_pos. exfalso. nra.
Qed.

(** sound half for the nonnegativity-constrained classes *)
Lemma constraint_con_sound : forall c x b, 0 <= b -> x <> [] -> c = CConMax \/ c = CConPosPart ->
  exists e, constraint_value c x b = Ok e /\ (e = Fin 0 \/ e = PInf) /\
    (e = Fin 0 -> in_ball c (b * (1 + tol)) x).
Proof.
  intros c x b Hb Hx Hc. pose proof tol_pos as Ht. unfold in_ball.
  destruct Hc as [-> | ->]; cbn -[any_below nonneg_dec].
  - destruct (np_max_spec x Hx) as (m & E & Hm & HI). rewrite E. simpl.
    eexists; split; [reflexivity|split; [apply ok_or_inf_cases|]].
    intros H1. apply ok_or_inf_true, andb_true_iff in H1. destruct H1 as [H1 H2].
    apply negb_true_iff, any_below_nonneg in H2. destruct (nonneg_dec x); [|tauto]. simpl.
    rewrite np_max_nonneg in E by auto. apply Ok_inj in E. rewrite E. apply rleb_true. auto.
  - destruct (any_below (0 + tol) x) eqn:E; simpl.
    + eexists; split; [reflexivity|split; [auto|discriminate]].
    + apply any_below_nonneg in E. rewrite sum_clip_nonneg by auto. rewrite Rmult_1_r.
      eexists; split; [reflexivity|]. destruct (nonneg_dec x); [|tauto]. simpl.
      destruct (Rle_dec (b * (1 + tol)) (ell1 x)); split; auto; try discriminate; try lra.
Qed.

Lemma constraint_con_zero_rejected : 
  in_ball CConMax 1 [0; 1/2] /\ constraint_value CConMax [0; 1/2] 1 = Ok PInf /\
  in_ball CConPosPart 1 [0; 1/2] /\ constraint_value CConPosPart [0; 1/2] 1 = Ok PInf /\
  in_ball CMaxPos 0 [-1] /\ constraint_value CMaxPos [-1] 0 = Ok PInf.
Proof.
  assert (A : any_below (0 + tol) [0; 1/2] = true).
  { unfold any_below. simpl. pose proof tol_pos. destruct (Rlt_dec 0 (0 + tol)); auto; lra. }
  assert (N : all_nonneg [0; 1/2]) by (repeat constructor; lra).
  repeat split.
  - unfold in_ball, doc_seminorm. destruct (nonneg_dec [0; 1/2]); [|tauto]. simpl. unfold ellinf. simpl. scal.
  - cbn -[any_below]. rewrite A. simpl. rewrite andb_false_r. auto.
  - unfold in_ball, doc_seminorm. destruct (nonneg_dec [0; 1/2]); [|tauto]. simpl. unfold ell1. simpl. scal.
  - cbn -[any_below]. rewrite A. auto.
  - unfold in_ball. simpl. unfold max_pos. simpl. scal.
  - cbn -[Rmax]. rewrite Rmult_0_l, Rmax_right by lra. destruct (Rle_dec 0 0); auto. lra.
Qed.

Lemma seminorm_con_zero_rejected : 
  doc_seminorm CConMax [0; 1] = Fin 1 /\ seminorm_value CConMax [0; 1] 1 true = Ok PInf.
Proof.
  assert (A : any_below (0 + tol) [0; 1] = true).
  { unfold any_below. simpl. pose proof tol_pos. destruct (Rlt_dec 0 (0 + tol)); auto; lra. }
  assert (N : all_nonneg [0; 1]) by (repeat constructor; lra).
  split.
  - unfold doc_seminorm. destruct (nonneg_dec [0; 1]); [|tauto]. f_equal. unfold ellinf. simpl. scal.
  - cbn -[any_below]. rewrite A. auto.
Qed.

(** Proofs for C107. *)
From Coq Require Import Reals List Lra Lia Arith Bool.
From Verif Require Import M_affine Vec Spec M_quad P_quad M_equal M_iqeq SpecIqeq.
Import ListNotations.
Local Open Scope R_scope.

Lemma aclose_iff : forall a b, aclose a b = true <-> within a b.
Proof. intros a b. unfold aclose, within. destruct (Rle_dec _ _); split; intros H; auto; try discriminate; try tauto. Qed.
Lemma within_refl : forall a, within a a.
Proof. intros a. unfold within. rewrite Rminus_diag_eq, Rabs_R0 by auto. assert (0 < / 10 ^ 8) by (apply Rinv_0_lt_compat, pow_lt; lra). assert (0 < / 10 ^ 5) by (apply Rinv_0_lt_compat, pow_lt; lra). pose proof (Rabs_pos a). nra. Qed.
Lemma aclose_refl : forall a, aclose a a = true. Proof. intros a. apply aclose_iff, within_refl. Qed.
Lemma combine_close : forall v w, length v = length w -> (forallb (fun p => aclose (fst p) (snd p)) (combine v w) = true <-> all_within (length v) v w).
Proof.
  induction v as [|a v IH]; intros [|b w] L; try discriminate; [split; auto; intros _ i Hi; cbn in Hi; lia|]. injection L as L. cbn [combine forallb fst snd length]. rewrite andb_true_iff, IH, aclose_iff by auto. split.
  - intros [H1 H2] [|i] Hi; cbn [nth]; auto. apply H2. lia.
  - intros H. split; [apply (H 0%nat); lia|]. intros i Hi. apply (H (S i)). lia.
Qed.
Lemma const_nth : forall n c i, (i < n)%nat -> nth i (const_vec n c) 0 = c.
Proof. intros n c i H. unfold const_vec. revert i H. induction n as [|n IH]; intros [|i] H; cbn; auto; try lia. apply IH. lia. Qed.
Lemma f_close_iff : forall n a b, (1 <= n)%nat -> fshape n a -> fshape n b -> a <> FNone -> b <> FNone ->
  exists t, f_close a b = Ok t /\ (t = true <-> all_within n (fbcast n a) (fbcast n b)).
Proof.
  intros n a b Hn Sa Sb Na Nb. destruct a as [|x|v]; [congruence| |]; (destruct b as [|y|w]; [congruence| |]); cbn [f_close fbcast fshape] in *.
  - eexists; split; [reflexivity|]. rewrite aclose_iff. split; [intros H i Hi; rewrite !const_nth by auto; auto|]. intros H. specialize (H 0%nat ltac:(lia)). rewrite !const_nth in H by lia. auto.
  - eexists; split; [reflexivity|]. rewrite forallb_forall. split.
    + intros H i Hi. rewrite const_nth by auto. apply aclose_iff, H, nth_In. unfold vec in *. lia.
    + intros H c Hc. destruct (In_nth _ _ 0 Hc) as (i & Hi & <-). apply aclose_iff. specialize (H i ltac:(unfold vec in *; lia)). rewrite const_nth in H by (unfold vec in *; lia). auto.
  - eexists; split; [reflexivity|]. rewrite forallb_forall. split.
    + intros H i Hi. rewrite const_nth by auto. apply aclose_iff. apply (H (nth i v 0)), nth_In. unfold vec in *. lia.
    + intros H c Hc. destruct (In_nth _ _ 0 Hc) as (i & Hi & <-). apply aclose_iff. specialize (H i ltac:(unfold vec in *; lia)). rewrite const_nth in H by (unfold vec in *; lia). auto.
  - unfold np_all2. unfold vec in *. rewrite Sa, Sb, Nat.eqb_refl. eexists; split; [reflexivity|]. rewrite combine_close by (unfold vec in *; lia). unfold vec in *. rewrite Sa. tauto.
Qed.
Lemma iq_eq_iff : forall n a b, (1 <= n)%nat -> q_shape n a -> q_shape n b -> no_none a -> no_none b ->
  exists t, iq_eq a b = Ok t /\ (t = true <-> within (coef a) (coef b) /\ all_within n (fbcast n (center a)) (fbcast n (center b)) /\
    all_within n (fbcast n (linear_term a)) (fbcast n (linear_term b)) /\ within (constant_term a) (constant_term b)).
Proof.
  intros n a b Hn [S1 S2] [S3 S4] [N1 N2] [N3 N4]. destruct (f_close_iff n _ _ Hn S1 S3 N1 N3) as (t1 & E1 & I1). destruct (f_close_iff n _ _ Hn S2 S4 N2 N4) as (t2 & E2 & I2). unfold iq_eq. rewrite E1. cbn [rbind]. rewrite E2. cbn [rbind].
  assert (A1 := aclose_iff (coef a) (coef b)). assert (A2 := aclose_iff (constant_term a) (constant_term b)).
  destruct (aclose (coef a) (coef b)).
  - destruct t1; [|exists false; split; auto; split; [discriminate|tauto]]. destruct t2; [|exists false; split; auto; split; [discriminate|tauto]]. exists (aclose (constant_term a) (constant_term b)). split; auto. rewrite A2. tauto.
  - exists false. split; auto. split; [discriminate|]. tauto.
Qed.
Lemma all_within_refl : forall n v, all_within n v v. Proof. intros n v i _. apply within_refl. Qed.
Lemma f_close_refl : forall a, a <> FNone -> f_close a a = Ok true.
Proof.
  intros [|x|v] H; [congruence| |]; cbn [f_close]; [rewrite aclose_refl; auto|]. unfold np_all2. rewrite Nat.eqb_refl. f_equal. apply combine_close; auto. apply all_within_refl.
Qed.
Lemma iq_eq_refl : forall a, no_none a -> iq_eq a a = Ok true /\ iq_eq (iq_copy a) a = Ok true /\ forall n x, q_denot n (iq_copy a) x = q_denot n a x.
Proof. intros a [N1 N2]. assert (E : iq_eq a a = Ok true) by (unfold iq_eq; rewrite aclose_refl, f_close_refl by auto; cbn [rbind]; rewrite f_close_refl by auto; cbn [rbind]; rewrite aclose_refl; auto). split; auto. Qed.
Lemma none_raises : forall a b, within (coef a) (coef b) ->
  (center a = FNone \/ center b = FNone -> iq_eq a b = Err TypeError) /\ (f_close (center a) (center b) = Ok true -> linear_term a = FNone \/ linear_term b = FNone -> iq_eq a b = Err TypeError).
Proof.
  intros a b C. apply aclose_iff in C. unfold iq_eq. rewrite C. split.
  - intros [H|H]; rewrite H; cbn; auto. destruct (center a); reflexivity.
  - intros E [H|H]; rewrite E; cbn [rbind]; rewrite H; cbn; auto. destruct (linear_term a); reflexivity.
Qed.
Lemma none_self : forall a, ~ no_none a -> iq_eq a a = Err TypeError.
Proof.
  intros a N. destruct (none_raises a a (within_refl _)) as [H1 H2]. destruct (center a) eqn:E; [apply H1; auto| |]; (apply H2; [apply f_close_refl; congruence|]); left; destruct (linear_term a) eqn:E2; auto; exfalso; apply N; split; congruence.
Qed.
(** the number from which c is just within tolerance *)
Definition up (c : R) : R := (c + / 10 ^ 8) / (1 - / 10 ^ 5).
Lemma up_spec : forall c, 0 <= c -> c < up c /\ up c - c = / 10 ^ 8 + / 10 ^ 5 * up c.
Proof.
  intros c H. unfold up. set (e := / 10 ^ 8). set (r := / 10 ^ 5). assert (He : 0 < e) by (apply Rinv_0_lt_compat, pow_lt; lra). assert (Hr : 0 < r) by (apply Rinv_0_lt_compat, pow_lt; lra). assert (Hr1 : r < 1) by (unfold r; rewrite <- Rinv_1; apply Rinv_lt_contravar; lra).
  assert (E : (c + e) / (1 - r) - c = e + r * ((c + e) / (1 - r))) by (field; lra). split; auto. assert (0 < (c + e) / (1 - r)) by (apply Rdiv_lt_0_compat; lra). nra.
Qed.
Lemma up_within : forall c, 0 <= c -> within c (up c) /\ ~ within (up c) c.
Proof.
  intros c H. destruct (up_spec c H) as [L E]. assert (He : 0 < / 10 ^ 8) by (apply Rinv_0_lt_compat, pow_lt; lra). assert (Hr : 0 < / 10 ^ 5) by (apply Rinv_0_lt_compat, pow_lt; lra). unfold within. rewrite (Rabs_left (c - up c)), (Rabs_pos_eq (up c - c)), (Rabs_pos_eq (up c)), (Rabs_pos_eq c) by lra. split; [lra|]. intros F. nra.
Qed.
Lemma up_up : forall c, 0 <= c -> ~ within c (up (up c)).
Proof.
  intros c H. destruct (up_spec c H) as [L E]. destruct (up_spec (up c)) as [L2 E2]; [lra|]. unfold within. rewrite (Rabs_left (c - up (up c))), (Rabs_pos_eq (up (up c))) by lra. lra.
Qed.
Definition with_const (a : iq) (c : R) : iq := mk_iq (coef a) (center a) (linear_term a) c.
Lemma eq_const : forall a c d, no_none a -> iq_eq (with_const a c) (with_const a d) = Ok (aclose c d).
Proof. intros a c d [N1 N2]. unfold iq_eq, with_const. cbn [coef center linear_term constant_term]. rewrite aclose_refl, f_close_refl by auto. cbn [rbind]. rewrite f_close_refl by auto. reflexivity. Qed.
Lemma aclose_false : forall a b, ~ within a b -> aclose a b = false.
Proof. intros a b H. destruct (aclose a b) eqn:E; auto. apply aclose_iff in E. tauto. Qed.
Lemma not_equivalence : forall a, no_none a -> 0 <= constant_term a ->
  (exists b, iq_eq a b = Ok true /\ iq_eq b a = Ok false) /\ (exists b d, iq_eq a b = Ok true /\ iq_eq b d = Ok true /\ iq_eq a d = Ok false).
Proof.
  intros a N H. assert (Ea : a = with_const a (constant_term a)) by (destruct a; reflexivity). destruct (up_within _ H) as [U1 U2]. destruct (up_spec _ H) as [L _]. destruct (up_within (up (constant_term a))) as [U3 _]; [lra|]. apply aclose_iff in U1. apply aclose_iff in U3.
  set (c := constant_term a) in *. pose proof (eq_const a c (up c) N) as Q1. pose proof (eq_const a (up c) c N) as Q2. pose proof (eq_const a (up c) (up (up c)) N) as Q3. pose proof (eq_const a c (up (up c)) N) as Q4. rewrite <- Ea in Q1, Q2, Q4.
  rewrite (aclose_false _ _ U2) in Q2. rewrite (aclose_false _ _ (up_up c H)) in Q4. rewrite U1 in Q1. rewrite U3 in Q3. split; [exists (with_const a (up c)); auto|]. exists (with_const a (up c)), (with_const a (up (up c))). auto.
Qed.
Definition with_coef (a : iq) (c : R) : iq := mk_iq c (center a) (linear_term a) (constant_term a).
Lemma eq_coef : forall a c d, no_none a -> within c d -> iq_eq (with_coef a c) (with_coef a d) = Ok true.
Proof. intros a c d [N1 N2] W. unfold iq_eq, with_coef. cbn [coef center linear_term constant_term]. apply aclose_iff in W. rewrite W, f_close_refl by auto. cbn [rbind]. rewrite f_close_refl by auto. cbn [rbind]. rewrite aclose_refl. reflexivity. Qed.
Lemma far_apart : forall n a K, (1 <= n)%nat -> q_shape n a -> no_none a -> exists b x, q_shape n b /\ iq_eq a b = Ok true /\ length x = n /\ q_denot n b x - q_denot n a x > K.
Proof.
  intros n a K Hn [S1 S2] N. assert (He : 0 < / 10 ^ 8) by (apply Rinv_0_lt_compat, pow_lt; lra). set (e := / 10 ^ 8) in *. assert (Ea : a = with_coef a (coef a)) by (destruct a; reflexivity). exists (with_coef a (coef a + e)).
  assert (Lm : length (fbcast n (center a)) = n). { destruct (center a); cbn [fbcast fshape] in *; auto; [apply zeros_length|apply repeat_length]. }
  destruct (fbcast n (center a)) as [|m mu] eqn:Em; [cbn in Lm; lia|]. set (t := 1 + 2 / e * Rabs K). exists ((m + t) :: mu). split; [split; auto|]. split; [rewrite Ea at 1; apply eq_coef; auto; unfold within; fold e; replace (coef a - (coef a + e)) with (- e) by ring; rewrite Rabs_Ropp, Rabs_pos_eq by lra; assert (0 < / 10 ^ 5) by (apply Rinv_0_lt_compat, pow_lt; lra); pose proof (Rabs_pos (coef a + e)); nra|].
  split; auto. unfold q_denot, quad_fun, with_coef. cbn [coef center linear_term constant_term]. rewrite Em.
  assert (Z : sqn (vsub ((m + t) :: mu) (m :: mu)) = t * t). { change (vsub ((m + t) :: mu) (m :: mu)) with ((m + t - m) :: vsub mu mu). rewrite vsub_self. unfold sqn. change (dot ((m + t - m) :: zeros (length mu)) ((m + t - m) :: zeros (length mu))) with ((m + t - m) * (m + t - m) + dot (zeros (length mu)) (zeros (length mu))). rewrite dot_zeros_l. ring. }
  rewrite Z. assert (Ht : e / 2 * t = e / 2 + Rabs K) by (unfold t; field; lra). assert (H1 : 1 <= t). { unfold t. assert (0 < 2 / e) by (apply Rdiv_lt_0_compat; lra). pose proof (Rmult_le_pos _ _ (Rlt_le _ _ H) (Rabs_pos K)). lra. } pose proof (Rle_abs K).
  assert (H2 : e / 2 * t <= e / 2 * (t * t)) by (apply Rmult_le_compat_l; nra). lra.
Qed.
Lemma same_function : forall n a, (1 <= n)%nat -> q_shape n a -> no_none a -> coef a = 0 -> exists b, q_shape n b /\ no_none b /\ (forall x, q_denot n b x = q_denot n a x) /\ iq_eq a b = Ok false.
Proof.
  intros n a Hn Sa Na Hc. set (c0 := nth 0 (fbcast n (center a)) 0). set (b := mk_iq 0 (FScal (10 + 2 * Rabs c0)) (linear_term a) (constant_term a)). exists b. destruct Sa as [S1 S2]. destruct Na as [N1 N2].
  assert (Sb : q_shape n b) by (split; cbn; auto). assert (Nb : no_none b) by (split; cbn; auto; discriminate). split; auto. split; auto. split; [intros x; unfold q_denot, quad_fun; cbn [b coef center linear_term constant_term]; rewrite Hc; lra|].
  destruct (iq_eq_iff n a b Hn (conj S1 S2) Sb (conj N1 N2) Nb) as (t & E & I). rewrite E. f_equal. destruct t; auto. exfalso. destruct (proj1 I eq_refl) as (_ & W & _). specialize (W 0%nat ltac:(lia)). fold c0 in W. cbn [b center fbcast] in W. rewrite const_nth in W by lia. unfold within in W.
  pose proof (Rabs_pos c0). rewrite (Rabs_pos_eq (10 + 2 * Rabs c0)) in W by lra. assert (Rabs (c0 - (10 + 2 * Rabs c0)) >= 10 + Rabs c0). { pose proof (Rle_abs c0). rewrite Rabs_left by lra. lra. }
  assert (/ 10 ^ 8 < 1) by (rewrite <- Rinv_1; apply Rinv_lt_contravar; lra). assert (/ 10 ^ 5 < / 2) by (apply Rinv_lt_contravar; lra). nra.
Qed.
Lemma noneify_value : forall n q x, q_shape n q -> q_denot n (fst (noneify q)) x = q_denot n q x.
Proof.
  intros n q x [S1 S2]. unfold noneify, q_denot. cbn [fst coef center linear_term constant_term]. destruct (fiszero (linear_term q)) eqn:Z; auto. f_equal. destruct (linear_term q) as [|c|v]; cbn [fbcast fiszero fshape] in *; auto.
  - destruct (Req_EM_T c 0); [subst; reflexivity|discriminate].
  - apply all_zero_spec in Z. rewrite Z at 1. rewrite <- S2. reflexivity.
Qed.

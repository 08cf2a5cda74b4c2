(** Probit objects: construction, histories of evaluations, copies; assignments to data. *)
From Coq Require Import Reals List Lra Lia Arith Bool.
From Verif Require Import M_affine M_buffer P_buffer Vec Spec SpecConvex M_quad M_loss SpecLoss M_probit SpecProbit P_quad P_calc P_sep P_loss P_loss2 P_loss4.
Import ListNotations.
Local Open Scope R_scope.

(** ** set_data *)
Lemma any_neg_false : forall v, any_neg v = false <-> Forall (fun a => 0 <= a) v.
Proof.
  intros v. unfold any_neg. induction v as [|a v IH]; cbn; [split; auto; constructor|]. destruct (Rlt_dec a 0) as [H|H]; cbn.
  - split; [discriminate|]. intros F. apply Forall_inv in F. lra.
  - rewrite IH. split; [intros F; constructor; auto; lra|intros F; apply Forall_inv_tail in F; auto].
Qed.
Lemma Forall_nth0 : forall (P : R -> Prop) v, Forall P v <-> forall i, (i < length v)%nat -> P (nth i v 0).
Proof. intros P v. split; [intros F i Hi; apply nth_Forall; auto|]. intros H. apply Forall_forall. intros a Ha. destruct (In_nth _ _ 0 Ha) as (i & Hi & <-). auto. Qed.
Lemma counts_check : forall s t, length t = length s -> (any_neg (vsub t s) = false /\ any_neg s = false <-> counts (length s) s t).
Proof.
  intros s t L. rewrite !any_neg_false, !Forall_nth0. unfold counts, vsub. rewrite (zl _ _ _ (length s)) by auto. split.
  - intros [A B]. split; auto. split; auto. intros i Hi. specialize (A i Hi). specialize (B i Hi). rewrite (nth_zip0 _ _ _ (length s)) in A by auto. lra.
  - intros (_ & _ & H). split; intros i Hi; [rewrite (nth_zip0 _ _ _ (length s)) by auto|]; specialize (H i Hi); lra.
Qed.
Lemma binary_spec : forall a, binary a = true <-> a = 0 \/ a = 1.
Proof. intros a. unfold binary. destruct (Req_EM_T a 0); [tauto|]. destruct (Req_EM_T a 1); [tauto|]. split; [discriminate|tauto]. Qed.
(** The three ways of assigning *)
Theorem set_data_binary : forall s, (Forall (fun a => a = 0 \/ a = 1) s -> set_data None s None = (s, Some (ones (length s)), Ok tt)) /\
  (~ Forall (fun a => a = 0 \/ a = 1) s -> snd (set_data None s None) = Err ValueError).
Proof.
  intros s. unfold set_data. destruct (forallb binary s) eqn:E; split; auto; intros H; exfalso.
  - apply H. apply Forall_forall. intros a Ha. apply binary_spec. apply (proj1 (forallb_forall _ _) E). auto.
  - assert (X : forallb binary s = true) by (apply forallb_forall; intros a Ha; apply binary_spec; apply (proj1 (Forall_forall _ _) H); auto). congruence.
Qed.
Lemma set_data_given : forall old s trials t, (match trials with None => old | _ => trials end) = Some t ->
  (counts (length s) s t -> set_data old s trials = (s, Some t, Ok tt)) /\ (~ counts (length s) s t -> set_data old s trials = (s, old, Err ValueError)).
Proof.
  intros old s trials t E. unfold set_data. rewrite E. destruct (Nat.eqb (length t) (length s)) eqn:L; cbn [negb].
  - apply Nat.eqb_eq in L. assert (C := counts_check s t L). destruct (any_neg (vsub t s)); [split; auto; intros H; apply C in H; destruct H; discriminate|].
    destruct (any_neg s); [split; auto; intros H; apply C in H; destruct H; discriminate|]. split; auto. intros H. exfalso. apply H. apply C. auto.
  - apply Nat.eqb_neq in L. split; auto. intros (_ & H & _). congruence.
Qed.
Theorem assign_accepts : forall l s trials, let t := match trials with Some t => t | None => pl_t l end in
  (counts (length s) s t -> assign l s trials = (mk_plike s t (pl_shape l) (pl_coef l) (pl_offset l) (pl_quad l) (pl_cw l), Ok tt)) /\
  (~ counts (length s) s t -> assign l s trials = (mk_plike s (pl_t l) (pl_shape l) (pl_coef l) (pl_offset l) (pl_quad l) (pl_cw l), Err ValueError)).
Proof.
  intros l s trials t. unfold assign. destruct (set_data_given (Some (pl_t l)) s trials t) as [A B]; [destruct trials; auto|]. split; intros H; [rewrite (A H); auto|rewrite (B H); auto].
Qed.
Lemma counts_dec : forall s t, {counts (length s) s t} + {~ counts (length s) s t}.
Proof.
  intros s t. destruct (Nat.eq_dec (length t) (length s)) as [L|L]; [|right; intros (_ & H & _); congruence]. assert (C := counts_check s t L).
  destruct (any_neg (vsub t s)); [right; intros H; apply C in H; destruct H; discriminate|]. destruct (any_neg s); [right; intros H; apply C in H; destruct H; discriminate|]. left. apply C. auto.
Qed.
(** Whatever was tried before, after an accepted assignment the data are legal *)
Theorem history_legal : forall ops l s trials, snd (assign (arun l ops) s trials) = Ok tt ->
  let l' := arun l (ops ++ [(s, trials)]) in counts (length s) (pl_s l') (pl_t l') /\ pl_s l' = s /\ (forall t, trials = Some t -> pl_t l' = t) /\ (trials = None -> pl_t l' = pl_t (arun l ops)).
Proof.
  intros ops l s trials E. cbv zeta. unfold arun in *. rewrite fold_left_app. cbn [fold_left fst snd]. set (l0 := fold_left _ ops l) in *. clearbody l0. destruct (assign_accepts l0 s trials) as [A B].
  destruct (counts_dec s (match trials with Some t => t | None => pl_t l0 end)) as [C|C]; [|rewrite (B C) in E; discriminate].
  rewrite (A C). cbn [fst pl_s pl_t]. split; auto. split; auto. split; [intros t ->; auto|intros ->; auto].
Qed.
(** The trials are those of the last accepted assignment that gave some; nothing but the data ever changes *)
Theorem history_rest : forall ops l, let l' := arun l ops in pl_shape l' = pl_shape l /\ pl_coef l' = pl_coef l /\ pl_offset l' = pl_offset l /\ pl_quad l' = pl_quad l /\ pl_cw l' = pl_cw l /\
  ((forall s t, In (s, Some t) ops -> ~ counts (length s) s t) -> pl_t l' = pl_t l).
Proof.
  unfold arun. intros ops. induction ops as [|[s trials] ops IH]; intros l; [cbn; auto 8|]. cbn [fold_left fst snd]. destruct (IH (fst (assign l s trials))) as (A & B & C & D & E & F). rewrite A, B, C, D, E.
  assert (X : forall q, q = fst (assign l s trials) -> pl_shape q = pl_shape l /\ pl_coef q = pl_coef l /\ pl_offset q = pl_offset l /\ pl_quad q = pl_quad l /\ pl_cw q = pl_cw l).
  { intros q ->. unfold assign. destruct (set_data _ _ _) as [[s' t'] r]. cbn. auto. }
  destruct (X _ eq_refl) as (-> & -> & -> & -> & ->). do 5 (split; auto). intros H. rewrite F by (intros s0 t0 H0; apply H; right; auto). destruct (assign_accepts l s trials) as [P Q]. destruct trials as [t|].
  - rewrite Q; auto. apply (H s t). left. auto.
  - destruct (counts_dec s (pl_t l)) as [K|K]; [rewrite (P K); auto|rewrite (Q K); auto].
Qed.
Definition shifted (q : iq) (v : R) : res iq := q_add q (AQuad (mk_iq 0 (FScal 0) (FScal 0) v)).
Definition no_q : iq := mk_iq 0 (FScal 0) (FScal 0) 0.
Lemma shifted_denot : forall n q v, q_shape n q -> center_ok n q -> exists q1, shifted q v = Ok q1 /\ q_shape n q1 /\ center_ok n q1 /\ forall x, length x = n -> q_denot n q1 x = q_denot n q x + v.
Proof.
  intros n q v Sq Cq. destruct (q_add_denot n q (mk_iq 0 (FScal 0) (FScal 0) v) Sq) as (s & E & Ss & Cs & D); auto; [split; cbn; auto|left; auto|]. exists s. split; [exact E|]. split; auto. split; auto. intros x Lx. rewrite D by auto. f_equal.
  unfold q_denot, quad_fun. cbn [coef center linear_term constant_term fbcast]. rewrite const_vec_0, dot_zeros_l. lra.
Qed.
Lemma new_ok : forall h s trials n c off q weights t, 0 <= c -> set_data None s trials = (s, Some t, Ok tt) ->
  (match weights with Some r => any_neg (read h r) || negb (Nat.eqb (length (read h r)) (length s)) | None => false end) = false ->
  exists q1, shifted (match q with Some q => q | None => no_q end) (- (- c * vsum (vzip binomial_term s t))) = Ok q1 /\
    new_probit h s trials n c off q weights = Ok (mk_plike s t n c (match off with Some v => if all_zero v then None else Some v | None => None end) q1 weights).
Proof.
  intros h s trials n c off q weights t Hc E W. unfold new_probit. destruct (Rlt_dec c 0); [lra|]. rewrite E. cbv zeta. unfold shifted, no_q. rewrite W.
  match goal with |- context [q_add ?a (AQuad ?b)] => destruct (q_add a (AQuad b)) as [q1|e] eqn:Q; [|cbn in Q; discriminate] end. exists q1. cbn. auto.
Qed.
(** A rejected assignment nevertheless replaces the successes *)
Theorem rejected_assignment : exists l h s, made_probit h l /\ snd (assign l s None) = Err ValueError /\ pl_s (fst (assign l s None)) = s /\ pl_s l <> s /\
  ~ counts (pl_shape l) (pl_s (fst (assign l s None))) (pl_t (fst (assign l s None))).
Proof.
  destruct (new_ok [] [1] None 1 1 None None None [1] ltac:(lra)) as (q1 & _ & E); [apply set_data_binary; repeat constructor; lra|auto|].
  exists (mk_plike [1] [1] 1 1 None q1 None), [], [2].
  assert (Nc : ~ counts 1 [2] [1]) by (intros (_ & _ & H); specialize (H 0%nat ltac:(lia)); cbn in H; lra).
  split; [|split; [|split; [|split]]].
  - exists None, None, None. cbn [pl_s pl_shape pl_coef pl_cw length]. split; [|split; [intros w Hw; discriminate|auto]]. exact E.
  - rewrite (proj2 (assign_accepts (mk_plike [1] [1] 1 1 None q1 None) [2] None) Nc). auto.
  - rewrite (proj2 (assign_accepts (mk_plike [1] [1] 1 1 None q1 None) [2] None) Nc). auto.
  - cbn. intros H. injection H. lra.
  - rewrite (proj2 (assign_accepts (mk_plike [1] [1] 1 1 None q1 None) [2] None) Nc). exact Nc.
Qed.
(** The constant term stays that of the data given to the constructor *)
Theorem stale_constant : exists l l1 l2, new_probit [] [1] (Some [2]) 1 1 None None None = Ok l /\ assign l [0] None = (l1, Ok tt) /\ new_probit [] [0] (Some [2]) 1 1 None None None = Ok l2 /\
  pl_s l1 = pl_s l2 /\ pl_t l1 = pl_t l2 /\ forall x, length x = 1%nat -> q_denot 1 (pl_quad l1) x = - 2 * ln 2 /\ q_denot 1 (pl_quad l2) x = 0.
Proof.
  assert (C1 : counts 1 [1] [2]) by (split; [auto|split; [auto|intros [|i] Hi; [cbn; lra|lia]]]). assert (C0 : counts 1 [0] [2]) by (split; [auto|split; [auto|intros [|i] Hi; [cbn; lra|lia]]]).
  assert (T : binomial_term 1 2 = - 2 * ln 2). { unfold binomial_term. cbv zeta. destruct (Req_EM_T (1 / 2) 0); [lra|]. destruct (Req_EM_T (1 / 2) 1); [lra|]. replace (1 - 1 / 2) with (/ 2) by lra. replace (1 / 2) with (/ 2) by lra. rewrite ln_Rinv by lra. lra. }
  assert (T0 : binomial_term 0 2 = 0). { unfold binomial_term. cbv zeta. destruct (Req_EM_T (0 / 2) 0); [auto|lra]. }
  destruct (new_ok [] [1] (Some [2]) 1 1 None None None [2] ltac:(lra) (proj1 (set_data_given None [1] (Some [2]) [2] eq_refl) C1) eq_refl) as (q1 & Q1 & E1).
  destruct (new_ok [] [0] (Some [2]) 1 1 None None None [2] ltac:(lra) (proj1 (set_data_given None [0] (Some [2]) [2] eq_refl) C0) eq_refl) as (q2 & Q2 & E2).
  eexists. eexists. eexists. split; [exact E1|]. split; [rewrite (proj1 (assign_accepts _ [0] None)); [reflexivity|exact C0]|]. split; [exact E2|]. cbn [pl_s pl_t pl_quad]. split; auto. split; auto.
  assert (K : forall v q', shifted no_q v = Ok q' -> forall x, length x = 1%nat -> q_denot 1 q' x = v).
  { intros v q' E x Lx. destruct (shifted_denot 1 no_q v) as (q'' & E'' & _ & _ & D); [split; cbn; auto|left; auto|]. rewrite E in E''. apply Ok_inj in E''. subst q''. rewrite D by auto. unfold q_denot, quad_fun, no_q. cbn [coef center linear_term constant_term fbcast]. rewrite const_vec_0, dot_zeros_l. lra. }
  intros x Lx. rewrite (K _ _ Q1 x Lx), (K _ _ Q2 x Lx). unfold vzip, vsum. cbn -[binomial_term]. rewrite T, T0. split; ring.
Qed.

(** ** Construction *)
Theorem new_probit_accepts : forall h s trials n c off weights,
  let legal := match trials with Some t => counts (length s) s t | None => Forall (fun a => a = 0 \/ a = 1) s end in
  ((exists l, new_probit h s trials n c off None weights = Ok l) <-> 0 <= c /\ legal /\ (forall r, weights = Some r -> legal_weights (length s) (read h r))) /\
  ((forall l, new_probit h s trials n c off None weights <> Ok l) -> new_probit h s trials n c off None weights = Err ValueError) /\
  (forall l, new_probit h s trials n c off None weights = Ok l -> pl_s l = s /\ pl_t l = (match trials with Some t => t | None => ones (length s) end) /\ pl_shape l = n /\ pl_coef l = c /\ pl_cw l = weights /\
    forall x, length x = n -> q_denot n (pl_quad l) x = c * vsum (vzip binomial_term (pl_s l) (pl_t l))).
Proof.
  intros h s trials n c off weights legal. set (t := match trials with Some t => t | None => ones (length s) end).
  assert (SD : (legal -> set_data None s trials = (s, Some t, Ok tt)) /\ (~ legal -> snd (set_data None s trials) = Err ValueError)).
  { unfold legal, t. destruct trials as [t'|]; [|apply set_data_binary]. destruct (set_data_given None s (Some t') t' eq_refl) as [A B]. split; auto. intros H. rewrite (B H). auto. }
  assert (LD : legal \/ ~ legal).
  { unfold legal. destruct trials as [t'|]; [destruct (counts_dec s t'); auto|]. destruct (forallb binary s) eqn:E; [left|right].
    - apply Forall_forall. intros a Ha. apply binary_spec. apply (proj1 (forallb_forall _ _) E). auto.
    - intros F. assert (X : forallb binary s = true) by (apply forallb_forall; intros a Ha; apply binary_spec; apply (proj1 (Forall_forall _ _) F); auto). congruence. }
  assert (SQ : q_shape n no_q) by (split; cbn; auto). destruct (shifted_denot n no_q (- (- c * vsum (vzip binomial_term s t))) SQ (or_introl eq_refl)) as (Q & EQ & _ & _ & DQ).
  set (wbad := match weights with Some r => any_neg (read h r) || negb (Nat.eqb (length (read h r)) (length s)) | None => false end).
  assert (WB : wbad = false <-> forall r, weights = Some r -> legal_weights (length s) (read h r)).
  { unfold wbad. destruct weights as [r|]; [|split; auto; intros _ r Hr; discriminate]. rewrite orb_false_iff, negb_false_iff, Nat.eqb_eq, any_neg_false. unfold legal_weights. split; [intros [A B] r' Hr; injection Hr as <-; auto|]. intros H. specialize (H r eq_refl). tauto. }
  destruct (Rlt_dec c 0) as [Hc|Hc].
  - assert (E : new_probit h s trials n c off None weights = Err ValueError) by (unfold new_probit; destruct (Rlt_dec c 0); [auto|lra]). rewrite E. split; [split; [intros [l H]; discriminate|intros [H _]; lra]|]. split; auto. intros l H. discriminate.
  - destruct LD as [Lg|Lg].
    + set (l := mk_plike s t n c (match off with Some v => if all_zero v then None else Some v | None => None end) Q weights).
      assert (E : new_probit h s trials n c off None weights = if wbad then Err ValueError else Ok l) by (unfold new_probit; destruct (Rlt_dec c 0); [lra|]; rewrite (proj1 SD Lg); cbv zeta; fold no_q; unfold shifted in EQ; rewrite EQ; reflexivity).
      rewrite E. destruct wbad.
      * split; [split; [intros [x H]; discriminate|intros (_ & _ & H); apply WB in H; discriminate]|]. split; auto. intros x H. discriminate.
      * split; [split; [intros _; split; [lra|]; split; auto; apply WB; auto|intros _; eauto]|]. split; [intros H; exfalso; apply (H l); auto|]. intros l' H. apply Ok_inj in H. subst l'. cbn [pl_s pl_t pl_shape pl_coef pl_cw pl_quad l]. do 5 (split; auto).
        intros x Lx. rewrite DQ by auto. unfold q_denot, quad_fun, no_q. cbn [coef center linear_term constant_term fbcast]. rewrite const_vec_0, dot_zeros_l. lra.
    + assert (E : new_probit h s trials n c off None weights = Err ValueError). { unfold new_probit. destruct (Rlt_dec c 0); [lra|]. assert (X := proj2 SD Lg). destruct (set_data None s trials) as [[s' t'] r]. cbn in X. subst r. destruct t'; auto. }
      rewrite E. split; [split; [intros [l H]; discriminate|intros (_ & H & _); tauto]|]. split; auto. intros l H. discriminate.
Qed.

(** ** Histories of evaluations *)
Lemma made_probit_weights : forall h l w, made_probit h l -> pl_cw l = Some w -> length (read h w) = pl_shape l /\ nonneg (read h w) /\ (w < length h)%nat.
Proof.
  intros h l w (trials & off & q & E & B & L) Ew. unfold new_probit in E. rewrite Ew in E. destruct (Rlt_dec (pl_coef l) 0); [discriminate|]. destruct (set_data None (pl_s l) trials) as [[s' [t'|]] [u|e]] eqn:D; try discriminate.
  assert (Es : s' = pl_s l). { unfold set_data in D. destruct trials as [t0|]; [|destruct (forallb binary (pl_s l)); congruence]. destruct (negb _); [congruence|]. destruct (any_neg _); [congruence|]. destruct (any_neg _); congruence. }
  subst s'. cbv zeta in E. match type of E with rbind ?a _ = _ => destruct a as [q1|] end; [|discriminate]. cbn [rbind] in E. destruct (any_neg (read h w) || negb (Nat.eqb (length (read h w)) (length (pl_s l)))) eqn:W; [discriminate|].
  apply orb_false_iff in W. destruct W as [W1 W2]. apply negb_false_iff, Nat.eqb_eq in W2. split; [congruence|]. split; [apply any_neg_false; auto|auto].
Qed.
Lemma pweigh_own : forall h own n h1 c, pweigh h own None n = (h1, c) -> (forall w, own = Some w -> (w < length h)%nat) -> (forall w, own = Some w -> length (read h w) = n) ->
  read h1 c = (match own with Some w => read h w | None => ones n end) /\ (length h <= length h1)%nat /\ forall r, (r < length h)%nat -> read h1 r = read h r.
Proof.
  intros h own n h1 c E B L. unfold pweigh in E. destruct own as [w|]; injection E as <- <-.
  - assert (Hw := B w eq_refl). rewrite read_write_same by (rewrite app_length; cbn; lia). rewrite read_new, (read_app h [ones n] w) by auto. rewrite vmul_ones by auto. split; [auto|]. rewrite write_length, app_length. split; [lia|]. intros r Hr. rewrite read_write_other by lia. apply read_app. auto.
  - rewrite read_new, app_length. split; [auto|]. split; [lia|]. intros r Hr. apply read_app. auto.
Qed.
Lemma eval_weights : forall h l n h1 c, made_probit h l -> n = pl_shape l -> pweigh h (pl_cw l) None n = (h1, c) ->
  read h1 c = weights_of h l /\ (length h <= length h1)%nat /\ forall r, (r < length h)%nat -> read h1 r = read h r.
Proof.
  intros h l n h1 c M -> E. destruct (pweigh_own _ _ _ _ _ E) as (A & B & C); [intros w Hw; apply (made_probit_weights h l w M Hw)|intros w Hw; apply (made_probit_weights h l w M Hw)|]. split; auto.
Qed.
Theorem probit_eval_own : forall cdf pdf h l x m, made_probit h l -> length x = pl_shape l ->
  snd (probit_eval cdf pdf h l None x m) = probit_value cdf pdf (pl_s l) (pl_t l) (pl_coef l) (weights_of h l) x m /\
  snd (probit_hess_eval cdf pdf h l None x) = probit_hess cdf pdf (pl_t l) (pl_coef l) (weights_of h l) x.
Proof.
  intros cdf pdf h l x m M Lx. unfold probit_eval, probit_hess_eval. destruct (pweigh h (pl_cw l) None (length x)) as [h1 c] eqn:E. destruct (eval_weights _ _ _ _ _ M Lx E) as (A & _ & _). cbn [snd]. rewrite A. auto.
Qed.
Lemma made_probit_ext : forall h h' l, made_probit h l -> (length h <= length h')%nat -> (forall r, (r < length h)%nat -> read h' r = read h r) -> made_probit h' l /\ weights_of h' l = weights_of h l.
Proof.
  intros h h' l (trials & off & q & E & B & L) Lh R. split.
  - exists trials, off, q. split; [|split; [intros w Hw; specialize (B w Hw); lia|auto]]. etransitivity; [|exact E]. unfold new_probit. destruct (pl_cw l) as [w|]; auto. rewrite (R w (B w eq_refl)). auto.
  - unfold weights_of. destruct (pl_cw l) as [w|]; auto.
Qed.
Theorem probit_history : forall cdf pdf ops h l, made_probit h l -> Forall (fun o => length (pop_arg o) = pl_shape l) ops ->
  (forall r, (r < length h)%nat -> read (prun cdf pdf l h ops) r = read h r) /\
  forall x m, length x = pl_shape l -> snd (probit_eval cdf pdf (prun cdf pdf l h ops) l None x m) = probit_value cdf pdf (pl_s l) (pl_t l) (pl_coef l) (weights_of h l) x m /\
    snd (probit_hess_eval cdf pdf (prun cdf pdf l h ops) l None x) = probit_hess cdf pdf (pl_t l) (pl_coef l) (weights_of h l) x.
Proof.
  intros cdf pdf ops. induction ops as [|o ops IH]; intros h l M F; [split; auto; intros x m Lx; apply probit_eval_own; auto|]. assert (Lo := Forall_inv F). apply Forall_inv_tail in F.
  assert (K : exists h1, prun cdf pdf l h (o :: ops) = prun cdf pdf l h1 ops /\ (length h <= length h1)%nat /\ forall r, (r < length h)%nat -> read h1 r = read h r).
  { destruct (pweigh h (pl_cw l) None (length (pop_arg o))) as [h1 c] eqn:E. destruct (eval_weights _ _ _ _ _ M Lo E) as (_ & B & C). exists h1. split; auto. destruct o as [x m|x]; cbn [prun fold_left pop_arg] in *; unfold prun; cbn [fold_left]; unfold probit_eval, probit_hess_eval; rewrite E; auto. }
  destruct K as (h1 & -> & L1 & R1). destruct (made_probit_ext h h1 l M L1 R1) as [M1 W1]. destruct (IH h1 l M1 F) as [A B]. split; [intros r Hr; rewrite A by lia; auto|]. rewrite W1 in B. exact B.
Qed.
(** Weights passed to an evaluation are multiplied by the loss's own, in the caller's array *)
Theorem probit_caller : forall cdf pdf h l r w x m, pl_cw l = Some w -> (r < length h)%nat -> read (fst (probit_eval cdf pdf h l (Some r) x m)) r = vmul (read h r) (read h w) /\
  read (fst (probit_hess_eval cdf pdf h l (Some r) x)) r = vmul (read h r) (read h w).
Proof. intros cdf pdf h l r w x m E H. unfold probit_eval, probit_hess_eval, pweigh. rewrite E. cbn [fst]. rewrite read_write_same by auto. auto. Qed.
(** ** Copies *)
Lemma made_probit_data : forall h l, made_probit h l -> set_data None (pl_s l) (Some (pl_t l)) = (pl_s l, Some (pl_t l), Ok tt) /\ 0 <= pl_coef l /\
  (match pl_offset l with Some v => if all_zero v then None else Some v | None => None end) = pl_offset l.
Proof.
  intros h l (trials & off & q & E & B & L). unfold new_probit in E. destruct (Rlt_dec (pl_coef l) 0); [discriminate|]. destruct (set_data None (pl_s l) trials) as [[s' [t'|]] [u|e]] eqn:D; try discriminate.
  cbv zeta in E. match type of E with rbind ?a _ = _ => destruct a as [q1|] end; [|discriminate]. cbn [rbind] in E. match type of E with (if ?b then _ else _) = _ => destruct b end; [discriminate|]. apply Ok_inj in E.
  assert (Et : t' = pl_t l) by (rewrite <- E; auto). assert (Eo : pl_offset l = match off with Some v => if all_zero v then None else Some v | None => None end) by (rewrite <- E; auto). clear E. subst t'. split; [|split; [lra|rewrite Eo; apply normal_offset]].
  assert (C : counts (length (pl_s l)) (pl_s l) (pl_t l)).
  { destruct trials as [t0|].
    - destruct (counts_dec (pl_s l) t0) as [C|C]; [rewrite (proj1 (set_data_given None (pl_s l) (Some t0) t0 eq_refl) C) in D; congruence|rewrite (proj2 (set_data_given None (pl_s l) (Some t0) t0 eq_refl) C) in D; congruence].
    - unfold set_data in D. destruct (forallb binary (pl_s l)) eqn:F; [|discriminate]. injection D as _ D _. rewrite <- D. split; auto. split; [apply ones_length|]. intros i Hi. 
      assert (X := proj1 (forallb_forall _ _) F (nth i (pl_s l) 0) (nth_In _ _ Hi)). apply binary_spec in X. assert (O : nth i (ones (length (pl_s l))) 0 = 1) by (unfold ones, const_vec; rewrite (nth_indep _ 0 1) by (rewrite repeat_length; auto); apply nth_repeat). rewrite O. lra. }
  apply (set_data_given None (pl_s l) (Some (pl_t l)) (pl_t l) eq_refl). exact C.
Qed.
Theorem probit_copy : forall h l, made_probit h l -> exists h' l', copy_probit h l = (h', Ok l') /\ made_probit h' l' /\ pl_s l' = pl_s l /\ pl_t l' = pl_t l /\ pl_shape l' = pl_shape l /\ pl_coef l' = pl_coef l /\ pl_offset l' = pl_offset l /\
  weights_of h' l' = weights_of h l /\ (length h <= length h')%nat /\ (forall r, (r < length h)%nat -> read h' r = read h r) /\ (forall w, pl_cw l' = Some w -> (length h <= w)%nat) /\ (pl_cw l' = None <-> pl_cw l = None) /\
  (forall n, q_shape n (pl_quad l) -> center_ok n (pl_quad l) -> forall x, length x = n -> q_denot n (pl_quad l') x = q_denot n (pl_quad l) x + pl_coef l * vsum (vzip binomial_term (pl_s l) (pl_t l))).
Proof.
  intros h l M. destruct (made_probit_data h l M) as (D & Hc & Ho). assert (Ls : length (pl_s l) = pl_shape l) by (destruct M as (? & ? & ? & _ & _ & L); auto). unfold copy_probit.
  assert (Qd : forall q1, shifted (pl_quad l) (- (- pl_coef l * vsum (vzip binomial_term (pl_s l) (pl_t l)))) = Ok q1 -> forall n, q_shape n (pl_quad l) -> center_ok n (pl_quad l) -> forall x, length x = n -> q_denot n q1 x = q_denot n (pl_quad l) x + pl_coef l * vsum (vzip binomial_term (pl_s l) (pl_t l))).
  { intros q1 E n Sq Cq x Lx. destruct (shifted_denot n (pl_quad l) (- (- pl_coef l * vsum (vzip binomial_term (pl_s l) (pl_t l)))) Sq Cq) as (q2 & E2 & _ & _ & Dq). rewrite E in E2. apply Ok_inj in E2. subst q2. rewrite Dq by auto. ring. }
  destruct (pl_cw l) as [w|] eqn:Ew.
  - destruct (made_probit_weights h l w M Ew) as (Lw & Nw & Bw).
    destruct (new_ok (h ++ [read h w]) (pl_s l) (Some (pl_t l)) (pl_shape l) (pl_coef l) (pl_offset l) (Some (pl_quad l)) (Some (length h)) (pl_t l) Hc D) as (q1 & EQ & E).
    { rewrite read_new. apply orb_false_iff. split; [apply any_neg_false; auto|]. apply negb_false_iff, Nat.eqb_eq. congruence. }
    exists (h ++ [read h w]). eexists. split; [rewrite E; reflexivity|]. rewrite Ho in *. cbn [pl_s pl_t pl_shape pl_coef pl_offset pl_cw pl_quad]. split.
    { exists (Some (pl_t l)), (pl_offset l), (Some (pl_quad l)). cbn [pl_s pl_t pl_shape pl_coef pl_offset pl_cw]. split; [exact E|]. split; auto. intros w' Hw'. injection Hw' as <-. rewrite app_length. cbn. lia. }
    do 5 (split; [auto|]). split; [unfold weights_of; cbn; rewrite Ew, read_new; auto|]. split; [rewrite app_length; lia|]. split; [intros r Hr; apply read_app; auto|]. split; [intros w' Hw'; injection Hw' as <-; lia|]. split; [split; discriminate|]. apply Qd. exact EQ.
  - destruct (new_ok h (pl_s l) (Some (pl_t l)) (pl_shape l) (pl_coef l) (pl_offset l) (Some (pl_quad l)) None (pl_t l) Hc D eq_refl) as (q1 & EQ & E).
    exists h. eexists. split; [rewrite E; reflexivity|]. rewrite Ho in *. cbn [pl_s pl_t pl_shape pl_coef pl_offset pl_cw pl_quad]. split.
    { exists (Some (pl_t l)), (pl_offset l), (Some (pl_quad l)). cbn [pl_s pl_t pl_shape pl_coef pl_offset pl_cw]. split; [exact E|]. split; auto. intros w' Hw'. discriminate. }
    do 5 (split; [auto|]). split; [unfold weights_of; cbn; rewrite Ew; auto|]. split; [lia|]. split; [auto|]. split; [intros w' Hw'; discriminate|]. split; [tauto|]. apply Qd. exact EQ.
Qed.
(** The copy evaluates like the original, whatever is later written into the arrays that existed before *)
Theorem probit_copy_value : forall cdf pdf h l h' l', made_probit h l -> copy_probit h l = (h', Ok l') ->
  forall h2, (length h' <= length h2)%nat -> (forall r, (length h <= r < length h')%nat -> read h2 r = read h' r) -> forall x m, length x = pl_shape l ->
    snd (probit_eval cdf pdf h2 l' None x m) = snd (probit_eval cdf pdf h l None x m) /\ snd (probit_hess_eval cdf pdf h2 l' None x) = snd (probit_hess_eval cdf pdf h l None x).
Proof.
  intros cdf pdf h l h' l' M E h2 L2 R2 x m Lx. destruct (probit_copy h l M) as (h1 & l1 & E1 & M1 & S1 & S2 & S3 & S4 & S5 & W & Lh & R & Fr & _). rewrite E1 in E. injection E as -> ->.
  destruct (probit_eval_own cdf pdf h l x m M Lx) as [-> ->].
  assert (G : forall w, pl_cw l' = Some w -> read h2 w = read h' w) by (intros w Hw; apply R2; split; [apply Fr; auto|apply (made_probit_weights h' l' w M1 Hw)]).
  assert (M2 : made_probit h2 l').
  { destruct M1 as (trials & off & q & E & B & F). exists trials, off, q. split; [|split; auto; intros w Hw; specialize (B w Hw); lia]. etransitivity; [|exact E]. unfold new_probit. destruct (pl_cw l') as [w|] eqn:Ew; auto. rewrite (G w eq_refl). auto. }
  destruct (probit_eval_own cdf pdf h2 l' x m M2 ltac:(congruence)) as [-> ->]. replace (weights_of h2 l') with (weights_of h l); [rewrite S1, S2, S4; auto|]. rewrite <- W. unfold weights_of. destruct (pl_cw l') as [w|] eqn:Ew; auto. symmetry. auto.
Qed.
Theorem probit_subsample : forall cdf pdf h l idx, made_probit h l -> Forall (fun i => (i < pl_shape l)%nat) idx ->
  exists h' l', subsample_probit h l idx = (h', Ok l') /\ (forall r, (r < length h)%nat -> read h' r = read h r) /\ forall x m, length x = pl_shape l ->
    snd (probit_eval cdf pdf h' l' None x m) = probit_value cdf pdf (pl_s l) (pl_t l) (pl_coef l) (restrict idx (weights_of h l)) x m /\
    snd (probit_hess_eval cdf pdf h' l' None x) = probit_hess cdf pdf (pl_t l) (pl_coef l) (restrict idx (weights_of h l)) x.
Proof.
  intros cdf pdf h l idx M F. destruct (probit_copy h l M) as (h1 & l1 & E1 & M1 & S1 & S2 & S3 & S4 & S5 & W & Lh & R & Fr & Nn & _). unfold subsample_probit. rewrite E1.
  replace (forallb (fun i => Nat.ltb i (pl_shape l)) idx) with true by (symmetry; apply forallb_forall; rewrite Forall_forall in F; intros i Hi; apply Nat.ltb_lt; auto). cbn [negb].
  destruct (pl_cw l1) as [w|] eqn:Ew.
  - destruct (made_probit_weights h1 l1 w M1 Ew) as (Lw & Nw & Bw). eexists. eexists. split; [reflexivity|]. split.
    + intros r Hr. rewrite read_write_other; [auto|]. specialize (Fr w eq_refl). lia.
    + intros x m Lx. unfold probit_eval, probit_hess_eval. match goal with |- context [pweigh ?h ?o None ?n] => destruct (pweigh h o None n) as [h2 c] eqn:E end. destruct (pweigh_own _ _ _ _ _ E) as (V & _ & _).
      * intros w' Hw'. rewrite write_length. rewrite Ew in Hw'. injection Hw' as <-. auto.
      * intros w' Hw'. rewrite Ew in Hw'. injection Hw' as <-. rewrite read_write_same by auto. rewrite indicator_restrict, restrict_length. congruence.
      * cbn [snd]. rewrite V, Ew, read_write_same by auto. rewrite indicator_restrict, S1, S2, S4. unfold weights_of in W at 1. rewrite Ew in W. rewrite W. auto.
  - eexists. eexists. split; [reflexivity|]. split.
    + intros r Hr. rewrite read_app by lia. auto.
    + intros x m Lx. unfold probit_eval, probit_hess_eval. match goal with |- context [pweigh ?h ?o None ?n] => destruct (pweigh h o None n) as [h2 c] eqn:E end. assert (X := indicator_restrict idx (ones (pl_shape l))). rewrite ones_length in X. destruct (pweigh_own _ _ _ _ _ E) as (V & _ & _).
      * cbn. intros w' Hw'. injection Hw' as <-. rewrite app_length. cbn. lia.
      * cbn. intros w' Hw'. injection Hw' as <-. rewrite read_new, X, restrict_length, ones_length. auto.
      * cbn in V. cbn [snd pl_s pl_t pl_coef]. rewrite V, read_new, S1, S2, S4, X. unfold weights_of. replace (pl_cw l) with (@None ref) by (symmetry; apply Nn; auto). auto.
Qed.

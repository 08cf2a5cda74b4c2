(** FISTA on convex problems with exact oracles: descent, no bad steps, fixed points, convergence rate. *)
From Coq Require Import Reals List Lra Lia Psatz Arith Bool.
From Verif Require Import Vec Spec SpecConvex M_fista SpecFista P_quad P_calc P_fista.
Import ListNotations.
Local Open Scope R_scope.

Lemma cauchy_schwarz_abs : forall x y, length x = length y -> Rabs (dot x y) <= norm x * norm y.
Proof.
  intros x y H. apply Rabs_le. split; [|apply cauchy_schwarz; auto]. assert (K := cauchy_schwarz (vscal (-1) x) y ltac:(vlen)).
  rewrite dot_scal_l, norm_scal, Rabs_left in K by lra. lra.
Qed.
Definition propose (fuel : nat) (P : params) (C : composite) (s : fstate) : res (vec * R * bool) :=
  let working := if restart_now P (s_it s) then s_coefs s else s_working s in
  if p_backtrack P then backtrack fuel C (s_it s) working (s_step s) (s_attempt s)
  else if Req_EM_T (c_lipschitz C) 0 then Err ZeroDivisionError
  else Ok (c_prox C (c_lipschitz C) working (c_grad C working), 1 / c_lipschitz C, s_attempt s).
Lemma iterate_cases : forall fuel P C s o, iterate fuel P C s = Ok o -> exists p st att, propose fuel P C s = Ok (p, st, att) /\
  let wn := / 2 * (1 + sqrt (1 + 4 * (s_weight s * s_weight s))) in
  let rejected := ((1 < s_it s)%nat /\ worse (s_obj s) (total C p false) = true /\ p_monotonicity P = true) in
  ((exists s', o = Stop s' /\ s_coefs s' = s_coefs s /\ s_obj s' = s_obj s /\ s_it s' = s_it s /\ s_step s' = st /\ s_weight s' = s_weight s /\ (s_bad s' = s_bad s \/ (rejected /\ s_weight s = 1))) \/
   (exists s', o = Continue s' /\ rejected /\ s_coefs s' = s_coefs s /\ s_working s' = s_coefs s /\ s_obj s' = s_obj s /\ s_weight s' = 1 /\ s_it s' = S (s_it s) /\ s_step s' = st /\ s_attempt s' = true /\
      (s_bad s' = s_bad s \/ s_weight s = 1)) \/
   (exists s', o = Continue s' /\ ~ rejected /\ s_coefs s' = p /\ s_working s' = vadd p (vscal ((s_weight s - 1) / wn) (vsub p (s_coefs s))) /\ s_obj s' = total C p false /\ s_weight s' = wn /\
      s_it s' = S (s_it s) /\ s_step s' = st /\ s_attempt s' = att /\ s_bad s' = s_bad s)).
Proof.
  intros fuel P C s o E. unfold iterate in E. cbv zeta in E.
  match type of E with rbind ?r _ = _ => change r with (propose fuel P C s) in E; destruct (propose fuel P C s) as [[[p st] att]|e]; [|discriminate] end. cbn [rbind] in E.
  exists p, st, att. split; auto. cbv zeta. fold (total C p false) in E.
  destruct (andb (Nat.leb (min_of P) (s_it s)) _).
  - injection E as <-. left. eexists. split; [reflexivity|]. cbn. auto 8.
  - destruct (update_working (p_FISTA P) (s_weight s) p (s_coefs s)) as [wn w'] eqn:Eu. unfold update_working in Eu. cbn [orb] in Eu. injection Eu as <- <-.
    destruct (andb (Nat.ltb 1 (s_it s)) (andb (worse (s_obj s) (total C p false)) (p_monotonicity P))) eqn:Ew.
    + apply andb_prop in Ew. destruct Ew as [E1 E2]. apply andb_prop in E2. apply Nat.ltb_lt in E1. destruct (Req_EM_T (s_weight s) 1) as [W|W]; cbn [andb] in E.
      * destruct (Nat.ltb 3 (S (s_bad s))).
        -- injection E as <-. left. eexists. split; [reflexivity|]. cbn. repeat (split; auto).
        -- injection E as <-. right; left. eexists. split; [reflexivity|]. cbn. repeat (split; try tauto); lia.
      * injection E as <-. right; left. eexists. split; [reflexivity|]. cbn. repeat (split; try tauto); lia.
    + injection E as <-. right; right. eexists. split; [reflexivity|]. cbn. repeat (split; auto); [|lia]. intros (H1 & H2 & H3). apply Nat.ltb_lt in H1. rewrite H1, H2, H3 in Ew. discriminate.
Qed.

Section Exact.
Variables (n : nat) (f : vec -> R) (h : vec -> ext) (C : composite).
Hypothesis EX : exact_problem n f h C.

Lemma prox_inequality : forall w st p, length w = n -> 0 < st -> p = c_prox C (1 / st) w (c_grad C w) ->
  f p <= f w + dot (c_grad C w) (vsub p w) + / (2 * st) * sqn (vsub p w) ->
  length p = n /\ exists hp, h p = Fin hp /\ forall z hz, length z = n -> h z = Fin hz ->
    sqn (vsub p w) + 2 * dot (vsub p w) (vsub w z) <= 2 * st * (f z + hz - (f p + hp)).
Proof.
  intros w st p Lw Hst Ep B. destruct (ex_gradient _ _ _ _ EX w Lw) as [Lg _].
  assert (HL : 0 < 1 / st) by (apply Rdiv_lt_0_compat; lra).
  assert (A := ex_prox _ _ _ _ EX (1 / st) w (c_grad C w) HL Lw Lg). rewrite <- Ep in A.
  assert (Lp : length p = n) by apply A. split; auto.
  destruct A as (_ & (r & Er) & M). destruct (h p) as [hp|] eqn:Ehp; [|discriminate]. exists hp. split; auto. intros z hz Lz Ez.
  assert (A : is_argmin n (fun z => ext_add (h z) (Fin (1 / st / 2 * sqn (vsub z w) + dot (c_grad C w) z))) p).
  { split; [auto|]. split; [exists r; rewrite Ehp; auto|]. intros v Lv. cbn beta. rewrite Ehp. apply M. auto. }
  pose proof (prox_variational n h (1 / st) w (c_grad C w) p hp z hz (ex_convex_h _ _ _ _ EX) HL Lw Lg Lz A Ehp Ez) as V.
  pose proof (convex_tangent n f w (c_grad C w) z (ex_convex _ _ _ _ EX) (ex_gradient _ _ _ _ EX w Lw) Lw Lz) as T.
  rewrite dot_sub_r in T, B by congruence.
  assert (K : sqn (vsub p w) + 2 * dot (vsub p w) (vsub w z) = 2 * dot (vsub p w) p - 2 * dot (vsub p w) z - sqn (vsub p w)).
  { unfold sqn. rewrite !dot_sub_r by vlen. ring. }
  rewrite K. set (D := dot (vsub p w) p) in *. set (D' := dot (vsub p w) z) in *. set (Q := sqn (vsub p w)) in *.
  assert (V2 : 1 / st * (D - D') <= hz + dot (c_grad C w) z - hp - dot (c_grad C w) p) by lra.
  assert (V3 : D - D' <= st * (hz + dot (c_grad C w) z - hp - dot (c_grad C w) p)).
  { apply Rmult_le_compat_l with (r := st) in V2; [|lra]. replace (st * (1 / st * (D - D'))) with (D - D') in V2 by (field; lra). auto. }
  assert (B3 : 2 * st * (f p - f w - (dot (c_grad C w) p - dot (c_grad C w) w)) <= Q).
  { assert (B2 : f p - f w - (dot (c_grad C w) p - dot (c_grad C w) w) <= / (2 * st) * Q) by lra. apply Rmult_le_compat_l with (r := 2 * st) in B2; [|lra]. rewrite <- Rmult_assoc, Rinv_r in B2 by lra. lra. }
  nra.
Qed.
(** A step from the current point does not increase the objective; precisely *)
Theorem prox_step_descends : forall w st p r, length w = n -> 0 < st -> p = c_prox C (1 / st) w (c_grad C w) ->
  f p <= f w + dot (c_grad C w) (vsub p w) + / (2 * st) * sqn (vsub p w) -> objective f h w = Fin r ->
  exists r', objective f h p = Fin r' /\ r' + / (2 * st) * sqn (vsub p w) <= r.
Proof.
  intros w st p r Lw Hst Ep B Er. destruct (prox_inequality w st p Lw Hst Ep B) as (Lp & hp & Ehp & K). unfold objective in *. destruct (h w) as [hw|] eqn:Ehw; [|discriminate]. injection Er as <-.
  specialize (K w hw Lw Ehw). rewrite Ehp. simpl. eexists. split; [reflexivity|]. rewrite vsub_self, dot_zeros_r in K.
  assert (Hq := sqn_nonneg (vsub p w)). apply Rmult_le_reg_l with (2 * st); [lra|]. replace (2 * st * (f p + hp + / (2 * st) * sqn (vsub p w))) with (2 * st * (f p + hp) + sqn (vsub p w)) by (field; lra). lra.
Qed.

Section Run.
Variables (P : params).
Hypothesis SF : steps_fit n P C.
Definition shaped (s : fstate) : Prop :=
  length (s_coefs s) = n /\ length (s_working s) = n /\ 0 < s_step s /\ s_obj s = objective f h (s_coefs s) /\
  ((s_weight s = 1 \/ (s_it s <= 1)%nat) -> s_working s = s_coefs s) /\ 1 <= s_weight s /\ (s_it s = 0%nat -> s_weight s = 1).
Definition entry (s : fstate) : vec := if restart_now P (s_it s) then s_coefs s else s_working s.
Lemma propose_spec : forall fuel s p st att, shaped s -> propose fuel P C s = Ok (p, st, att) ->
  0 < st /\ p = c_prox C (1 / st) (entry s) (c_grad C (entry s)) /\ length (entry s) = n /\
  f p <= f (entry s) + dot (c_grad C (entry s)) (vsub p (entry s)) + / (2 * st) * sqn (vsub p (entry s)) /\
  (p_backtrack P = true -> st <= s_step s * alpha) /\ (p_backtrack P = false -> st = 1 / c_lipschitz C).
Proof.
  intros fuel s p st att (Lc & Lw & Hs & _) E. unfold propose in E. cbv zeta in E. fold (entry s) in E.
  assert (Le : length (entry s) = n) by (unfold entry; destruct (restart_now P (s_it s)); auto).
  assert (PL : forall st0, 0 < st0 -> length (c_prox C (1 / st0) (entry s) (c_grad C (entry s))) = n).
  { intros st0 H0. destruct (ex_gradient _ _ _ _ EX _ Le) as [Lg _]. apply (ex_prox _ _ _ _ EX (1 / st0) (entry s)); auto. apply Rdiv_lt_0_compat; lra. }
  destruct (p_backtrack P) eqn:Eb.
  - apply backtrack_spec in E; auto. destruct E as (E1 & E2 & E3). split; [lra|]. split; auto. split; auto. split; [|split; [intros; lra|discriminate]].
    apply (step_ok_bound n f C); auto; [apply EX|apply EX|apply EX|]. rewrite E2. apply PL. lra.
  - destruct SF as [|[HL Lip]]; [congruence|]. destruct (Req_EM_T (c_lipschitz C) 0); [discriminate|]. injection E as <- <- <-.
    assert (Hst : 0 < 1 / c_lipschitz C) by (apply Rdiv_lt_0_compat; lra). assert (EE : 1 / (1 / c_lipschitz C) = c_lipschitz C) by (field; lra).
    split; auto. rewrite EE. split; auto. split; auto. split; [|split; [discriminate|auto]].
    replace (/ (2 * (1 / c_lipschitz C))) with (c_lipschitz C / 2) by (field; lra). apply (descent_lemma n f (c_grad C)); auto; [apply EX|]. rewrite <- EE. apply PL. auto.
Qed.
Lemma total_objective : forall p, length p = n -> (exists hp, h p = Fin hp) -> total C p false = objective f h p.
Proof.
  intros p Lp [hp E]. unfold total, objective. rewrite (ex_smooth _ _ _ _ EX) by auto. rewrite (ex_nonsmooth _ _ _ _ EX p hp), E by auto. auto.
Qed.
Lemma weight_new_gt : forall w, 1 <= w -> w + / 2 < / 2 * (1 + sqrt (1 + 4 * (w * w))) /\ (/ 2 * (1 + sqrt (1 + 4 * (w * w)))) * (/ 2 * (1 + sqrt (1 + 4 * (w * w)))) - / 2 * (1 + sqrt (1 + 4 * (w * w))) = w * w.
Proof.
  intros w Hw. assert (Q : 2 * w < sqrt (1 + 4 * (w * w))).
  { rewrite <- (sqrt_square (2 * w)) at 1 by lra. apply sqrt_lt_1; nra. }
  split; [lra|]. assert (S := sqrt_sqrt (1 + 4 * (w * w)) ltac:(nra)). set (q := sqrt (1 + 4 * (w * w))) in *. nra.
Qed.
Lemma start_shaped : forall x0 st att, length x0 = n -> good_start h C x0 -> (0 < match st with Some r => r | None => p_start_step P end) -> shaped (fista_start P C x0 st att).
Proof.
  intros x0 st att L G Hs. unfold shaped, fista_start. cbn. split; auto. split; auto. split; auto. split; [unfold objective; rewrite (ex_smooth _ _ _ _ EX), G by auto; auto|]. split; [auto|]. split; [lra|auto].
Qed.
(** A proposal made from the coefficients themselves is never worse. *)
Lemma plain_step_good : forall s p st, shaped s -> entry s = s_coefs s -> 0 < st -> p = c_prox C (1 / st) (entry s) (c_grad C (entry s)) ->
  f p <= f (entry s) + dot (c_grad C (entry s)) (vsub p (entry s)) + / (2 * st) * sqn (vsub p (entry s)) -> length (entry s) = n ->
  ext_le (total C p false) (s_obj s) /\ worse (s_obj s) (total C p false) = false.
Proof.
  intros s p st Sh Ee Hst Ep B Le. destruct Sh as (_ & _ & _ & Eo & _).
  destruct (prox_inequality (entry s) st p Le Hst Ep B) as (Lp & hp & Ehp & _). rewrite total_objective by eauto. rewrite Eo, <- Ee.
  destruct (objective f h (entry s)) as [r|] eqn:Er.
  - destruct (prox_step_descends (entry s) st p r Le Hst Ep B Er) as (r' & E' & H'). rewrite E'. assert (0 <= / (2 * st) * sqn (vsub p (entry s))).
    { apply Rmult_le_pos; [left; apply Rinv_0_lt_compat; lra|apply sqn_nonneg]. } simpl. split; [lra|]. destruct (Rlt_dec r r'); auto. exfalso. lra.
  - split; [destruct (objective f h p); simpl; auto|]. auto.
Qed.
Lemma shaped_step : forall fuel s o, shaped s -> iterate fuel P C s = Ok o ->
  match o with Continue s' => shaped s' /\ s_bad s' = s_bad s /\ (p_monotonicity P = true -> not_worse (s_obj s) (s_obj s')) | Stop s' => s_bad s' = s_bad s /\ s_coefs s' = s_coefs s /\ s_obj s' = s_obj s /\ s_it s' = s_it s end.
Proof.
  intros fuel s o Sh E. destruct (iterate_cases _ _ _ _ _ E) as (p & st & att & Ep & D). cbv zeta in D.
  destruct (propose_spec fuel s p st att Sh Ep) as (Hst & Epp & Le & B & _).
  destruct (prox_inequality (entry s) st p Le Hst Epp B) as (Lp & hp & Ehp & _).
  assert (W1 : (s_weight s = 1 \/ (s_it s <= 1)%nat) -> worse (s_obj s) (total C p false) = false).
  { intros W. apply (plain_step_good s p st); auto. unfold entry. destruct (restart_now P (s_it s)); auto. destruct Sh as (_ & _ & _ & _ & Sh & _). apply Sh. auto. }
  destruct D as [(s' & -> & E1 & E2 & E3 & E4 & E5 & E6)|[(s' & -> & (R1 & R2 & R3) & E1 & E2 & E3 & E4 & E5 & E6 & E7 & E8)|(s' & -> & NR & E1 & E2 & E3 & E4 & E5 & E6 & E7 & E8)]].
  - split; auto. destruct E6 as [|[(R1 & R2 & R3) Ew]]; auto. rewrite W1 in R2 by auto. discriminate.
  - destruct Sh as (Lc & Lw & Hs & Eo & _). split; [|split; [destruct E8 as [|Ew]; auto; rewrite W1 in R2 by auto; discriminate|intros _; rewrite E3; apply not_worse_refl]].
    unfold shaped. rewrite E1, E2, E3, E4, E6. rewrite E5. repeat (split; auto). lra.
  - assert (Sh' := Sh). destruct Sh as (Lc & Lw & Hs & Eo & Wk & Hw & W0). split; [|split; auto].
    + destruct (weight_new_gt _ Hw) as [G _]. unfold shaped. rewrite E1, E2, E3, E4, E5, E6. split; auto. split; [vlen|]. split; auto. split; [apply total_objective; eauto|]. split; [|split; [lra|intros; discriminate]].
      intros [H|H]; [lra|]. assert (Hi : s_it s = 0%nat) by lia. 
      assert (W : s_weight s = 1). { auto. }
      rewrite W. unfold Rminus, Rdiv. rewrite Rplus_opp_r, Rmult_0_l. apply line_zero. vlen.
    + intros Hm. apply not_worse_intro. rewrite E3. destruct (le_lt_dec (s_it s) 1) as [Hi|Hi]; [apply W1; auto|].
      destruct (worse (s_obj s) (total C p false)) eqn:Ew; auto. exfalso. apply NR. auto.
Qed.

(** ** Whole runs *)
Lemma chain_snoc : forall l a b, chain (l ++ [a]) -> not_worse a b -> chain ((l ++ [a]) ++ [b]).
Proof.
  intros l a b H N k Hk. rewrite !app_length in Hk. simpl in Hk. rewrite (app_nth1 (l ++ [a]) [b] (n := k) PInf) by (rewrite app_length; simpl; lia).
  destruct (Nat.eq_dec (S k) (length l + 1)) as [E|E].
  - rewrite (app_nth2 (l ++ [a]) [b] PInf (n := S k)) by (rewrite app_length; simpl; lia). rewrite app_length. simpl length. rewrite E, Nat.sub_diag. cbn [nth].
    assert (k = length l) by lia. subst k. rewrite app_nth2, Nat.sub_diag by lia. auto.
  - rewrite (app_nth1 (l ++ [a]) [b] (n := S k) PInf) by (rewrite app_length; simpl; lia). apply H. rewrite app_length. simpl. lia.
Qed.
Lemma exact_loop : forall loops fuel s s', shaped s -> length (s_hist s) = s_it s -> (p_monotonicity P = true -> chain (s_hist s ++ [s_obj s])) -> fista_loop loops fuel P C s = Ok s' ->
  s_bad s' = s_bad s /\ (p_monotonicity P = true -> chain (history s' ++ [s_obj s'])) /\ s_obj s' = objective f h (s_coefs s') /\ length (s_coefs s') = n.
Proof.
  induction loops as [|loops IH]; intros fuel s s' Sh Hh Hc E; cbn [fista_loop] in E; destruct (Nat.ltb_spec (s_it s) (max_of P)) as [Hlt|Hge]; try discriminate.
  - injection E as <-. split; auto. unfold history. rewrite <- Hh, firstn_all. split; auto. split; apply Sh.
  - destruct (iterate fuel P C s) as [o|e] eqn:Ei; [|discriminate]. cbn [rbind] in E. assert (K := shaped_step fuel s o Sh Ei). destruct o as [s1|s1].
    + destruct K as (Sh1 & Eb & Hn). destruct (iterate_continue _ _ _ _ _ Ei) as (I1 & I2 & _).
      apply IH in E; auto; [rewrite <- Eb; auto| |].
      * rewrite I1, I2, app_length. simpl. lia.
      * intros Hm. rewrite I2. apply chain_snoc; auto.
    + injection E as <-. destruct K as (Eb & E1 & E2 & E3). destruct (iterate_stop _ _ _ _ _ Ei) as (_ & I2 & _). split; auto. unfold history. rewrite I2, E1, E2, E3, firstn_app, <- Hh, firstn_all, Nat.sub_diag. cbn [firstn]. rewrite app_nil_r.
      split; auto. split; apply Sh.
  - injection E as <-. split; auto. unfold history. rewrite <- Hh, firstn_all. split; auto. split; apply Sh.
Qed.
Theorem exact_fit : forall loops fuel x0 st att s, length x0 = n -> good_start h C x0 -> 0 < match st with Some r => r | None => p_start_step P end -> fit loops fuel P C x0 st att = Ok s ->
  s_bad s = 0%nat /\ (p_monotonicity P = true -> chain (history s ++ [s_obj s])) /\ s_obj s = objective f h (s_coefs s) /\ length (s_coefs s) = n.
Proof.
  intros loops fuel x0 st att s L G Hs E. apply exact_loop in E; auto; [apply start_shaped; auto|]. intros _ k Hk. simpl in Hk. lia.
Qed.

(** A run that starts where h is finite ends where h is finite. *)
Lemma finite_loop : forall loops fuel s s', shaped s -> (exists r, h (s_coefs s) = Fin r) -> fista_loop loops fuel P C s = Ok s' -> exists r, h (s_coefs s') = Fin r.
Proof.
  induction loops as [|loops IH]; intros fuel s s' Sh Hr E; cbn [fista_loop] in E; destruct (Nat.ltb_spec (s_it s) (max_of P)) as [Hlt|Hge]; try discriminate; try (injection E as <-; exact Hr).
  destruct (iterate fuel P C s) as [o|e] eqn:Ei; [|discriminate]. cbn [rbind] in E. assert (K := shaped_step fuel s o Sh Ei). destruct (iterate_cases _ _ _ _ _ Ei) as (p & st & att & Ep & D). cbv zeta in D.
  destruct (propose_spec fuel s p st att Sh Ep) as (Hst & Epp & Le & B & _). destruct (prox_inequality (entry s) st p Le Hst Epp B) as (Lp & hp & Ehp & _).
  destruct D as [(s1 & -> & E1 & _)|[(s1 & -> & _ & E1 & _)|(s1 & -> & _ & E1 & _)]].
  - injection E as <-. rewrite E1. exact Hr.
  - apply IH in E; auto; [apply K|]. rewrite E1. exact Hr.
  - apply IH in E; auto; [apply K|]. rewrite E1. eauto.
Qed.
Theorem finite_fit : forall loops fuel x0 st att s, length x0 = n -> good_start h C x0 -> 0 < match st with Some r => r | None => p_start_step P end -> (exists r, h x0 = Fin r) -> fit loops fuel P C x0 st att = Ok s ->
  exists r, h (s_coefs s) = Fin r.
Proof. intros loops fuel x0 st att s L G Hs Hr E. apply finite_loop in E; auto. apply start_shaped; auto. Qed.

(** ** Termination of backtracking *)
Section Lip.
Variable L : R.
Hypotheses (HL : 0 < L) (Lip : lipschitz_map n (c_grad C) L).
Lemma step_ok_small : forall w p st, length w = n -> length p = n -> 0 < st <= / (2 * L) -> step_ok C w (c_grad C w) p st = true.
Proof.
  intros w p st Lw Lp [H1 H2]. unfold step_ok. rewrite !(ex_smooth _ _ _ _ EX) by auto. cbv zeta. rewrite norm_sq.
  assert (Hi : L <= / 2 / st). { apply Rmult_le_reg_r with st; [lra|]. unfold Rdiv. rewrite Rmult_assoc, Rinv_l, Rmult_1_r by lra. apply Rmult_le_compat_l with (r := L) in H2; [|lra]. replace (L * / (2 * L)) with (/ 2) in H2 by (field; lra). lra. }
  assert (Hq := sqn_nonneg (vsub p w)). destruct (ex_gradient _ _ _ _ EX _ Lw) as [Lgw _]. destruct (ex_gradient _ _ _ _ EX _ Lp) as [Lgp _].
  destruct (Rlt_dec _ _); destruct (Rle_dec _ _) as [H|H]; auto; exfalso; apply H; clear H.
  - pose proof (descent_lemma n f (c_grad C) L w p (ex_gradient _ _ _ _ EX) Lip Lw Lp) as D. rewrite (dot_comm (vsub p w)). nra.
  - assert (CS : Rabs (dot (vsub p w) (vsub (c_grad C w) (c_grad C p))) <= norm (vsub p w) * norm (vsub (c_grad C w) (c_grad C p))) by (apply cauchy_schwarz_abs; vlen).
    pose proof (Lip w p Lw Lp) as Q. assert (N : norm (vsub w p) = norm (vsub p w)) by (unfold norm; rewrite sqn_vsub_sym by congruence; auto). rewrite N in Q.
    assert (0 <= norm (vsub p w)) by apply norm_nonneg. assert (E := norm_sq (vsub p w)). set (d := norm (vsub p w)) in *. rewrite <- E. nra.
Qed.
Lemma prox_length : forall w st, length w = n -> 0 < st -> length (c_prox C (1 / st) w (c_grad C w)) = n.
Proof. intros w st Lw Hst. destruct (ex_gradient _ _ _ _ EX _ Lw) as [Lg _]. apply (ex_prox _ _ _ _ EX (1 / st) w); auto. apply Rdiv_lt_0_compat; lra. Qed.
Lemma backtrack_loop_ends : forall k w st att, length w = n -> 0 < st <= alpha ^ k * / (2 * L) -> exists r, forall fuel, (k < fuel)%nat -> backtrack_loop fuel C w (c_grad C w) st att = Ok r.
Proof.
  pose proof alpha_gt1 as A. induction k as [|k IH]; intros w st att Lw [H1 H2].
  - eexists. intros [|fuel] Hf; [lia|]. cbn [backtrack_loop]. destruct (Req_EM_T st 0); [exfalso; lra|]. cbv zeta. rewrite step_ok_small; auto; [apply prox_length; auto|]. simpl in H2. lra.
  - assert (Hd : 0 < st / alpha) by (apply Rdiv_lt_0_compat; lra). assert (Hd2 : st / alpha <= alpha ^ k * / (2 * L)).
    { apply Rmult_le_reg_r with alpha; [lra|]. unfold Rdiv. rewrite Rmult_assoc, Rinv_l by lra. simpl in H2. lra. }
    destruct (IH w (st / alpha) false Lw (conj Hd Hd2)) as (r & Hr).
    destruct (step_ok C w (c_grad C w) (c_prox C (1 / st) w (c_grad C w)) st) eqn:Ek.
    + eexists. intros [|fuel] Hf; [lia|]. cbn [backtrack_loop]. destruct (Req_EM_T st 0); [exfalso; lra|]. cbv zeta. rewrite Ek. reflexivity.
    + exists r. intros [|fuel] Hf; [lia|]. cbn [backtrack_loop]. destruct (Req_EM_T st 0); [exfalso; lra|]. cbv zeta. rewrite Ek. destruct (Rlt_dec 0 (st / alpha)); [|contradiction]. apply Hr. lia.
Qed.
Lemma alpha_unbounded : forall M, exists k, M <= alpha ^ k * / (2 * L).
Proof.
  intros M. assert (A : 1 < Rabs alpha) by (rewrite Rabs_pos_eq; pose proof alpha_gt1; lra). destruct (Pow_x_infinity alpha A (M * (2 * L))) as [k Hk]. exists k. specialize (Hk k (le_n k)).
  rewrite Rabs_pos_eq in Hk by (apply pow_le; pose proof alpha_gt1; lra). apply Rmult_le_reg_r with (2 * L); [lra|]. rewrite Rmult_assoc, Rinv_l by lra. lra.
Qed.
Lemma backtrack_ends : forall w st att it, length w = n -> 0 < st -> exists fuel0 r, forall fuel, (fuel0 <= fuel)%nat -> backtrack fuel C it w st att = Ok r.
Proof.
  intros w st att it Lw Hst. pose proof alpha_gt1 as A. destruct (alpha_unbounded (st * alpha)) as [k Hk]. unfold backtrack. cbv zeta.
  destruct (orb _ att); [destruct (backtrack_loop_ends k w (st * alpha) true Lw) as [r Hr]|destruct (backtrack_loop_ends k w st att Lw) as [r Hr]]; try nra; exists (S k), r; intros fuel Hf; apply Hr; lia.
Qed.
(** The steps never fall far below 1/(2L). *)
Lemma backtrack_loop_lower : forall fuel w st att p st' a, length w = n -> 0 < st -> backtrack_loop fuel C w (c_grad C w) st att = Ok (p, st', a) -> Rmin st (/ (2 * L) / alpha) <= st' /\ st' <= st.
Proof.
  pose proof alpha_gt1 as A. induction fuel as [|fuel IH]; intros w st att p st' a Lw Hst E; [discriminate|]. cbn [backtrack_loop] in E. destruct (Req_EM_T st 0); [exfalso; lra|]. cbv zeta in E.
  destruct (step_ok C w (c_grad C w) (c_prox C (1 / st) w (c_grad C w)) st) eqn:Ek.
  - injection E as <- <- <-. split; [apply Rmin_l|lra].
  - assert (Hd : 0 < st / alpha) by (apply Rdiv_lt_0_compat; lra). destruct (Rlt_dec 0 (st / alpha)); [|discriminate].
    assert (Hd2 : st / alpha <= st). { apply Rmult_le_reg_r with alpha; [lra|]. unfold Rdiv. rewrite Rmult_assoc, Rinv_l by lra. nra. }
    apply IH in E; auto. assert (Hbig : / (2 * L) <= st). { destruct (Rle_dec (/ (2 * L)) st); auto. rewrite step_ok_small in Ek; auto; [discriminate|apply prox_length; auto|lra]. }
    assert (Hb2 : / (2 * L) / alpha <= st / alpha) by (apply Rmult_le_compat_r; [left; apply Rinv_0_lt_compat; lra|auto]). split; [|lra].
    eapply Rle_trans; [apply Rmin_r|]. eapply Rle_trans; [|apply E]. apply Rmin_glb; lra.
Qed.
Theorem fit_terminates : forall x0 st att, length x0 = n -> good_start h C x0 -> 0 < match st with Some r => r | None => p_start_step P end ->
  exists fuel0, forall loops fuel, (max_of P <= loops)%nat -> (fuel0 <= fuel)%nat -> exists s, fit loops fuel P C x0 st att = Ok s.
Proof.
  intros x0 st att Lx G Hst. set (s0 := match st with Some r => r | None => p_start_step P end) in *. pose proof alpha_gt1 as A.
  destruct (p_backtrack P) eqn:Eb.
  - destruct (alpha_unbounded (s0 * alpha ^ (S (max_of P)))) as [K HK]. exists (S K). intros loops fuel Hl Hf.
    apply (loop_total (fun s => shaped s /\ s_step s <= s0 * alpha ^ s_it s)); [|split; [apply start_shaped; auto|cbn; fold s0; lra]|cbn; lia].
    intros s (Sh & Hs) Hi. assert (Sh' := Sh). destruct Sh' as (Lc & Lw & Hp & _).
    assert (Hpow : forall k, (k <= max_of P)%nat -> s0 * alpha ^ k <= s0 * alpha ^ (max_of P)). { intros k Hk. apply Rmult_le_compat_l; [lra|]. apply Rle_pow; [lra|auto]. }
    assert (Pr : exists r, propose fuel P C s = Ok r).
    { unfold propose. cbv zeta. fold (entry s). rewrite Eb. unfold backtrack. cbv zeta. assert (Le : length (entry s) = n) by (unfold entry; destruct (restart_now P (s_it s)); auto).
      specialize (Hpow (s_it s) ltac:(lia)). simpl in HK. assert (Hpp : 0 < alpha ^ max_of P) by (apply pow_lt; lra).
      destruct (orb _ (s_attempt s)); [destruct (backtrack_loop_ends K (entry s) (s_step s * alpha) true Le) as [r Hr]|destruct (backtrack_loop_ends K (entry s) (s_step s) (s_attempt s) Le) as [r Hr]]; try nra; exists r; apply Hr; lia. }
    destruct Pr as [[[p st1] att1] Ep].
    assert (Io : exists o, iterate fuel P C s = Ok o).
    { unfold iterate. cbv zeta. match goal with |- context [rbind ?r _] => change r with (propose fuel P C s) end. rewrite Ep. cbn [rbind].
      destruct (andb (Nat.leb _ _) _); [eauto|]. destruct (update_working _ _ _ _). destruct (andb (Nat.ltb _ _) _); [destruct (andb _ _); eauto|eauto]. }
    destruct Io as [o Eo]. exists o. split; auto. intros s' ->. assert (Q := shaped_step fuel s _ Sh Eo). cbn in Q. split; [apply Q|].
    destruct (iterate_cases _ _ _ _ _ Eo) as (p' & st' & att' & Ep' & D). rewrite Ep in Ep'. injection Ep' as <- <- <-. destruct (propose_spec fuel s p st1 att1 Sh Ep) as (_ & _ & _ & _ & B & _). specialize (B Eb). cbv zeta in D.
    destruct (iterate_continue _ _ _ _ _ Eo) as (I1 & _). rewrite I1. simpl. assert (0 < alpha ^ s_it s) by (apply pow_lt; lra).
    destruct D as [(s2 & D & _)|[(s2 & D & _ & _ & _ & _ & _ & _ & E & _)|(s2 & D & _ & _ & _ & _ & _ & _ & E & _)]]; [discriminate| |]; injection D as ->; rewrite E; nra.
  - exists 0%nat. intros loops fuel Hl _. apply fit_terminates_fixed; auto. destruct SF as [|[H _]]; [congruence|]. intros H0. lra.
Qed.
End Lip.
End Run.

(** ** Fixed points *)
Theorem fixed_is_min : forall x L, length x = n -> 0 < L -> c_prox C L x (c_grad C x) = x -> is_argmin n (objective f h) x.
Proof.
  intros x L Lx HL E. destruct (ex_gradient _ _ _ _ EX x Lx) as [Lg _]. assert (A := ex_prox _ _ _ _ EX L x (c_grad C x) HL Lx Lg). rewrite E in A.
  split; auto. assert (A' := A). destruct A' as (_ & (r & Er) & _). destruct (h x) as [hx|] eqn:Ehx; [|discriminate]. unfold objective. split; [exists (f x + hx); rewrite Ehx; auto|].
  intros z Lz. destruct (h z) as [hz|] eqn:Ehz; [|rewrite Ehx; simpl; auto]. rewrite Ehx. simpl.
  pose proof (prox_variational n h L x (c_grad C x) x hx z hz (ex_convex_h _ _ _ _ EX) HL Lx Lg Lz A Ehx Ehz) as V. rewrite vsub_self, !dot_zeros_l in V.
  pose proof (convex_tangent n f x (c_grad C x) z (ex_convex _ _ _ _ EX) (ex_gradient _ _ _ _ EX x Lx) Lx Lz) as T. rewrite dot_sub_r in T by congruence. lra.
Qed.
Theorem min_is_fixed : forall x st, length x = n -> 0 < st -> is_argmin n (objective f h) x ->
  f (c_prox C (1 / st) x (c_grad C x)) <= f x + dot (c_grad C x) (vsub (c_prox C (1 / st) x (c_grad C x)) x) + / (2 * st) * sqn (vsub (c_prox C (1 / st) x (c_grad C x)) x) ->
  c_prox C (1 / st) x (c_grad C x) = x.
Proof.
  intros x st Lx Hst (_ & (r & Er) & M) B. set (p := c_prox C (1 / st) x (c_grad C x)) in *. destruct (prox_inequality x st p Lx Hst eq_refl B) as (Lp & _).
  destruct (prox_step_descends x st p r Lx Hst eq_refl B Er) as (r' & Er' & H). specialize (M p Lp). rewrite Er, Er' in M. simpl in M.
  assert (Hi : 0 < / (2 * st)) by (apply Rinv_0_lt_compat; lra). assert (Hq := sqn_nonneg (vsub p x)). assert (Z : sqn (vsub p x) = 0) by nra.
  apply vsub_eq_zero; [congruence|lra].
Qed.

(** ** The rate *)
Definition comb (t : R) (y x z : vec) : vec := vsub (vsub (vscal t y) (vscal (t - 1) x)) z.
Lemma comb_move : forall t y p x z, length y = length p -> length y = length x -> length y = length z -> comb t p x z = vadd (comb t y x z) (vscal t (vsub p y)).
Proof.
  intros t. unfold comb. induction y as [|b y IH]; intros [|a p] [|c x] [|d z] H1 H2 H3; try discriminate; auto.
  cbn. f_equal; [ring|]. apply IH; simpl in *; lia.
Qed.
Lemma comb_next : forall t t' p x z, t' <> 0 -> length p = length x -> length p = length z -> comb t' (vadd p (vscal ((t - 1) / t') (vsub p x))) p z = comb t p x z.
Proof.
  intros t t' p x z Ht. unfold comb. revert x z. induction p as [|a p IH]; intros [|c x] [|d z] H1 H2; try discriminate; auto.
  cbn. f_equal; [field; auto|]. apply IH; simpl in *; lia.
Qed.
Lemma comb_dot : forall t u y x z, length u = length y -> length u = length x -> length u = length z -> dot u (comb t y x z) = (t - 1) * dot u (vsub y x) + dot u (vsub y z).
Proof. intros. unfold comb. rewrite !dot_sub_r, !dot_scal_r by vlen. ring. Qed.
Lemma comb_start : forall x z, length x = length z -> comb 1 x x z = vsub x z.
Proof.
  unfold comb. induction x as [|a x IH]; intros [|b z] H; try discriminate; auto. cbn. f_equal; [ring|apply IH; simpl in *; lia].
Qed.
Section Rate.
Variables (P : params) (z : vec) (Fz : R).
Hypotheses (SF : steps_fit n P C) (Mon : p_monotonicity P = false) (Res : p_restart P = None) (Lz : length z = n) (Ez : objective f h z = Fin Fz)
  (Min : forall x, length x = n -> ext_le (Fin Fz) (objective f h x)).
Definition potential (D : R) (s : fstate) : Prop :=
  shaped s /\ (p_backtrack P = false -> s_it s <> 0%nat -> s_step s = 1 / c_lipschitz C) /\
  1 + INR (s_it s) / 2 <= s_weight s /\
  exists v, 0 <= v /\ (s_it s <> 0%nat -> s_obj s = Fin (Fz + v) /\ ((INR (s_it s) + 1) / 2) * ((INR (s_it s) + 1) / 2) <= s_weight s * s_weight s - s_weight s) /\ (s_it s = 0%nat -> v = 0) /\
    2 * s_step s * (s_weight s * s_weight s - s_weight s) * v + sqn (comb (s_weight s) (s_working s) (s_coefs s) z) <= D.
Lemma potential_step : forall fuel D s s', potential D s -> iterate fuel P C s = Ok (Continue s') -> (s_it s <> 0%nat \/ p_backtrack P = true -> s_step s' <= s_step s) -> potential D s'.
Proof.
  intros fuel D s s' (Sh & Hfix & Hw & v & Hv & Hv1 & Hv0 & Hpot) Ei Hdec. assert (K := shaped_step P SF fuel s _ Sh Ei). cbn in K. destruct K as (Sh' & _ & _).
  destruct (iterate_cases _ _ _ _ _ Ei) as (p & st & att & Ep & Dd). cbv zeta in Dd.
  destruct (propose_spec P SF fuel s p st att Sh Ep) as (Hst & Epp & Le & B & _ & Bf).
  assert (Een : entry P s = s_working s) by (unfold entry, restart_now; rewrite Res; auto). rewrite Een in *.
  destruct (prox_inequality (s_working s) st p Le Hst Epp B) as (Lp & hp & Ehp & Key).
  destruct Dd as [(s2 & D2 & _)|[(s2 & D2 & (_ & _ & R3) & _)|(s2 & D2 & _ & E1 & E2 & E3 & E4 & E5 & E6 & E7 & E8)]]; [discriminate|rewrite Mon in R3; discriminate|]. injection D2 as <-.
  destruct Sh as (Lc & Lw & Hs & Eo & Wk & Hw1 & W0). set (t := s_weight s) in *. set (x := s_coefs s) in *. set (y := s_working s) in *.
  destruct (weight_new_gt t Hw1) as [Wg We]. set (t' := / 2 * (1 + sqrt (1 + 4 * (t * t)))) in *.
  unfold objective in Ez. destruct (h z) as [hz|] eqn:Ehz; [|discriminate]. simpl in Ez. injection Ez as Ez'.
  assert (Kz := Key z hz Lz Ehz). rewrite Ez' in Kz.
  assert (Hvp : 0 <= f p + hp - Fz). { specialize (Min p Lp). unfold objective in Min. rewrite Ehp in Min. simpl in Min. lra. }
  assert (Kx : (t - 1) * (sqn (vsub p y) + 2 * dot (vsub p y) (vsub y x)) <= (t - 1) * (2 * st * (Fz + v - (f p + hp)))).
  { destruct (Nat.eq_dec (s_it s) 0) as [E0|E0]; [rewrite (W0 E0); lra|]. destruct (Hv1 E0) as [Hv2 _]. rewrite Hv2 in Eo. unfold objective in Eo. destruct (h x) as [hx|] eqn:Ehx; [|discriminate]. simpl in Eo. injection Eo as Eo.
    rewrite Eo. apply Rmult_le_compat_l; [lra|]. apply (Key x hx); auto. }
  assert (Hs' : 2 * st * (t * t - t) * v <= 2 * s_step s * (t * t - t) * v).
  { destruct (Nat.eq_dec (s_it s) 0) as [E0|E0]; [rewrite (Hv0 E0); lra|]. rewrite E6 in Hdec. specialize (Hdec (or_introl E0)). assert (0 <= (t * t - t) * v) by (apply Rmult_le_pos; nra). nra. }
  split; auto. split; [intros Hb _; rewrite E6; auto|]. rewrite E5, S_INR. split; [rewrite E4; lra|].
  exists (f p + hp - Fz). split; auto. rewrite E1, E2, E4, E6. split; [|split; [discriminate|]].
  - intros _. split; [rewrite E3, total_objective by eauto; unfold objective; rewrite Ehp; simpl; f_equal; ring|]. rewrite We. assert (0 <= INR (s_it s)) by apply pos_INR. nra.
  - rewrite We, comb_next by (try congruence; lra). rewrite (comb_move t y p x z) by congruence. set (u := comb t y x z) in *.
    assert (Lu : length u = n) by (unfold u, comb; vlen). rewrite sqn_add, sqn_scal, dot_scal_r by vlen.
    assert (Du : dot u (vsub p y) = (t - 1) * dot (vsub p y) (vsub y x) + dot (vsub p y) (vsub y z)) by (rewrite dot_comm; apply comb_dot; vlen).
    set (q := sqn (vsub p y)) in *. set (a := dot (vsub p y) (vsub y x)) in *. set (b := dot (vsub p y) (vsub y z)) in *. set (w := f p + hp - Fz) in *.
    assert (S1 : t * q + 2 * dot u (vsub p y) <= 2 * st * ((t - 1) * v - t * w)).
    { rewrite Du. replace (f p + hp) with (Fz + w) in Kx, Kz by (unfold w; ring). lra. }
    assert (S2 : t * (t * q + 2 * dot u (vsub p y)) <= t * (2 * st * ((t - 1) * v - t * w))) by (apply Rmult_le_compat_l; lra).
    fold u. lra.
Qed.

Definition no_growth (s : fstate) : Prop := p_backtrack P = false \/ (s_attempt s = false /\ (max_of P <= 99)%nat).
Lemma steps_decrease : forall fuel s p st att, shaped s -> no_growth s -> (s_it s < max_of P)%nat -> propose fuel P C s = Ok (p, st, att) ->
  (p_backtrack P = true -> st <= s_step s) /\ (p_backtrack P = true -> att = false).
Proof.
  intros fuel s p st att (_ & _ & Hs & _) [H|[H1 H2]] Hi E; [split; intros; congruence|]. unfold propose in E. cbv zeta in E. destruct (p_backtrack P); [|split; discriminate].
  unfold backtrack in E. cbv zeta in E. rewrite H1, orb_false_r in E. rewrite Nat.mod_small in E by lia. destruct (Nat.eqb_spec (s_it s + 1) 0); [lia|].
  assert (K : forall fuel w g st0 p st att, 0 < st0 -> backtrack_loop fuel C w g st0 false = Ok (p, st, att) -> st <= st0 /\ att = false).
  { clear. pose proof alpha_gt1 as A. induction fuel as [|fuel IH]; intros w g st0 p st att H E; [discriminate|]. cbn [backtrack_loop] in E. destruct (Req_EM_T st0 0); [discriminate|]. cbv zeta in E.
    destruct (step_ok _ _ _ _ _); [injection E as <- <- <-; split; auto; lra|]. destruct (Rlt_dec 0 (st0 / alpha)); [|discriminate]. apply IH in E; auto. destruct E as [E1 E2]. split; auto.
    apply Rle_trans with (1 := E1). apply Rmult_le_reg_r with alpha; [lra|]. unfold Rdiv. rewrite Rmult_assoc, Rinv_l by lra. nra. }
  apply K in E; auto. tauto.
Qed.
Lemma rate_loop : forall loops fuel D s s', potential D s -> no_growth s -> fista_loop loops fuel P C s = Ok s' -> s_it s' <> 0%nat ->
  exists v, 0 <= v /\ s_obj s' = Fin (Fz + v) /\ s_step s' * ((INR (s_it s') + 1) * (INR (s_it s') + 1)) * v <= 2 * D /\ (p_backtrack P = false -> s_step s' = 1 / c_lipschitz C).
Proof.
  assert (Fin_case : forall D s, potential D s -> s_it s <> 0%nat -> exists v, 0 <= v /\ s_obj s = Fin (Fz + v) /\ s_step s * ((INR (s_it s) + 1) * (INR (s_it s) + 1)) * v <= 2 * D /\ (p_backtrack P = false -> s_step s = 1 / c_lipschitz C)).
  { intros D s (Sh & Hfix & _ & v & Hv & Hv1 & _ & Hp) Hi. destruct (Hv1 Hi) as [H1 H2]. exists v. split; auto. split; auto. split; [|intros Hb; auto].
    destruct Sh as (_ & _ & Hs & _). assert (Hq := sqn_nonneg (comb (s_weight s) (s_working s) (s_coefs s) z)).
    assert (M := Rmult_le_compat_l (s_step s * v) _ _ ltac:(apply Rmult_le_pos; lra) H2). lra. }
  induction loops as [|loops IH]; intros fuel D s s' Hp Hg E Hi; cbn [fista_loop] in E; destruct (Nat.ltb_spec (s_it s) (max_of P)) as [Hlt|Hge]; try discriminate.
  - injection E as <-. eauto.
  - destruct (iterate fuel P C s) as [o|e] eqn:Ei; [|discriminate]. cbn [rbind] in E. destruct (iterate_cases _ _ _ _ _ Ei) as (p & st & att & Ep & Dd). cbv zeta in Dd.
    assert (Sh : shaped s) by apply Hp. destruct (steps_decrease _ _ _ _ _ Sh Hg Hlt Ep) as [Sd Sa]. destruct (propose_spec P SF fuel s p st att Sh Ep) as (Hst & _ & _ & _ & _ & Bf).
    assert (Hdec : (s_it s <> 0%nat \/ p_backtrack P = true) -> st <= s_step s).
    { intros H. destruct (p_backtrack P) eqn:Eb; auto. destruct H as [H|]; [|discriminate]. destruct Hp as (_ & Hfix & _). rewrite (Hfix Eb H), (Bf eq_refl). lra. }
    destruct o as [s1|s1].
    + destruct Dd as [(s2 & D2 & _)|[(s2 & D2 & (_ & _ & R3) & _)|(s2 & D2 & _ & E1 & E2 & E3 & E4 & E5 & E6 & E7 & E8)]]; [discriminate|rewrite Mon in R3; discriminate|]. injection D2 as <-.
      apply IH with (D := D) in E; auto.
      * apply (potential_step fuel D s); auto. rewrite E6. auto.
      * destruct Hg as [|[G1 G2]]; [left; auto|]. destruct (p_backtrack P) eqn:Eb; [right|left; auto]. rewrite E7. auto.
    + injection E as <-. destruct Dd as [(s2 & D2 & E1 & E2 & E3 & E4 & E5 & _)|[(s2 & D2 & _)|(s2 & D2 & _)]]; try discriminate. injection D2 as <-.
      rewrite E3 in Hi. destruct (Fin_case D s Hp Hi) as (v & Hv & Ho & Hb & Hf). exists v. rewrite E2, E3, E4. split; auto. split; auto. split; [|intros Hb0; auto].
      specialize (Hdec (or_introl Hi)). assert (0 <= (INR (s_it s) + 1) * (INR (s_it s) + 1) * v) by (apply Rmult_le_pos; auto; apply Rle_0_sqr). assert (M := Rmult_le_compat_r _ _ _ H Hdec). lra.
  - injection E as <-. eauto.
Qed.
Lemma start_potential : forall x0 st att, length x0 = n -> good_start h C x0 -> 0 < match st with Some r => r | None => p_start_step P end -> potential (sqn (vsub x0 z)) (fista_start P C x0 st att).
Proof.
  intros x0 st att Lx G Hs. split; [apply start_shaped; auto|]. unfold fista_start. cbn [s_it s_weight s_obj s_step s_working s_coefs INR]. split; [intros _ H; congruence|]. split; [lra|].
  exists 0. split; [lra|]. split; [congruence|]. split; auto. rewrite comb_start by congruence. lra.
Qed.
Theorem fista_rate : forall loops fuel x0 st att s, length x0 = n -> good_start h C x0 -> 0 < match st with Some r => r | None => p_start_step P end ->
  p_backtrack P = false \/ (att = false /\ (max_of P <= 99)%nat) -> fit loops fuel P C x0 st att = Ok s -> s_it s <> 0%nat ->
  exists Fs, objective f h (s_coefs s) = Fin Fs /\ Fs - Fz <= 2 * sqn (vsub x0 z) / (s_step s * ((INR (s_it s) + 1) * (INR (s_it s) + 1))) /\ (p_backtrack P = false -> s_step s = 1 / c_lipschitz C).
Proof.
  intros loops fuel x0 st att s Lx G Hs Hg E Hi. assert (Ex := exact_fit P SF _ _ _ _ _ _ Lx G Hs E). destruct Ex as (_ & _ & Eo & _).
  destruct (rate_loop _ _ _ _ _ (start_potential x0 st att Lx G Hs) Hg E Hi) as (v & Hv & Ev & Hb & Hf). exists (Fz + v). split; [congruence|]. split; auto.
  assert (Hst : 0 < s_step s).
  { clear - E EX SF Lx G Hs. unfold fit in E. assert (Sh := start_shaped P x0 st att Lx G Hs). revert Sh E. generalize (fista_start P C x0 st att). clear Lx G Hs. revert fuel. induction loops as [|loops IH]; intros fuel s0 Sh E; cbn [fista_loop] in E; destruct (Nat.ltb (s_it s0) (max_of P)); try discriminate.
    - injection E as <-. apply Sh.
    - destruct (iterate fuel P C s0) as [o|e] eqn:Ei; [|discriminate]. cbn [rbind] in E. assert (K := shaped_step P SF fuel s0 o Sh Ei). destruct o as [s1|s1]; [apply (IH fuel s1); auto; apply K|].
      injection E as <-. destruct (iterate_cases _ _ _ _ _ Ei) as (p & st1 & att1 & Ep & Dd). destruct (propose_spec P SF fuel s0 p st1 att1 Sh Ep) as (Hst & _). cbv zeta in Dd. destruct Dd as [(s2 & D2 & E1 & E2 & E3 & E4 & E5 & _)|[(s2 & D2 & _)|(s2 & D2 & _)]]; try discriminate. injection D2 as <-. rewrite E4. auto.
    - injection E as <-. apply Sh. }
  assert (0 <= INR (s_it s)) by apply pos_INR. assert (0 < s_step s * ((INR (s_it s) + 1) * (INR (s_it s) + 1))) by (apply Rmult_lt_0_compat; nra).
  apply Rmult_le_reg_r with (s_step s * ((INR (s_it s) + 1) * (INR (s_it s) + 1))); auto. unfold Rdiv. rewrite Rmult_assoc, Rinv_l by lra. lra.
Qed.
End Rate.
End Exact.

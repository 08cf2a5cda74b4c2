(** Proofs about the FISTA solver: why a run stops, and the rate since the last rejected step. *)
From Coq Require Import Reals List Lra Lia Arith Bool.
From Verif Require Import Vec Spec SpecConvex M_fista SpecFista P_quad P_calc P_fista P_fista2.
Import ListNotations.
Local Open Scope R_scope.

(** ** Why a run stops *)
Lemma small_move_iff : forall tol a b, small_move tol a b = true -> norm (vsub a b) / Rmax 1 (norm b) < tol.
Proof. intros tol a b H. unfold small_move in H. destruct (Rlt_dec _ _); [auto|discriminate]. Qed.
Lemma small_change_iff : forall tol a b, small_change tol a b = true -> exists u v, a = Fin u /\ b = Fin v /\ (Rabs (v - u) / Rmax (Rabs u) 1 < tol \/ Rabs (v - u) < tol).
Proof.
  intros tol [u|] [v|] H; simpl in H; try discriminate. exists u, v. split; auto. split; auto.
  destruct (Rlt_dec _ _); auto. destruct (Rlt_dec _ _); auto. discriminate.
Qed.
Lemma iterate_stop_reason : forall fuel P C s s', iterate fuel P C s = Ok (Stop s') -> s_coefs s' = s_coefs s /\ s_obj s' = s_obj s /\ s_it s' = s_it s /\ ((3 < s_bad s')%nat \/ ((min_of P <= s_it s')%nat /\ close_enough C P s' (s_working s'))).
Proof.
  intros fuel P C s s' E. unfold iterate in E. cbv zeta in E.
  match type of E with rbind ?r _ = _ => destruct r as [[[p st] att]|e]; [|discriminate] end. cbn [rbind] in E.
  destruct (andb (Nat.leb (min_of P) (s_it s)) _) eqn:Em.
  - injection E as <-. cbn [s_coefs s_obj s_it s_bad s_working]. repeat (split; [reflexivity|]). right. apply andb_prop in Em. destruct Em as [Em T]. apply Nat.leb_le in Em. split; auto.
    unfold close_enough. cbn [s_coefs s_obj]. destruct (p_coef_stop P); [apply small_move_iff; auto|]. fold (total C p false) in T. apply small_change_iff in T. destruct T as (u & v & -> & -> & T). exact T.
  - destruct (update_working (p_FISTA P) (s_weight s) p (s_coefs s)) as [wn w'].
    destruct (andb (Nat.ltb 1 (s_it s)) _); [|discriminate]. destruct (andb _ (Nat.ltb 3 _)) eqn:E3; [|discriminate]. injection E as <-. apply andb_prop in E3. destruct E3 as [_ E3]. apply Nat.ltb_lt in E3.
    cbn [s_coefs s_obj s_it s_bad s_working]. repeat (split; [reflexivity|]). left. exact E3.
Qed.
Theorem fit_stop_reason : forall loops fuel P C x0 st att s, fit loops fuel P C x0 st att = Ok s ->
  s_it s = max_of P \/ (3 < s_bad s)%nat \/ ((min_of P <= s_it s)%nat /\ close_enough C P s (s_working s)).
Proof.
  intros loops fuel P C x0 st att. unfold fit. assert (H0 : (s_it (fista_start P C x0 st att) <= max_of P)%nat) by (cbn; lia). revert H0. generalize (fista_start P C x0 st att). induction loops as [|loops IH]; intros s0 H0 s E; cbn [fista_loop] in E; destruct (Nat.ltb_spec (s_it s0) (max_of P)) as [Hlt|Hge]; try discriminate; try (injection E as <-; left; lia).
  destruct (iterate fuel P C s0) as [[s1|s1]|e] eqn:Ei; cbn [rbind] in E; [| |discriminate].
  - apply (IH s1); auto. destruct (iterate_continue _ _ _ _ _ Ei) as (-> & _). lia.
  - injection E as <-. right. destruct (iterate_stop_reason _ _ _ _ _ Ei) as (_ & _ & _ & D). exact D.
Qed.

(** ** The rate since the last rejected step *)
Section Since.
Variables (n : nat) (f : vec -> R) (h : vec -> ext) (C : composite) (P : params) (z : vec) (Fz : R).
Hypotheses (EX : exact_problem n f h C) (HL : 0 < c_lipschitz C) (Lip : lipschitz_map n (c_grad C) (c_lipschitz C)) (Hb : p_backtrack P = false) (Res : p_restart P = None)
  (Lz : length z = n) (Ez : objective f h z = Fin Fz) (Min : forall x, length x = n -> ext_le (Fin Fz) (objective f h x)).
Lemma since_fit : steps_fit n P C.
Proof. right. auto. Qed.
Let st0 := 1 / c_lipschitz C.
Definition pot (m : nat) (D : R) (s : fstate) : Prop :=
  shaped n f h s /\ 1 + INR m / 2 <= s_weight s /\ (m = 0%nat -> s_weight s = 1) /\
  exists v, 0 <= v /\ (m <> 0%nat -> s_obj s = Fin (Fz + v) /\ ((INR m + 1) / 2) * ((INR m + 1) / 2) <= s_weight s * s_weight s - s_weight s) /\
    2 * st0 * (s_weight s * s_weight s - s_weight s) * v + sqn (comb (s_weight s) (s_working s) (s_coefs s) z) <= D.
Lemma pot_restart : forall s, shaped n f h s -> s_weight s = 1 -> pot 0 (sqn (vsub (s_coefs s) z)) s.
Proof.
  intros s Sh W. assert (Sh' := Sh). destruct Sh' as (Lc & Lw & _ & _ & Wk & _). split; auto. cbn [INR]. split; [lra|]. split; auto. exists 0. split; [lra|]. split; [congruence|].
  rewrite W, (Wk (or_introl W)), comb_start by congruence. lra.
Qed.
Lemma pot_step : forall fuel m D s s', pot m D s -> iterate fuel P C s = Ok (Continue s') -> pot (S m) D s' \/ (pot 0 (sqn (vsub (s_coefs s') z)) s' /\ s_coefs s' = s_coefs s /\ s_obj s' = s_obj s).
Proof.
  intros fuel m D s s' (Sh & Hw & W0 & v & Hv & Hv1 & Hpot) Ei. assert (K := shaped_step n f h C EX P since_fit fuel s _ Sh Ei). cbn in K. destruct K as (Sh' & _ & _).
  destruct (iterate_cases _ _ _ _ _ Ei) as (p & st & att & Ep & Dd). cbv zeta in Dd.
  destruct (propose_spec n f h C EX P since_fit fuel s p st att Sh Ep) as (Hst & Epp & Le & B & _ & Bf). specialize (Bf Hb). fold st0 in Bf. subst st.
  assert (Een : entry P s = s_working s) by (unfold entry, restart_now; rewrite Res; auto). rewrite Een in *.
  destruct (prox_inequality n f h C EX (s_working s) st0 p Le Hst Epp B) as (Lp & hp & Ehp & Key).
  destruct Dd as [(s2 & D2 & _)|[(s2 & D2 & _ & E1 & E2 & E3 & E4 & _)|(s2 & D2 & _ & E1 & E2 & E3 & E4 & E5 & E6 & E7 & E8)]]; [discriminate| |]; injection D2 as <-.
  { right. split; [apply pot_restart; auto|]. auto. }
  left. destruct Sh as (Lc & Lw & Hs & Eo & Wk & Hw1 & _). set (t := s_weight s) in *. set (x := s_coefs s) in *. set (y := s_working s) in *.
  destruct (weight_new_gt t Hw1) as [Wg We]. set (t' := / 2 * (1 + sqrt (1 + 4 * (t * t)))) in *.
  unfold objective in Ez. destruct (h z) as [hz|] eqn:Ehz; [|discriminate]. simpl in Ez. injection Ez as Ez'.
  assert (Kz := Key z hz Lz Ehz). rewrite Ez' in Kz.
  assert (Hvp : 0 <= f p + hp - Fz). { specialize (Min p Lp). unfold objective in Min. rewrite Ehp in Min. simpl in Min. lra. }
  assert (Kx : (t - 1) * (sqn (vsub p y) + 2 * dot (vsub p y) (vsub y x)) <= (t - 1) * (2 * st0 * (Fz + v - (f p + hp)))).
  { destruct (Nat.eq_dec m 0) as [E0|E0]; [rewrite (W0 E0); lra|]. destruct (Hv1 E0) as [Hv2 _]. rewrite Hv2 in Eo. unfold objective in Eo. destruct (h x) as [hx|] eqn:Ehx; [|discriminate]. simpl in Eo. injection Eo as Eo.
    rewrite Eo. apply Rmult_le_compat_l; [lra|]. apply (Key x hx); auto. }
  split; auto. rewrite S_INR. split; [rewrite E4; lra|]. split; [discriminate|].
  exists (f p + hp - Fz). split; auto. rewrite E1, E2, E4. split.
  - intros _. split; [rewrite E3, (total_objective n f h C EX) by eauto; unfold objective; rewrite Ehp; simpl; f_equal; ring|]. rewrite We. assert (0 <= INR m) by apply pos_INR. nra.
  - rewrite We, comb_next by (try congruence; lra). rewrite (comb_move t y p x z) by congruence. set (u := comb t y x z) in *.
    assert (Lu : length u = n) by (unfold u, comb; vlen). rewrite sqn_add, sqn_scal, dot_scal_r by vlen.
    assert (Du : dot u (vsub p y) = (t - 1) * dot (vsub p y) (vsub y x) + dot (vsub p y) (vsub y z)) by (rewrite dot_comm; apply comb_dot; vlen).
    set (q := sqn (vsub p y)) in *. set (a := dot (vsub p y) (vsub y x)) in *. set (b := dot (vsub p y) (vsub y z)) in *. set (w := f p + hp - Fz) in *.
    assert (S1 : t * q + 2 * dot u (vsub p y) <= 2 * st0 * ((t - 1) * v - t * w)).
    { rewrite Du. replace (f p + hp) with (Fz + w) in Kx, Kz by (unfold w; ring). lra. }
    assert (S2 : t * (t * q + 2 * dot u (vsub p y)) <= t * (2 * st0 * ((t - 1) * v - t * w))) by (apply Rmult_le_compat_l; lra).
    fold u. lra.
Qed.
(** The last rejection happened in pass j (or never: j = 0); [tr] lists the states. *)
Definition segment (s : fstate) (tr : list (vec * ext)) (j : nat) (D : R) : Prop :=
  (j <= s_it s)%nat /\ (j = 0%nat \/ forall d, nth (j - 1) (full_trace s tr) d = nth j (full_trace s tr) d) /\ (forall d, D = sqn (vsub (fst (nth j (full_trace s tr) d)) z)) /\ pot (s_it s - j) D s.
Lemma trace_snoc : forall s s' tr k d, length tr = s_it s -> (k <= s_it s)%nat -> nth k (full_trace s' (tr ++ [(s_coefs s, s_obj s)])) d = nth k (full_trace s tr) d.
Proof. intros s s' tr k d L H. unfold full_trace. rewrite app_nth1 by (rewrite app_length; simpl; lia). reflexivity. Qed.
Lemma trace_last : forall s tr d, length tr = s_it s -> nth (s_it s) (full_trace s tr) d = (s_coefs s, s_obj s).
Proof. intros s tr d L. unfold full_trace. rewrite app_nth2, L, Nat.sub_diag by lia. reflexivity. Qed.
Lemma segment_step : forall fuel s s' tr j D, inv P C (fst (nth 0 (full_trace s tr) ([], PInf))) s tr -> segment s tr j D -> iterate fuel P C s = Ok (Continue s') -> exists j' D', segment s' (tr ++ [(s_coefs s, s_obj s)]) j' D'.
Proof.
  intros fuel s s' tr j D (L & _) (Hj & Hr & HD & Hp) Ei. destruct (iterate_continue _ _ _ _ _ Ei) as (I1 & _). destruct (pot_step _ _ _ _ _ Hp Ei) as [Hp'|(Hp' & Ec & Eo)].
  - exists j, D. split; [lia|]. split; [|split].
    + destruct Hr as [|Hr]; auto. right. intros d. rewrite !trace_snoc by (auto; lia). apply Hr.
    + intros d. rewrite trace_snoc by (auto; lia). apply HD.
    + rewrite I1. replace (S (s_it s) - j)%nat with (S (s_it s - j)) by lia. exact Hp'.
  - exists (s_it s'), (sqn (vsub (s_coefs s') z)). split; [lia|]. assert (L' : length (tr ++ [(s_coefs s, s_obj s)]) = s_it s') by (rewrite app_length; simpl; lia). split; [|split].
    + right. intros d. rewrite (trace_last s') by auto. rewrite I1. replace (S (s_it s) - 1)%nat with (s_it s) by lia. rewrite trace_snoc, trace_last by (auto; lia). congruence.
    + intros d. rewrite trace_last by auto. reflexivity.
    + rewrite Nat.sub_diag. exact Hp'.
Qed.
Lemma pot_bound : forall m D s, pot m D s -> m <> 0%nat -> exists v, 0 <= v /\ s_obj s = Fin (Fz + v) /\ v <= 2 * c_lipschitz C * D / ((INR m + 1) * (INR m + 1)).
Proof.
  intros m D s (_ & _ & _ & v & Hv & Hv1 & Hp) Hm. destruct (Hv1 Hm) as [H1 H2]. exists v. split; auto. split; auto.
  assert (Hq := sqn_nonneg (comb (s_weight s) (s_working s) (s_coefs s) z)). assert (Hs : 0 < st0) by (apply Rdiv_lt_0_compat; lra).
  assert (M := Rmult_le_compat_l (st0 * v) _ _ ltac:(apply Rmult_le_pos; lra) H2). assert (0 <= INR m) by apply pos_INR.
  assert (G : st0 * ((INR m + 1) * (INR m + 1)) * v <= 2 * D) by lra. assert (E : c_lipschitz C * st0 = 1) by (unfold st0; field; lra).
  apply Rmult_le_compat_l with (r := c_lipschitz C) in G; [|lra]. replace (c_lipschitz C * (st0 * ((INR m + 1) * (INR m + 1)) * v)) with (c_lipschitz C * st0 * (((INR m + 1) * (INR m + 1)) * v)) in G by ring. rewrite E in G.
  assert (Hp1 : 0 < (INR m + 1) * (INR m + 1)) by nra. apply Rmult_le_reg_r with ((INR m + 1) * (INR m + 1)); auto. unfold Rdiv. rewrite Rmult_assoc, Rinv_l by lra. lra.
Qed.
Lemma since_loop : forall loops fuel x0 s tr j D s', inv P C x0 s tr -> segment s tr j D -> fista_loop loops fuel P C s = Ok s' ->
  exists tr' j', explains C P x0 s' tr' /\ (j' <= s_it s')%nat /\ (j' = 0%nat \/ forall d, nth (j' - 1) (full_trace s' tr') d = nth j' (full_trace s' tr') d) /\
    (j' <> s_it s' -> exists v, 0 <= v /\ s_obj s' = Fin (Fz + v) /\ forall d, v <= 2 * c_lipschitz C * sqn (vsub (fst (nth j' (full_trace s' tr') d)) z) / ((INR (s_it s' - j') + 1) * (INR (s_it s' - j') + 1))).
Proof.
  assert (Done : forall x0 s tr j D, inv P C x0 s tr -> segment s tr j D -> exists tr' j', explains C P x0 s tr' /\ (j' <= s_it s)%nat /\ (j' = 0%nat \/ forall d, nth (j' - 1) (full_trace s tr') d = nth j' (full_trace s tr') d) /\
    (j' <> s_it s -> exists v, 0 <= v /\ s_obj s = Fin (Fz + v) /\ forall d, v <= 2 * c_lipschitz C * sqn (vsub (fst (nth j' (full_trace s tr') d)) z) / ((INR (s_it s - j') + 1) * (INR (s_it s - j') + 1)))).
  { intros x0 s tr j D (L & H & N & M) (Hj & Hr & HD & Hp). exists tr, j. split; [|split; [auto|split; [auto|]]].
    - split; auto. split; [unfold history; rewrite <- H, <- L, <- (map_length snd tr), firstn_all; auto|]. split; auto. intros k d Hk. destruct (M k d Hk) as [E|[E _]]; [left|right]; auto.
    - intros Hne. destruct (pot_bound _ _ _ Hp ltac:(lia)) as (v & Hv & Eo & B). exists v. split; auto. split; auto. intros d. rewrite <- HD. exact B. }
  induction loops as [|loops IH]; intros fuel x0 s tr j D s' I Sg E; cbn [fista_loop] in E; destruct (Nat.ltb_spec (s_it s) (max_of P)) as [Hlt|Hge]; try discriminate; try (injection E as <-; eapply Done; eauto).
  destruct (iterate fuel P C s) as [[s1|s1]|e] eqn:Ei; cbn [rbind] in E; [| |discriminate].
  - assert (I' : inv P C (fst (nth 0 (full_trace s tr) ([], PInf))) s tr). { destruct I as (L & H & N & M). rewrite N. cbn [fst]. split; auto. }
    destruct (segment_step _ _ _ _ _ _ I' Sg Ei) as (j' & D' & Sg'). apply iterate_continue in Ei. exact (IH fuel x0 s1 _ j' D' s' (inv_step P C x0 s s1 tr I Ei) Sg' E).
  - injection E as <-. destruct (iterate_stop _ _ _ _ _ Ei) as (E1 & E2 & E3 & E4 & _). destruct (Done x0 s tr j D I Sg) as (tr' & j' & X & D1 & D2 & D3). exists tr', j'. unfold explains, full_trace, history in *. rewrite E1, E2, E3, E4.
    split; [|auto]. destruct X as (X1 & X2 & X3 & X4). split; auto. split; [|auto]. destruct I as (L & H & _). rewrite firstn_app. rewrite X2. rewrite <- H at 3. rewrite map_length, L, Nat.sub_diag. cbn [firstn]. rewrite app_nil_r. reflexivity.
Qed.
Theorem rate_since_rejection : forall loops fuel x0 st att s, length x0 = n -> good_start h C x0 -> 0 < first_step P st -> fit loops fuel P C x0 st att = Ok s ->
  exists tr j, explains C P x0 s tr /\ (j <= s_it s)%nat /\ (j = 0%nat \/ forall d, nth (j - 1) (full_trace s tr) d = nth j (full_trace s tr) d) /\
    (j <> s_it s -> exists Fs, objective f h (s_coefs s) = Fin Fs /\ forall d, Fs - Fz <= 2 * c_lipschitz C * sqn (vsub (fst (nth j (full_trace s tr) d)) z) / ((INR (s_it s - j) + 1) * (INR (s_it s - j) + 1))).
Proof.
  intros loops fuel x0 st att s Lx G Hs E. assert (Sh := start_shaped n f h C EX P x0 st att Lx G Hs). destruct (exact_fit n f h C EX P since_fit _ _ _ _ _ _ Lx G Hs E) as (_ & _ & Eo & _).
  destruct (since_loop loops fuel x0 (fista_start P C x0 st att) [] 0 (sqn (vsub x0 z)) s (inv_start P C x0 st att)) as (tr & j & X & H1 & H2 & H3); auto.
  - split; [lia|]. split; [auto|]. split; [intros d; reflexivity|]. apply (pot_restart (fista_start P C x0 st att)); auto.
  - exists tr, j. split; auto. split; auto. split; auto. intros Hne. destruct (H3 Hne) as (v & Hv & Ev & B). exists (Fz + v). split; [congruence|]. intros d. specialize (B d). lra.
Qed.
End Since.

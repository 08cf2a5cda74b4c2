(** The rate of FISTA when step sizes grow. *)
From Coq Require Import Reals List Lra Lia Arith Bool.
From Verif Require Import Vec Spec SpecConvex M_fista SpecFista P_quad P_calc P_fista P_fista2 P_fista3.
Import ListNotations.
Local Open Scope R_scope.

Lemma growth_cons2 : forall a b r, growth (a :: b :: r) = Rmax 1 (b / a) * growth (b :: r).
Proof. reflexivity. Qed.
Lemma growth_snoc : forall l a b, growth ((l ++ [a]) ++ [b]) = growth (l ++ [a]) * Rmax 1 (b / a).
Proof.
  induction l as [|c l IH]; intros a b; [cbn; ring|]. destruct l as [|d l].
  - cbn [app]. rewrite !growth_cons2. cbn [growth]. ring.
  - change (growth (c :: d :: (l ++ [a]) ++ [b]) = growth (c :: d :: l ++ [a]) * Rmax 1 (b / a)). rewrite !growth_cons2. change (d :: (l ++ [a]) ++ [b]) with (((d :: l) ++ [a]) ++ [b]). rewrite IH. cbn [app]. ring.
Qed.
Lemma growth_ge1 : forall l, 1 <= growth l.
Proof.
  induction l as [|a [|b r] IH]; [cbn; lra|cbn; lra|]. rewrite growth_cons2. assert (M := Rmax_l 1 (b / a)). nra.
Qed.
Section Growing.
Variables (n : nat) (f : vec -> R) (h : vec -> ext) (C : composite) (P : params) (z : vec) (Fz : R).
Hypotheses (EX : exact_problem n f h C) (SF : steps_fit n P C) (Res : p_restart P = None)
  (Lz : length z = n) (Ez : objective f h z = Fin Fz) (Min : forall x, length x = n -> ext_le (Fin Fz) (objective f h x)).
Definition gpot (m : nat) (D : R) (s : fstate) : Prop :=
  shaped n f h s /\ 1 + INR m / 2 <= s_weight s /\ (m = 0%nat -> s_weight s = 1) /\
  exists v, 0 <= v /\ (m <> 0%nat -> s_obj s = Fin (Fz + v) /\ ((INR m + 1) / 2) * ((INR m + 1) / 2) <= s_weight s * s_weight s - s_weight s) /\
    2 * s_step s * (s_weight s * s_weight s - s_weight s) * v + sqn (comb (s_weight s) (s_working s) (s_coefs s) z) <= D.
Lemma gpot_restart : forall s, shaped n f h s -> s_weight s = 1 -> gpot 0 (sqn (vsub (s_coefs s) z)) s.
Proof.
  intros s Sh W. assert (Sh' := Sh). destruct Sh' as (Lc & Lw & _ & _ & Wk & _). split; auto. cbn [INR]. split; [lra|]. split; auto. exists 0. split; [lra|]. split; [congruence|].
  rewrite W, (Wk (or_introl W)), comb_start by congruence. lra.
Qed.
Lemma gpot_step : forall fuel m D s s', gpot m D s -> iterate fuel P C s = Ok (Continue s') ->
  gpot (S m) (D * (if Nat.eqb m 0 then 1 else Rmax 1 (s_step s' / s_step s))) s' \/ (gpot 0 (sqn (vsub (s_coefs s') z)) s' /\ s_coefs s' = s_coefs s /\ s_working s' = s_coefs s' /\ p_monotonicity P = true).
Proof.
  intros fuel m D s s' (Sh & Hw & W0 & v & Hv & Hv1 & Hpot) Ei. assert (K := shaped_step n f h C EX P SF fuel s _ Sh Ei). cbn in K. destruct K as (Sh' & _ & _).
  destruct (iterate_cases _ _ _ _ _ Ei) as (p & st & att & Ep & Dd). cbv zeta in Dd.
  destruct (propose_spec n f h C EX P SF fuel s p st att Sh Ep) as (Hst & Epp & Le & B & _ & _).
  assert (Een : entry P s = s_working s) by (unfold entry, restart_now; rewrite Res; auto). rewrite Een in *.
  destruct (prox_inequality n f h C EX (s_working s) st p Le Hst Epp B) as (Lp & hp & Ehp & Key).
  destruct Dd as [(s2 & D2 & _)|[(s2 & D2 & (_ & _ & R3) & E1 & E2 & E3 & E4 & _)|(s2 & D2 & _ & E1 & E2 & E3 & E4 & E5 & E6 & E7 & E8)]]; [discriminate| |]; injection D2 as <-.
  { right. split; [apply gpot_restart; auto|]. split; auto. split; congruence. }
  left. rewrite E6. destruct Sh as (Lc & Lw & Hs & Eo & Wk & Hw1 & _). set (t := s_weight s) in *. set (x := s_coefs s) in *. set (y := s_working s) in *.
  destruct (weight_new_gt t Hw1) as [Wg We]. set (t' := / 2 * (1 + sqrt (1 + 4 * (t * t)))) in *.
  unfold objective in Ez. destruct (h z) as [hz|] eqn:Ehz; [|discriminate]. simpl in Ez. injection Ez as Ez'.
  assert (Kz := Key z hz Lz Ehz). rewrite Ez' in Kz.
  assert (Hvp : 0 <= f p + hp - Fz). { specialize (Min p Lp). unfold objective in Min. rewrite Ehp in Min. simpl in Min. lra. }
  assert (Kx : (t - 1) * (sqn (vsub p y) + 2 * dot (vsub p y) (vsub y x)) <= (t - 1) * (2 * st * (Fz + v - (f p + hp)))).
  { destruct (Nat.eq_dec m 0) as [E0|E0]; [rewrite (W0 E0); lra|]. destruct (Hv1 E0) as [Hv2 _]. rewrite Hv2 in Eo. unfold objective in Eo. destruct (h x) as [hx|] eqn:Ehx; [|discriminate]. simpl in Eo. injection Eo as Eo.
    rewrite Eo. apply Rmult_le_compat_l; [lra|]. apply (Key x hx); auto. }
  assert (Gr : 2 * st * (t * t - t) * v + sqn (comb t y x z) <= D * (if Nat.eqb m 0 then 1 else Rmax 1 (st / s_step s))).
  { assert (Q := sqn_nonneg (comb t y x z)). destruct (Nat.eqb_spec m 0) as [E0|E0].
    - rewrite (W0 E0) in *. lra.
    - assert (G1 := Rmax_l 1 (st / s_step s)). assert (G2 := Rmax_r 1 (st / s_step s)). set (G := Rmax 1 (st / s_step s)) in *.
      assert (Hst' : st <= G * s_step s). { apply Rmult_le_compat_r with (r := s_step s) in G2; [|lra]. unfold Rdiv in G2. rewrite Rmult_assoc, Rinv_l in G2 by lra. lra. }
      assert (Tv : 0 <= (t * t - t) * v) by (apply Rmult_le_pos; nra). assert (M := Rmult_le_compat_r _ _ _ Tv Hst'). assert (M2 : G * (2 * s_step s * (t * t - t) * v + sqn (comb t y x z)) <= G * D) by (apply Rmult_le_compat_l; lra). nra. }
  split; auto. rewrite S_INR. split; [rewrite E4; lra|]. split; [discriminate|].
  exists (f p + hp - Fz). split; auto. rewrite E1, E2, E4. split.
  - intros _. split; [rewrite E3, (total_objective n f h C EX) by eauto; unfold objective; rewrite Ehp; simpl; f_equal; ring|]. rewrite We. assert (0 <= INR m) by apply pos_INR. nra.
  - rewrite E6, We, comb_next by (try congruence; lra). rewrite (comb_move t y p x z) by congruence. set (u := comb t y x z) in *.
    assert (Lu : length u = n) by (unfold u, comb; vlen). rewrite sqn_add, sqn_scal, dot_scal_r by vlen.
    assert (Du : dot u (vsub p y) = (t - 1) * dot (vsub p y) (vsub y x) + dot (vsub p y) (vsub y z)) by (rewrite dot_comm; apply comb_dot; vlen).
    set (q := sqn (vsub p y)) in *. set (a := dot (vsub p y) (vsub y x)) in *. set (b := dot (vsub p y) (vsub y z)) in *. set (w := f p + hp - Fz) in *.
    assert (S1 : t * q + 2 * dot u (vsub p y) <= 2 * st * ((t - 1) * v - t * w)).
    { rewrite Du. replace (f p + hp) with (Fz + w) in Kx, Kz by (unfold w; ring). lra. }
    assert (S2 : t * (t * q + 2 * dot u (vsub p y)) <= t * (2 * st * ((t - 1) * v - t * w))) by (apply Rmult_le_compat_l; lra).
    fold u in Gr. lra.
Qed.
Lemma gpot_bound : forall m D s, gpot m D s -> m <> 0%nat -> exists v, 0 <= v /\ s_obj s = Fin (Fz + v) /\ v <= 2 * D / (s_step s * ((INR m + 1) * (INR m + 1))).
Proof.
  intros m D s ((_ & _ & Hs & _) & _ & _ & v & Hv & Hv1 & Hp) Hm. destruct (Hv1 Hm) as [H1 H2]. exists v. split; auto. split; auto.
  assert (Hq := sqn_nonneg (comb (s_weight s) (s_working s) (s_coefs s) z)).
  assert (M := Rmult_le_compat_l (s_step s * v) _ _ ltac:(apply Rmult_le_pos; lra) H2). assert (0 <= INR m) by apply pos_INR.
  assert (Hp1 : 0 < s_step s * ((INR m + 1) * (INR m + 1))) by (apply Rmult_lt_0_compat; nra). apply Rmult_le_reg_r with (s_step s * ((INR m + 1) * (INR m + 1))); auto. unfold Rdiv. rewrite Rmult_assoc, Rinv_l by lra. lra.
Qed.
(** The states of the run so far, and the pass [j] where it last stayed put. *)
Definition ginv (fuel : nat) (s0 : fstate) (l : list fstate) (j : nat) (s : fstate) : Prop :=
  length l = S (s_it s) /\ passes fuel P C s0 l /\ (forall d, nth (s_it s) l d = s) /\ (j <= s_it s)%nat /\ (p_monotonicity P = false -> j = 0%nat) /\
  (forall d, j = 0%nat \/ (s_coefs (nth j l d) = s_coefs (nth (j - 1) l d) /\ s_working (nth j l d) = s_coefs (nth j l d))) /\
  forall d, gpot (s_it s - j) (sqn (vsub (s_coefs (nth j l d)) z) * growth (map s_step (skipn (S j) l))) s.
Lemma list_split : forall (l : list fstate) k s, length l = S k -> (forall d, nth k l d = s) -> exists l0, l = l0 ++ [s] /\ length l0 = k.
Proof.
  intros l k s L E. destruct (exists_last (l := l)) as (l0 & a & ->); [intros ->; discriminate|]. rewrite app_length in L. cbn in L. exists l0. split; [|lia]. specialize (E s). rewrite app_nth2 in E by lia. replace (k - length l0)%nat with 0%nat in E by lia. cbn in E. congruence.
Qed.
Lemma ginv_step : forall fuel s0 l j s s', ginv fuel s0 l j s -> iterate fuel P C s = Ok (Continue s') -> exists j', ginv fuel s0 (l ++ [s']) j' s'.
Proof.
  intros fuel s0 l j s s' (L & (P0 & P1) & El & Hj & Hm & Hr & Hp) Ei. destruct (iterate_continue _ _ _ _ _ Ei) as (I1 & _).
  assert (L' : length (l ++ [s']) = S (s_it s')) by (rewrite app_length; cbn; lia).
  assert (Pa : passes fuel P C s0 (l ++ [s'])).
  { split; [intros d; rewrite app_nth1 by lia; auto|]. intros k d Hk. rewrite app_length in Hk. cbn in Hk. rewrite app_nth1 by lia. destruct (Nat.eq_dec (S k) (length l)) as [E|E].
    - rewrite app_nth2 by lia. rewrite E, Nat.sub_diag. cbn. replace k with (s_it s) by lia. rewrite El. auto.
    - rewrite app_nth1 by lia. apply P1. lia. }
  assert (El' : forall d, nth (s_it s') (l ++ [s']) d = s') by (intros d; rewrite app_nth2 by lia; rewrite I1, L, Nat.sub_diag; reflexivity).
  destruct (gpot_step _ _ _ _ _ (Hp s0) Ei) as [Hp'|(Hp' & Ec & Ew & Mo)].
  - exists j. split; auto. split; auto. split; auto. split; [lia|]. split; auto. split.
    + intros d. destruct (Hr d) as [|[H1 H2]]; auto. right. rewrite !app_nth1 by lia. auto.
    + intros d. rewrite I1. replace (S (s_it s) - j)%nat with (S (s_it s - j)) by lia. rewrite app_nth1 by lia. rewrite (nth_indep l d s0) by lia.
      destruct (list_split l (s_it s) s L El) as (l0 & -> & L0). destruct (Nat.eqb_spec (s_it s - j) 0) as [E0|E0].
      * replace (skipn (S j) ((l0 ++ [s]) ++ [s'])) with [s'] by (rewrite skipn_app, app_length, L0; cbn [length]; rewrite (skipn_all2 (l0 ++ [s])) by (rewrite app_length; cbn; lia); replace (S j - (s_it s + 1))%nat with 0%nat by lia; reflexivity).
        cbn [map growth]. rewrite (skipn_all2 (l0 ++ [s])) in Hp' by (rewrite app_length; cbn; lia). cbn [map growth] in Hp'. rewrite Rmult_1_r in Hp'. exact Hp'.
      * rewrite <- app_assoc. cbn [app]. rewrite skipn_app, L0. replace (S j - s_it s)%nat with 0%nat by lia. cbn [skipn]. rewrite skipn_app, L0 in Hp'. replace (S j - s_it s)%nat with 0%nat in Hp' by lia. cbn [skipn] in Hp'.
        rewrite map_app in *. cbn [map] in *. change [s_step s; s_step s'] with ([s_step s] ++ [s_step s']). rewrite app_assoc, growth_snoc, <- Rmult_assoc. exact Hp'.
  - exists (s_it s'). split; auto. split; auto. split; auto. split; [lia|]. split; [congruence|]. split.
    + intros d. right. rewrite El'. replace (s_it s' - 1)%nat with (s_it s) by lia. rewrite app_nth1 by lia. rewrite El. auto.
    + intros d. rewrite Nat.sub_diag, El', skipn_all2 by lia. cbn [map growth]. rewrite Rmult_1_r. exact Hp'.
Qed.
Theorem rate_growing : forall loops fuel x0 st att s, length x0 = n -> good_start h C x0 -> 0 < first_step P st -> fit loops fuel P C x0 st att = Ok s ->
  exists l j q, length l = S (s_it s) /\ passes fuel P C (fista_start P C x0 st att) l /\ (forall d, nth (s_it s) l d = q) /\ s_coefs s = s_coefs q /\ s_it q = s_it s /\
    (j <= s_it s)%nat /\ (p_monotonicity P = false -> j = 0%nat) /\ (forall d, j = 0%nat \/ (s_coefs (nth j l d) = s_coefs (nth (j - 1) l d) /\ s_working (nth j l d) = s_coefs (nth j l d))) /\
    (j <> s_it s -> exists Fs, objective f h (s_coefs s) = Fin Fs /\
      forall d, Fs - Fz <= 2 * (sqn (vsub (s_coefs (nth j l d)) z) * growth (map s_step (skipn (S j) l))) / (s_step q * ((INR (s_it s - j) + 1) * (INR (s_it s - j) + 1)))).
Proof.
  intros loops fuel x0 st att s Lx G Hs. unfold fit. set (s0 := fista_start P C x0 st att).
  assert (I0 : ginv fuel s0 [s0] 0 s0).
  { split; [reflexivity|]. split; [split; [reflexivity|intros k d Hk; cbn in Hk; lia]|]. split; [intros d; reflexivity|]. split; [lia|]. split; auto. split; auto. intros d. cbn [nth s_it s0 fista_start Nat.sub skipn map growth]. rewrite Rmult_1_r.
    apply gpot_restart; [apply (start_shaped n f h C EX); auto|reflexivity]. }
  assert (Done : forall l j q s, ginv fuel s0 l j q -> s_coefs s = s_coefs q -> s_it s = s_it q -> exists l j q, length l = S (s_it s) /\ passes fuel P C s0 l /\ (forall d, nth (s_it s) l d = q) /\ s_coefs s = s_coefs q /\ s_it q = s_it s /\
    (j <= s_it s)%nat /\ (p_monotonicity P = false -> j = 0%nat) /\ (forall d, j = 0%nat \/ (s_coefs (nth j l d) = s_coefs (nth (j - 1) l d) /\ s_working (nth j l d) = s_coefs (nth j l d))) /\
    (j <> s_it s -> exists Fs, objective f h (s_coefs s) = Fin Fs /\ forall d, Fs - Fz <= 2 * (sqn (vsub (s_coefs (nth j l d)) z) * growth (map s_step (skipn (S j) l))) / (s_step q * ((INR (s_it s - j) + 1) * (INR (s_it s - j) + 1))))).
  { clear s. intros l j q s (L & Pa & El & Hj & Hm & Hr & Hp) Ec Ei. exists l, j, q. rewrite Ei, Ec. repeat (split; auto). intros Hne.
    destruct (gpot_bound _ _ _ (Hp s0) ltac:(lia)) as (v & Hv & Eo & B). exists (Fz + v). assert (Sh : shaped n f h q) by apply (Hp s0). destruct Sh as (_ & _ & _ & Eq & _). split; [congruence|]. intros d. rewrite (nth_indep l d s0) by lia. lra. }
  assert (Go : forall loops q j l, ginv fuel s0 l j q -> fista_loop loops fuel P C q = Ok s -> exists l j q, length l = S (s_it s) /\ passes fuel P C s0 l /\ (forall d, nth (s_it s) l d = q) /\ s_coefs s = s_coefs q /\ s_it q = s_it s /\
    (j <= s_it s)%nat /\ (p_monotonicity P = false -> j = 0%nat) /\ (forall d, j = 0%nat \/ (s_coefs (nth j l d) = s_coefs (nth (j - 1) l d) /\ s_working (nth j l d) = s_coefs (nth j l d))) /\
    (j <> s_it s -> exists Fs, objective f h (s_coefs s) = Fin Fs /\ forall d, Fs - Fz <= 2 * (sqn (vsub (s_coefs (nth j l d)) z) * growth (map s_step (skipn (S j) l))) / (s_step q * ((INR (s_it s - j) + 1) * (INR (s_it s - j) + 1))))).
  { clear loops. induction loops as [|loops IH]; intros q j l I E; cbn [fista_loop] in E; destruct (Nat.ltb_spec (s_it q) (max_of P)) as [Hlt|Hge]; try discriminate; try (injection E as <-; eapply Done; eauto).
    destruct (iterate fuel P C q) as [[s1|s1]|e] eqn:Ei; cbn [rbind] in E; [| |discriminate].
    - destruct (ginv_step _ _ _ _ _ _ I Ei) as (j' & I'). exact (IH s1 j' _ I' E).
    - injection E as <-. destruct (iterate_stop _ _ _ _ _ Ei) as (E1 & E2 & E3 & E4 & _). eapply Done; eauto. }
  intros E. exact (Go loops s0 0%nat [s0] I0 E).
Qed.
End Growing.
(** ** Backtracking with a Lipschitz gradient *)
Section Backtracking.
Variables (n : nat) (f : vec -> R) (h : vec -> ext) (C : composite) (P : params) (z : vec) (Fz L : R).
Hypotheses (EX : exact_problem n f h C) (Hb : p_backtrack P = true) (Res : p_restart P = None) (HL : 0 < L) (Lip : lipschitz_map n (c_grad C) L)
  (Lz : length z = n) (Ez : objective f h z = Fin Fz) (Min : forall x, length x = n -> ext_le (Fin Fz) (objective f h x)).
Let SF : steps_fit n P C := or_introl Hb.
Lemma pass_steps : forall fuel s s', shaped n f h s -> iterate fuel P C s = Ok (Continue s') ->
  s_step s' <= s_step s * (if tries_more s then alpha else 1) /\ Rmin (s_step s) (/ (2 * L) / alpha) <= s_step s' /\ shaped n f h s'.
Proof.
  intros fuel s s' Sh Ei. assert (K := shaped_step n f h C EX P SF fuel s _ Sh Ei). cbn in K. destruct K as (Sh' & _ & _).
  destruct (iterate_cases _ _ _ _ _ Ei) as (p & st & att & Ep & Dd). cbv zeta in Dd. assert (Est : s_step s' = st).
  { destruct Dd as [(s2 & D2 & _)|[(s2 & D2 & _ & E1 & E2 & E3 & E4 & E5 & E6 & _)|(s2 & D2 & _ & E1 & E2 & E3 & E4 & E5 & E6 & E7 & E8)]]; [discriminate| |]; injection D2 as <-; auto. }
  rewrite Est. assert (Hs : 0 < s_step s) by apply Sh. pose proof alpha_gt1 as A. unfold propose in Ep. cbv zeta in Ep. rewrite Hb in Ep. unfold backtrack in Ep. cbv zeta in Ep. fold (tries_more s) in Ep.
  assert (Le : length (if restart_now P (s_it s) then s_coefs s else s_working s) = n) by (destruct Sh as (H1 & H2 & _); destruct (restart_now P (s_it s)); auto).
  destruct (tries_more s).
  - assert (Hsa : 0 < s_step s * alpha) by nra. destruct (backtrack_loop_lower n f h C EX L HL Lip _ _ _ _ _ _ _ Le Hsa Ep) as [B1 B2]. split; auto. split; auto. apply Rle_trans with (2 := B1). apply Rmin_glb; [|apply Rmin_r]. apply Rle_trans with (1 := Rmin_l _ _). nra.
  - destruct (backtrack_loop_lower n f h C EX L HL Lip _ _ _ _ _ _ _ Le Hs Ep) as [B1 B2]. rewrite Rmult_1_r. auto.
Qed.
Lemma passes_tl : forall fuel a b l, passes fuel P C a (a :: b :: l) -> iterate fuel P C a = Ok (Continue b) /\ passes fuel P C b (b :: l).
Proof.
  intros fuel a b l (_ & H). split; [apply (H 0%nat a); cbn; lia|]. split; [reflexivity|]. intros k d Hk. apply (H (S k) d). cbn in *. lia.
Qed.
Lemma passes_grow : forall fuel l a, passes fuel P C a (a :: l) -> shaped n f h a -> growth (map s_step (a :: l)) <= alpha ^ length (filter tries_more (removelast (a :: l))) /\
  forall k d, (k < length (a :: l))%nat -> Rmin (s_step a) (/ (2 * L) / alpha) <= s_step (nth k (a :: l) d).
Proof.
  pose proof alpha_gt1 as A. intros fuel. induction l as [|b l IH]; intros a Pa Sh.
  - split; [cbn; lra|]. intros [|k] d Hk; cbn in *; [apply Rmin_l|lia].
  - destruct (passes_tl _ _ _ _ Pa) as [Ei Pb]. destruct (pass_steps _ _ _ Sh Ei) as (S1 & S2 & Sh'). destruct (IH b Pb Sh') as [G1 G2]. assert (Ha : 0 < s_step a) by apply Sh. split.
    + change (removelast (a :: b :: l)) with (a :: removelast (b :: l)). cbn [map]. rewrite growth_cons2. cbn [filter]. change (s_step b :: map s_step l) with (map s_step (b :: l)).
      assert (Hr : Rmax 1 (s_step b / s_step a) <= if tries_more a then alpha else 1).
      { apply Rmax_lub; [destruct (tries_more a); lra|]. apply Rmult_le_reg_r with (s_step a); auto. unfold Rdiv. rewrite Rmult_assoc, Rinv_l by lra. lra. }
      assert (G0 := growth_ge1 (map s_step (b :: l))). assert (M0 := Rmax_l 1 (s_step b / s_step a)). destruct (tries_more a); [cbn [length pow]|]; nra.
    + intros [|k] d Hk; [apply Rmin_l|]. cbn [nth]. apply Rle_trans with (2 := G2 k d ltac:(cbn in *; lia)). apply Rmin_glb; [auto|apply Rmin_r].
Qed.
Theorem rate_backtracking : forall loops fuel x0 st att s, length x0 = n -> good_start h C x0 -> 0 < first_step P st -> p_monotonicity P = false -> fit loops fuel P C x0 st att = Ok s -> s_it s <> 0%nat ->
  exists l Fs, length l = S (s_it s) /\ passes fuel P C (fista_start P C x0 st att) l /\ objective f h (s_coefs s) = Fin Fs /\
    Fs - Fz <= 2 * sqn (vsub x0 z) * alpha ^ length (filter tries_more (removelast l)) / (Rmin (first_step P st) (/ (2 * L * alpha)) * ((INR (s_it s) + 1) * (INR (s_it s) + 1))).
Proof.
  intros loops fuel x0 st att s Lx G Hs Mo E Hi. pose proof alpha_gt1 as A.
  destruct (rate_growing n f h C P z Fz EX SF Res Lz Ez Min loops fuel x0 st att s Lx G Hs E) as (l & j & q & Ll & Pa & El & Ec & Eq & Hj & Hm & Hr & HB). rewrite (Hm Mo) in *.
  destruct (HB ltac:(lia)) as (Fs & EFs & B). exists l, Fs. split; auto. split; auto. split; auto. destruct l as [|a l]; [discriminate|]. assert (Ea : a = fista_start P C x0 st att) by (destruct Pa as (P0 & _); apply (P0 a)).
  assert (Sh : shaped n f h a) by (rewrite Ea; apply (start_shaped n f h C EX); auto). rewrite <- Ea in Pa. destruct (passes_grow _ _ _ Pa Sh) as [G1 G2]. specialize (B a). cbn [nth skipn] in B. rewrite Nat.sub_0_r in B.
  assert (Eco : s_coefs a = x0) by (rewrite Ea; reflexivity). rewrite Eco in B. assert (Est : s_step a = first_step P st) by (rewrite Ea; reflexivity).
  assert (Lo := G2 (s_it s) a ltac:(cbn in *; lia)). rewrite El, Est in Lo. replace (/ (2 * L) / alpha) with (/ (2 * L * alpha)) in Lo by (field; lra).
  assert (Hmin : 0 < Rmin (first_step P st) (/ (2 * L * alpha))) by (apply Rmin_glb_lt; [auto|apply Rinv_0_lt_compat; nra]).
  assert (Gl : growth (map s_step l) <= alpha ^ length (filter tries_more (removelast (a :: l)))).
  { apply Rle_trans with (2 := G1). cbn [map]. destruct (map s_step l) as [|b r]; [cbn; lra|]. rewrite growth_cons2. assert (M0 := Rmax_l 1 (b / s_step a)). assert (G0 := growth_ge1 (b :: r)). nra. }
  assert (Q := sqn_nonneg (vsub x0 z)). assert (Kp : 0 < (INR (s_it s) + 1) * (INR (s_it s) + 1)) by (assert (0 <= INR (s_it s)) by apply pos_INR; nra).
  apply Rle_trans with (1 := B). set (K := (INR (s_it s) + 1) * (INR (s_it s) + 1)) in *. set (m := Rmin (first_step P st) (/ (2 * L * alpha))) in *. set (U := alpha ^ _) in *. set (g := growth (map s_step l)) in *.
  assert (g0 : 1 <= g) by apply growth_ge1. apply Rle_trans with (2 * (sqn (vsub x0 z) * g) / (m * K)).
  - unfold Rdiv. apply Rmult_le_compat_l; [nra|]. apply Rinv_le_contravar; [nra|]. apply Rmult_le_compat_r; lra.
  - unfold Rdiv. apply Rmult_le_compat_r; [left; apply Rinv_0_lt_compat; nra|]. nra.
Qed.
End Backtracking.

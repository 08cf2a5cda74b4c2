(** Restarts of the accelerated method. *)
From Coq Require Import Reals List Lra Lia Psatz Arith Bool.
From Verif Require Import Vec Spec SpecConvex M_fista SpecFista SpecRestart P_quad P_calc P_fista P_fista2.
Import ListNotations.
Local Open Scope R_scope.

Lemma restart_due : forall P r it, (0 < r)%nat -> p_restart P = Some r -> (restart_now P it = true <-> due r (S it)).
Proof.
  intros P r it Hr E. unfold restart_now. rewrite E. destruct r as [|r]; [lia|]. rewrite Nat.eqb_eq, Nat.add_1_r. unfold due. rewrite Nat.mod_divide by lia. reflexivity.
Qed.
Lemma next_weight_code : forall t, / 2 * (1 + sqrt (1 + 4 * (t * t))) = next_weight t.
Proof. intros t. unfold next_weight. replace (t ^ 2) with (t * t) by ring. field. Qed.
Lemma next_weight_gt : forall t, 1 <= t -> t + / 2 < next_weight t.
Proof. intros t H. rewrite <- next_weight_code. apply weight_new_gt. auto. Qed.
Lemma nesterov_ge : forall k, 1 + INR k / 2 <= nesterov k.
Proof.
  induction k as [|k IH]; [cbn; lra|]. assert (0 <= INR k) by apply pos_INR. cbn [nesterov]. assert (N := next_weight_gt (nesterov k) ltac:(lra)). rewrite S_INR. lra.
Qed.
Lemma backtrack_loop_step : forall fuel C w g st att p st' att', backtrack_loop fuel C w g st att = Ok (p, st', att') -> p = c_prox C (1 / st') w g.
Proof.
  induction fuel as [|fuel IH]; intros C w g st att p st' att' E; [discriminate|]. cbn [backtrack_loop] in E. destruct (Req_EM_T st 0); [discriminate|]. cbv zeta in E.
  destruct (step_ok _ _ _ _ _); [injection E as <- <- <-; reflexivity|]. destruct (Rlt_dec 0 (st / alpha)); [|discriminate]. eapply IH; eauto.
Qed.
Lemma propose_step : forall fuel P C s p st att, propose fuel P C s = Ok (p, st, att) -> p = gradient_step C st (entry P s).
Proof.
  intros fuel P C s p st att E. unfold propose in E. cbv zeta in E. fold (entry P s) in E. unfold gradient_step. destruct (p_backtrack P).
  - unfold backtrack in E. eapply backtrack_loop_step; eauto.
  - destruct (Req_EM_T (c_lipschitz C) 0) as [|HL]; [discriminate|]. injection E as <- <- <-. f_equal. field. auto.
Qed.
Lemma pass_shape : forall fuel P C s s', iterate fuel P C s = Ok (Continue s') -> s_it s' = S (s_it s) /\
  ((refused s s' /\ p_monotonicity P = true) \/ moved C (entry P s) s s').
Proof.
  intros fuel P C s s' E. destruct (iterate_cases _ _ _ _ _ E) as (p & st & att & Ep & D). cbv zeta in D. apply propose_step in Ep.
  destruct D as [(s2 & D2 & _)|[(s2 & D2 & (_ & _ & R3) & E1 & E2 & E3 & E4 & E5 & _)|(s2 & D2 & _ & E1 & E2 & E3 & E4 & E5 & E6 & _)]]; [discriminate| |]; injection D2 as <-; (split; [auto|]).
  - left. unfold refused. auto.
  - right. unfold moved. rewrite E6, E4, E2, E1, next_weight_code. auto.
Qed.
Lemma passes_it : forall fuel P C s0 l, passes fuel P C s0 l -> forall k d, (k < length l)%nat -> s_it (nth k l d) = (s_it s0 + k)%nat.
Proof.
  intros fuel P C s0 l [H0 H] k d. induction k as [|k IH]; intros Hk; [rewrite H0; lia|]. specialize (H k d Hk). apply pass_shape in H. destruct H as [-> _]. rewrite IH by lia. lia.
Qed.
(** the iteration numbered k+1 *)
Theorem restart_passes : forall fuel P C x0 st att l r, (0 < r)%nat -> p_restart P = Some r -> passes fuel P C (fista_start P C x0 st att) l ->
  forall k d, (S k < length l)%nat -> let s := nth k l d in let s' := nth (S k) l d in
  (refused s s' /\ p_monotonicity P = true) \/ (due r (S k) /\ moved C (s_coefs s) s s') \/ (~ due r (S k) /\ moved C (s_working s) s s').
Proof.
  intros fuel P C x0 st att l r Hr Er Pa k d Hk s s'. assert (I := passes_it _ _ _ _ _ Pa k d ltac:(lia)). cbn in I. fold s in I.
  destruct Pa as [_ Pa]. specialize (Pa k d Hk). apply pass_shape in Pa. destruct Pa as [_ [Pa|Pa]]; [left; auto|right]. fold s s' in Pa.
  assert (D := restart_due P r k Hr Er). unfold entry in Pa. rewrite I in Pa. destruct (restart_now P k) eqn:Ek; [left|right]; (split; [|auto]); [apply D; auto|intros X; apply D in X; discriminate].
Qed.
(** the weights are never set back by a restart *)
Theorem restart_weights : forall fuel P C x0 st att l, passes fuel P C (fista_start P C x0 st att) l ->
  (forall k d, (k < length l)%nat -> p_monotonicity P = false -> s_weight (nth k l d) = nesterov k /\ 1 + INR k / 2 <= s_weight (nth k l d)) /\
  (forall k d, (S k < length l)%nat -> s_weight (nth (S k) l d) = 1 -> refused (nth k l d) (nth (S k) l d)).
Proof.
  intros fuel P C x0 st att l [H0 Pa]. split.
  - intros k d Hk Mo. assert (E : s_weight (nth k l d) = nesterov k); [|rewrite E; split; auto; apply nesterov_ge]. induction k as [|k IH]; [rewrite H0; reflexivity|].
    specialize (Pa k d Hk). apply pass_shape in Pa. destruct Pa as [_ [[_ X]|(_ & E & _)]]; [congruence|]. rewrite E, IH by lia. reflexivity.
  - assert (W : forall k d, (k < length l)%nat -> 1 <= s_weight (nth k l d)).
    { intros k d. induction k as [|k IH]; intros Hk; [rewrite H0; cbn; lra|]. specialize (Pa k d Hk). apply pass_shape in Pa. specialize (IH ltac:(lia)). destruct Pa as [_ [[(_ & _ & _ & E) _]|(_ & E & _)]]; rewrite E; [lra|]. assert (N := next_weight_gt _ IH). lra. }
    intros k d Hk E1. specialize (Pa k d Hk). apply pass_shape in Pa. destruct Pa as [_ [[X _]|(_ & E & _)]]; auto. exfalso. assert (W1 := W k d ltac:(lia)). assert (N := next_weight_gt _ W1). lra.
Qed.
(** ** restart=1 *)
Section Plain.
Variables (n : nat) (f : vec -> R) (h : vec -> ext) (C : composite) (P : params).
Hypotheses (EX : exact_problem n f h C) (SF : steps_fit n P C) (R1 : p_restart P = Some 1%nat \/ p_restart P = Some 0%nat).
Lemma entry_plain : forall s, entry P s = s_coefs s.
Proof. intros s. unfold entry, restart_now. destruct R1 as [-> | ->]; auto. Qed.
Lemma plain_pass : forall fuel s s', shaped n f h s -> iterate fuel P C s = Ok (Continue s') ->
  shaped n f h s' /\ s_coefs s' = gradient_step C (s_step s') (s_coefs s) /\ (p_backtrack P = false -> s_step s' = 1 / c_lipschitz C) /\
  ext_le (s_obj s') (s_obj s) /\
  (exists F', objective f h (s_coefs s') = Fin F' /\ forall z Fz, length z = n -> objective f h z = Fin Fz ->
     sqn (vsub (s_coefs s') z) + 2 * s_step s' * (F' - Fz) <= sqn (vsub (s_coefs s) z)).
Proof.
  intros fuel s s' Sh E. assert (K := shaped_step n f h C EX P SF fuel s _ Sh E). cbn in K. destruct K as (Sh' & _ & _). split; auto.
  destruct (iterate_cases _ _ _ _ _ E) as (p & st & att & Ep & D). cbv zeta in D.
  destruct (propose_spec n f h C EX P SF fuel s p st att Sh Ep) as (Hst & Epp & Le & B & _ & Bf). rewrite entry_plain in *.
  destruct (plain_step_good n f h C EX P s p st Sh (entry_plain s)) as [G1 G2]; rewrite ?entry_plain; auto.
  destruct (prox_inequality n f h C EX (s_coefs s) st p Le Hst Epp B) as (Lp & hp & Ehp & Key).
  destruct D as [(s2 & D2 & _)|[(s2 & D2 & (_ & R2 & _) & _)|(s2 & D2 & _ & E1 & E2 & E3 & E4 & E5 & E6 & _)]]; [discriminate|congruence|]. injection D2 as <-.
  rewrite E1, E3, E6. split; auto. split; auto. split; auto. exists (f p + hp). split; [unfold objective; rewrite Ehp; reflexivity|]. intros z Fz Lz Ez. unfold objective in Ez. destruct (h z) as [hz|] eqn:Ehz; [|discriminate]. injection Ez as <-.
  specialize (Key z hz Lz Ehz). assert (Q : sqn (vsub p z) = sqn (vsub p (s_coefs s)) + 2 * dot (vsub p (s_coefs s)) (vsub (s_coefs s) z) + sqn (vsub (s_coefs s) z)).
  { replace (vsub p z) with (vadd (vsub p (s_coefs s)) (vsub (s_coefs s) z)); [apply sqn_add; vlen|]. clear - Lp Lz Le. revert Lp Lz Le. generalize (s_coefs s). revert p z. revert n. induction n as [|m IH]; intros [|a p] [|c z] [|b x] H1 H2 H3; try discriminate; auto. cbn. f_equal; [ring|]. apply IH; auto. }
  rewrite Q. lra.
Qed.
Lemma firstn_snoc : forall A (l : list A) k d, (S k < length l)%nat -> firstn (S k) (tl l) = firstn k (tl l) ++ [nth (S k) l d].
Proof.
  intros A [|a l] k d; [cbn; lia|]. cbn [tl nth length]. revert l. induction k as [|k IH]; intros [|b l] H; cbn in *; try lia; auto. f_equal. apply IH. cbn. lia.
Qed.
Lemma vsum_app1 : forall l a, vsum (l ++ [a]) = vsum l + a.
Proof. intros l a. unfold vsum. induction l as [|b l IH]; cbn in *; [ring|]. rewrite IH. ring. Qed.
Theorem plain_passes : forall fuel x0 st att l, length x0 = n -> good_start h C x0 -> 0 < first_step P st -> passes fuel P C (fista_start P C x0 st att) l ->
  forall k d, (S k < length l)%nat -> let s := nth k l d in let s' := nth (S k) l d in
  0 < s_step s' /\ s_coefs s' = gradient_step C (s_step s') (s_coefs s) /\ (p_backtrack P = false -> s_step s' = 1 / c_lipschitz C) /\ ext_le (s_obj s') (s_obj s) /\
  exists F', objective f h (s_coefs s') = Fin F' /\ s_obj s' = Fin F' /\ forall z Fz, length z = n -> objective f h z = Fin Fz ->
    2 * total_step (S k) l * (F' - Fz) + sqn (vsub (s_coefs s') z) <= sqn (vsub x0 z).
Proof.
  intros fuel x0 st att l Lx G Hs [H0 Pa]. assert (S0 := start_shaped n f h C EX P x0 st att Lx G Hs).
  assert (Sh : forall k d, (k < length l)%nat -> shaped n f h (nth k l d)).
  { intros k d. induction k as [|k IH]; intros Hk; [rewrite H0; auto|]. apply (plain_pass fuel (nth k l d)); auto. apply IH. lia. }
  intros k d. induction k as [|k IH]; intros Hk s s'; subst s s'.
  - destruct (plain_pass fuel (nth 0 l d) (nth 1 l d) (Sh 0%nat d ltac:(lia)) (Pa 0%nat d Hk)) as (Sh' & E1 & E2 & E3 & F' & EF & E4).
    split; [apply Sh'|]. split; auto. split; auto. split; auto. exists F'. split; auto. split; [destruct Sh' as (_ & _ & _ & Eo & _); congruence|]. intros z Fz Lz Ez. specialize (E4 z Fz Lz Ez). rewrite H0 in E4. cbn [s_coefs fista_start] in E4.
    unfold total_step. rewrite (firstn_snoc _ l 0 d Hk). cbn [firstn map app]. unfold vsum. cbn [fold_right]. lra.
  - destruct (plain_pass fuel (nth (S k) l d) (nth (S (S k)) l d) (Sh (S k) d ltac:(lia)) (Pa (S k) d Hk)) as (Sh' & E1 & E2 & E3 & F' & EF & E4).
    split; [apply Sh'|]. split; auto. split; auto. split; auto. exists F'. split; auto. assert (Eo' : s_obj (nth (S (S k)) l d) = Fin F') by (destruct Sh' as (_ & _ & _ & Eo & _); congruence). split; auto. intros z Fz Lz Ez. specialize (E4 z Fz Lz Ez).
    destruct (IH ltac:(lia)) as (_ & _ & _ & _ & F1 & EF1 & Eo1 & E5). specialize (E5 z Fz Lz Ez). rewrite Eo', Eo1 in E3. cbn in E3.
    unfold total_step in *. rewrite (firstn_snoc _ l (S k) d Hk), map_app. cbn [map]. rewrite vsum_app1.
    assert (Pos : 0 <= vsum (map s_step (firstn (S k) (tl l)))).
    { clear - Sh. assert (A : Forall (fun s => 0 <= s_step s) (firstn (S k) (tl l))).
      { apply Forall_forall. intros s Hi. assert (Hl : In s l).
        { assert (Ht : In s (tl l)) by (rewrite <- (firstn_skipn (S k) (tl l)); apply in_or_app; auto). destruct l; [contradiction|]. right. exact Ht. }
        destruct (In_nth l s s Hl) as (i & Hi1 & Hi2). specialize (Sh i s Hi1). rewrite Hi2 in Sh. destruct Sh as (_ & _ & X & _). lra. }
      revert A. generalize (firstn (S k) (tl l)). unfold vsum. induction l0 as [|a m IH]; cbn; intros A; [lra|]. inversion A; subst. apply IH in H2. lra. }
    set (T := vsum _) in *. assert (T * (F' - Fz) <= T * (F1 - Fz)) by (apply Rmult_le_compat_l; lra). lra.
Qed.
End Plain.
(** a completed fit comes from such a list *)
Lemma fit_passes : forall loops fuel P C x0 st att s, fit loops fuel P C x0 st att = Ok s ->
  exists l, length l = S (s_it s) /\ passes fuel P C (fista_start P C x0 st att) l /\ forall d, s_coefs (nth (s_it s) l d) = s_coefs s /\ s_obj (nth (s_it s) l d) = s_obj s.
Proof.
  intros loops fuel P C x0 st att s E. unfold fit in E. set (s0 := fista_start P C x0 st att) in *.
  assert (Go : forall loops q l, length l = S (s_it q) -> passes fuel P C s0 l -> (forall d, nth (s_it q) l d = q) -> fista_loop loops fuel P C q = Ok s ->
    exists l, length l = S (s_it s) /\ passes fuel P C s0 l /\ forall d, s_coefs (nth (s_it s) l d) = s_coefs s /\ s_obj (nth (s_it s) l d) = s_obj s).
  { clear E. clear loops. induction loops as [|loops IH]; intros q l Ll Pa El E; cbn [fista_loop] in E; destruct (Nat.ltb (s_it q) (max_of P)); try discriminate.
    - injection E as <-. exists l. split; auto. split; auto. intros d. rewrite El. auto.
    - destruct (iterate fuel P C q) as [o|] eqn:Ei; [|discriminate]. cbn [rbind] in E. destruct o as [q'|q'].
      + destruct (pass_shape _ _ _ _ _ Ei) as [Eit _]. apply (IH q' (l ++ [q'])); auto.
        * rewrite app_length. cbn. lia.
        * destruct Pa as [P0 Pa]. split.
          { intros d. rewrite app_nth1 by lia. apply P0. }
          intros k d Hk. rewrite app_length in Hk. cbn in Hk. rewrite (app_nth1 l) by lia. destruct (Nat.eq_dec (S k) (length l)) as [X|X].
          { rewrite app_nth2 by lia. replace (S k - length l)%nat with 0%nat by lia. cbn. replace k with (s_it q) by lia. rewrite El. auto. }
          rewrite app_nth1 by lia. apply Pa. lia.
        * intros d. rewrite app_nth2 by lia. replace (s_it q' - length l)%nat with 0%nat by lia. reflexivity.
      + injection E as <-. destruct (iterate_cases _ _ _ _ _ Ei) as (p & st1 & att1 & _ & D). cbv zeta in D. destruct D as [(s2 & D2 & E1 & E2 & E3 & _)|[(s2 & D2 & _)|(s2 & D2 & _)]]; try discriminate. injection D2 as <-.
        exists l. rewrite E3. split; auto. split; auto. intros d. rewrite El. auto.
    - injection E as <-. exists l. split; auto. split; auto. intros d. rewrite El. auto. }
  apply (Go loops s0 [s0]); auto. split; [reflexivity|]. cbn. intros k d Hk. lia.
Qed.
Lemma total_fixed : forall l k a, (forall j d, (1 <= j < length l)%nat -> s_step (nth j l d) = a) -> (k < length l)%nat -> total_step k l = INR k * a.
Proof.
  intros l k a H. induction k as [|k IH]; intros Hk; [unfold total_step; cbn; unfold vsum; cbn; ring|]. assert (d : fstate) by (destruct l; [cbn in Hk; lia|assumption]).
  unfold total_step in *. rewrite (firstn_snoc _ l k d Hk), map_app. cbn [map]. rewrite vsum_app1, IH, (H (S k) d), S_INR by lia. ring.
Qed.
Theorem plain_rate : forall n f h C P loops fuel x0 st att s z Fz, exact_problem n f h C -> steps_fit n P C -> p_restart P = Some 1%nat \/ p_restart P = Some 0%nat -> p_backtrack P = false ->
  length x0 = n -> good_start h C x0 -> 0 < first_step P st -> length z = n -> objective f h z = Fin Fz -> fit loops fuel P C x0 st att = Ok s -> s_it s <> 0%nat ->
  exists Fs, objective f h (s_coefs s) = Fin Fs /\ Fs - Fz <= c_lipschitz C * sqn (vsub x0 z) / (2 * INR (s_it s)).
Proof.
  intros n f h C P loops fuel x0 st att s z Fz EX SF R1 Eb Lx G Hs Lz Ez E Hi. destruct (fit_passes _ _ _ _ _ _ _ _ E) as (l & Ll & Pa & El).
  assert (PP := plain_passes n f h C P EX SF R1 fuel x0 st att l Lx G Hs Pa). destruct (s_it s) as [|k] eqn:Ek; [congruence|]. clear Hi.
  destruct (PP k s ltac:(lia)) as (_ & _ & _ & _ & F & EF & _ & K). destruct (El s) as [El1 _]. rewrite El1 in *. exists F. split; auto. specialize (K z Fz Lz Ez).
  rewrite (total_fixed l (S k) (1 / c_lipschitz C)) in K; [| |lia].
  - destruct SF as [|[HL _]]; [congruence|]. assert (HI : 0 < INR (S k)) by (apply lt_0_INR; lia). assert (Q := sqn_nonneg (vsub (s_coefs s) z)).
    apply Rmult_le_reg_l with (2 * (INR (S k) * (1 / c_lipschitz C))); [assert (HD : 0 < 1 / c_lipschitz C) by (apply Rdiv_lt_0_compat; lra); apply Rmult_lt_0_compat; [lra|]; apply Rmult_lt_0_compat; [exact HI|exact HD]|].
    replace (2 * (INR (S k) * (1 / c_lipschitz C)) * (c_lipschitz C * sqn (vsub x0 z) / (2 * INR (S k)))) with (sqn (vsub x0 z)) by (field; lra). lra.
  - intros [|j] d Hj; [lia|]. apply (PP j d); auto. lia.
Qed.
(** the first passes of a run with a fixed step and without the comparison always happen *)
Lemma passes_exist : forall fuel P C x0 st att k, p_backtrack P = false -> p_monotonicity P = false -> c_lipschitz C <> 0 -> (k <= min_of P)%nat ->
  exists l, length l = S k /\ passes fuel P C (fista_start P C x0 st att) l.
Proof.
  intros fuel P C x0 st att k Eb Em HL. induction k as [|k IH]; intros Hk.
  { exists [fista_start P C x0 st att]. split; auto. split; [reflexivity|]. cbn. intros k d H. lia. }
  destruct IH as (l & Ll & Pa); [lia|]. set (q := nth k l (fista_start P C x0 st att)).
  assert (Eit : s_it q = k) by (unfold q; rewrite (passes_it _ _ _ _ _ Pa) by lia; reflexivity).
  assert (N : exists q', iterate fuel P C q = Ok (Continue q')).
  { unfold iterate. rewrite Eb, Em, Eit. destruct (Req_EM_T (c_lipschitz C) 0); [contradiction|]. cbv zeta. cbn [rbind]. replace (Nat.leb (min_of P) k) with false by (symmetry; apply Nat.leb_gt; lia). cbn [andb]. unfold update_working. cbn [orb]. rewrite !andb_false_r. eauto. }
  destruct N as (q' & N). exists (l ++ [q']). split; [rewrite app_length; cbn; lia|]. destruct Pa as [P0 Pa]. split.
  { intros d. rewrite app_nth1 by lia. apply P0. }
  intros j d Hj. rewrite app_length in Hj. cbn in Hj. rewrite (app_nth1 l) by lia. destruct (Nat.eq_dec (S j) (length l)) as [X|X].
  - rewrite app_nth2 by lia. replace (S j - length l)%nat with 0%nat by lia. cbn. replace j with k by lia. rewrite (nth_indep l d (fista_start P C x0 st att)) by lia. exact N.
  - rewrite app_nth1 by lia. apply Pa. lia.
Qed.

(** Proofs about the FISTA solver. *)
From Coq Require Import Reals List Lra Lia Psatz Arith Bool.
From Verif Require Import Vec Spec SpecConvex M_fista SpecFista P_quad P_calc.
Import ListNotations.
Local Open Scope R_scope.

Lemma alpha_gt1 : 1 < alpha. Proof. unfold alpha. lra. Qed.
Lemma e10 : 0 < / 10 ^ 10. Proof. apply Rinv_0_lt_compat, pow_lt. lra. Qed.

(** ** Backtracking *)
Lemma backtrack_loop_spec : forall fuel C w g step att p st a, 0 < step -> backtrack_loop fuel C w g step att = Ok (p, st, a) ->
  0 < st <= step /\ p = c_prox C (1 / st) w g /\ step_ok C w g p st = true.
Proof.
  induction fuel as [|fuel IH]; intros C w g step att p st a Hs E; [discriminate|]. cbn [backtrack_loop] in E.
  destruct (Req_EM_T step 0); [exfalso; lra|]. cbv zeta in E. destruct (step_ok C w g (c_prox C (1 / step) w g) step) eqn:Ek.
  - injection E as <- <- <-. repeat split; auto; lra.
  - pose proof alpha_gt1 as A. assert (Hd : 0 < step / alpha < step).
    { split; [apply Rdiv_lt_0_compat; lra|]. apply Rmult_lt_reg_r with alpha; [lra|]. unfold Rdiv. rewrite Rmult_assoc, Rinv_l by lra. nra. }
    destruct (Rlt_dec 0 (step / alpha)); [|discriminate]. apply IH in E; [|lra]. destruct E as (E1 & E2). split; auto. lra.
Qed.
Lemma backtrack_spec : forall fuel C it w step att p st a, 0 < step -> backtrack fuel C it w step att = Ok (p, st, a) ->
  0 < st <= step * alpha /\ p = c_prox C (1 / st) w (c_grad C w) /\ step_ok C w (c_grad C w) p st = true.
Proof.
  intros fuel C it w step att p st a Hs E. unfold backtrack in E. cbv zeta in E. pose proof alpha_gt1 as A.
  destruct (orb _ att); apply backtrack_loop_spec in E; try nra; destruct E as (E1 & E2 & E3); split; auto; nra.
Qed.
(** Either test certifies the quadratic upper bound when f is convex. *)
Lemma step_ok_bound : forall n f C w p st, convex_on n f -> gradient_of n f (c_grad C) -> (forall x, length x = n -> c_smooth C x = Fin (f x)) ->
  length w = n -> length p = n -> step_ok C w (c_grad C w) p st = true ->
  f p <= f w + dot (c_grad C w) (vsub p w) + / (2 * st) * sqn (vsub p w).
Proof.
  intros n f C w p st Hc Hg Hf Lw Lp E. unfold step_ok in E. rewrite (Hf p Lp), (Hf w Lw) in E. cbv zeta in E. rewrite norm_sq in E.
  assert (Es : / 2 / st = / (2 * st)). { unfold Rdiv. destruct (Req_EM_T st 0) as [->|]; [rewrite Rmult_0_r, Rinv_0; lra|rewrite Rinv_mult; auto]. }
  rewrite Es in E. destruct (Hg w Lw) as [Lgw _]. destruct (Hg p Lp) as [Lgp _].
  destruct (Rlt_dec _ _); destruct (Rle_dec _ _) as [H|]; try discriminate.
  - rewrite dot_comm in H. auto.
  - pose proof (convex_tangent n f p (c_grad C p) w Hc (Hg p Lp) Lp Lw) as T.
    assert (A := Rle_abs (- dot (vsub p w) (vsub (c_grad C w) (c_grad C p)))). rewrite Rabs_Ropp in A.
    rewrite dot_sub_r in A by vlen. rewrite dot_sub_r in H by vlen.
    rewrite (dot_comm (c_grad C w)). rewrite dot_sub_r in T by congruence.
    assert (T2 : dot (vsub p w) (c_grad C p) = dot (c_grad C p) p - dot (c_grad C p) w) by (rewrite dot_comm, dot_sub_r by congruence; auto). lra.
Qed.

(** ** One iteration *)
Definition hist_ok (s : fstate) : Prop := length (s_hist s) = s_it s.
Lemma not_worse_intro : forall a b, worse a b = false -> not_worse a b.
Proof.
  intros [u|] [v|] H; simpl in *; auto; try discriminate. assert (M : 1 <= Rmax (Rabs u) 1) by apply Rmax_r. pose proof e10 as E10.
  destruct (Rlt_dec u v) as [L|L]; [|nra]. destruct (Rlt_dec _ _) as [|N]; [discriminate|]. apply Rnot_lt_le in N. rewrite Rabs_pos_eq in N by lra.
  apply Rmult_le_compat_r with (r := Rmax (Rabs u) 1) in N; [|lra]. unfold Rdiv in N. rewrite Rmult_assoc, Rinv_l in N by lra. lra.
Qed.
(** What one pass does, whatever the oracles. *)
Definition stepped (P : params) (C : composite) (s s' : fstate) : Prop :=
  s_it s' = S (s_it s) /\ s_hist s' = s_hist s ++ [s_obj s] /\
  ((s_coefs s' = s_coefs s /\ s_obj s' = s_obj s /\ s_working s' = s_coefs s /\ s_weight s' = 1 /\ p_monotonicity P = true) \/
   (s_obj s' = total C (s_coefs s') false /\ (p_monotonicity P = true -> (1 < s_it s)%nat -> not_worse (s_obj s) (s_obj s')))).
Lemma iterate_continue : forall fuel P C s s', iterate fuel P C s = Ok (Continue s') -> stepped P C s s'.
Proof.
  intros fuel P C s s' E. unfold iterate in E. cbv zeta in E.
  match type of E with rbind ?r _ = _ => destruct r as [[[p st] att]|e]; [|discriminate] end. cbn [rbind] in E.
  destruct (andb (Nat.leb (min_of P) (s_it s)) _); [discriminate|].
  destruct (update_working (p_FISTA P) (s_weight s) p (s_coefs s)) as [wn w'].
  destruct (andb (Nat.ltb 1 (s_it s)) (andb (worse (s_obj s) (ext_add (c_smooth C p) (c_nonsmooth C p false))) (p_monotonicity P))) eqn:Ew.
  - destruct (andb _ (Nat.ltb 3 _)); [discriminate|]. injection E as <-. unfold stepped. cbn [s_it s_hist s_coefs s_obj s_working s_weight]. apply andb_prop in Ew. destruct Ew as [_ Ew]. apply andb_prop in Ew. split; [lia|]. split; auto. left. tauto.
  - injection E as <-. unfold stepped. cbn [s_it s_hist s_coefs s_obj s_working s_weight]. split; [lia|]. split; auto. right. split; auto. intros Hm Hk. apply not_worse_intro. unfold total. cbn.
    rewrite Hm, andb_true_r in Ew. apply andb_false_iff in Ew. destruct Ew as [Ew|]; auto. apply Nat.ltb_ge in Ew. lia.
Qed.
Definition stopped (P : params) (C : composite) (s s' : fstate) : Prop :=
  s_it s' = s_it s /\ s_hist s' = s_hist s ++ [s_obj s] /\ s_coefs s' = s_coefs s /\ s_obj s' = s_obj s /\
  ((min_of P <= s_it s)%nat \/ (3 < s_bad s')%nat).
Lemma iterate_stop : forall fuel P C s s', iterate fuel P C s = Ok (Stop s') -> stopped P C s s'.
Proof.
  intros fuel P C s s' E. unfold iterate in E. cbv zeta in E.
  match type of E with rbind ?r _ = _ => destruct r as [[[p st] att]|e]; [|discriminate] end. cbn [rbind] in E.
  destruct (andb (Nat.leb (min_of P) (s_it s)) _) eqn:Em.
  - injection E as <-. cbn. apply andb_prop in Em. destruct Em as [Em _]. apply Nat.leb_le in Em. unfold stopped. cbn. auto 6.
  - destruct (update_working (p_FISTA P) (s_weight s) p (s_coefs s)) as [wn w'].
    destruct (andb (Nat.ltb 1 (s_it s)) _); [|discriminate]. destruct (andb _ (Nat.ltb 3 _)) eqn:E3; [|discriminate]. injection E as <-. apply andb_prop in E3. destruct E3 as [_ E3]. apply Nat.ltb_lt in E3.
    unfold stopped. cbn. auto 6.
Qed.

(** ** Whole runs *)
Definition move (P : params) (C : composite) (k : nat) (a b : vec * ext) : Prop :=
  b = a \/ (snd b = total C (fst b) false /\ (p_monotonicity P = true -> (1 < k)%nat -> not_worse (snd a) (snd b))).
Definition inv (P : params) (C : composite) (x0 : vec) (s : fstate) (tr : list (vec * ext)) : Prop :=
  length tr = s_it s /\ map snd tr = s_hist s /\ (forall d, nth 0 (full_trace s tr) d = (x0, total C x0 true)) /\
  forall k d, (k < s_it s)%nat -> move P C k (nth k (full_trace s tr) d) (nth (S k) (full_trace s tr) d).
Lemma inv_start : forall P C x0 st att, inv P C x0 (fista_start P C x0 st att) [].
Proof. intros. repeat split; auto. intros k d H. cbn in H. lia. Qed.
Lemma inv_step : forall P C x0 s s' tr, inv P C x0 s tr -> stepped P C s s' -> inv P C x0 s' (tr ++ [(s_coefs s, s_obj s)]).
Proof.
  intros P C x0 s s' tr (L & H & N & M) (I & Hh & D). unfold inv, full_trace in *. split; [rewrite app_length; simpl; lia|]. split; [rewrite map_app, H, Hh; auto|].
  split; [intros d; rewrite app_nth1 by (rewrite app_length; simpl; lia); apply N|].
  intros k d Hk. rewrite I in Hk. rewrite (app_nth1 (tr ++ [(s_coefs s, s_obj s)]) [(s_coefs s', s_obj s')] (n := k) d) by (rewrite app_length; simpl; lia). destruct (Nat.eq_dec k (s_it s)) as [->|Ne].
  - rewrite app_nth2, L, Nat.sub_diag by lia. cbn [nth]. rewrite app_nth2 by (rewrite app_length; simpl; lia). rewrite app_length, L. simpl length. replace (S (s_it s) - (s_it s + 1))%nat with 0%nat by lia. cbn [nth].
    destruct D as [(D1 & D2 & _)|D]; [left; congruence|right]. cbn [fst snd]. auto.
  - rewrite (app_nth1 (tr ++ [(s_coefs s, s_obj s)]) [(s_coefs s', s_obj s')] (n := S k) d) by (rewrite app_length; simpl; lia). apply M. lia.
Qed.
Lemma loop_inv : forall loops fuel P C x0 s tr s', inv P C x0 s tr -> fista_loop loops fuel P C s = Ok s' ->
  exists tr', length tr' = s_it s' /\ map snd tr' = history s' /\ (forall d, nth 0 (full_trace s' tr') d = (x0, total C x0 true)) /\
    (forall k d, (k < s_it s')%nat -> move P C k (nth k (full_trace s' tr') d) (nth (S k) (full_trace s' tr') d)) /\
    ((s_it s <= max_of P)%nat -> (s_it s' <= max_of P)%nat) /\ (Nat.min (min_of P) (max_of P) <= s_it s' \/ 3 < s_bad s')%nat.
Proof.
  induction loops as [|loops IH]; intros fuel P C x0 s tr s' I E; cbn [fista_loop] in E; destruct (Nat.ltb_spec (s_it s) (max_of P)) as [Hlt|Hge]; try discriminate.
  - injection E as <-. exists tr. destruct I as (L & H & N & M). split; auto. split; [unfold history; rewrite <- H, <- L, <- (map_length snd tr), firstn_all; auto|]. repeat (split; auto). left. lia.
  - destruct (iterate fuel P C s) as [[s1|s1]|e] eqn:Ei; cbn [rbind] in E; [| |discriminate].
    + apply iterate_continue in Ei. destruct (IH fuel P C x0 s1 _ s' (inv_step P C x0 s s1 tr I Ei) E) as (tr' & H1 & H2 & H3 & H4 & H5 & H6). exists tr'. repeat (split; auto). intros _. apply H5. destruct Ei as (-> & _). lia.
    + injection E as <-. apply iterate_stop in Ei. destruct Ei as (E1 & E2 & E3 & E4 & E5). destruct I as (L & H & N & M). exists tr. unfold full_trace, history. rewrite E1, E2, E3, E4.
      split; auto. split; [rewrite <- L, <- (map_length snd tr), <- H, firstn_app, firstn_all, Nat.sub_diag; cbn [firstn]; rewrite app_nil_r; auto|]. repeat (split; auto). destruct E5; [left; lia|auto].
  - injection E as <-. exists tr. destruct I as (L & H & N & M). split; auto. split; [unfold history; rewrite <- H, <- L, <- (map_length snd tr), firstn_all; auto|]. repeat (split; auto). left. lia.
Qed.
Theorem fit_explained : forall loops fuel P C x0 st att s, fit loops fuel P C x0 st att = Ok s ->
  (exists tr, explains C P x0 s tr) /\ length (history s) = s_it s /\ (s_it s <= max_of P)%nat /\ (Nat.min (min_of P) (max_of P) <= s_it s \/ 3 < s_bad s)%nat.
Proof.
  intros loops fuel P C x0 st att s E. destruct (loop_inv _ _ _ _ x0 _ [] s (inv_start P C x0 st att) E) as (tr & H1 & H2 & H3 & H4 & H5 & H6).
  split; [exists tr; repeat (split; auto); intros k d Hk; destruct (H4 k d Hk) as [H|[H _]]; [left|right]; auto|]. split; [rewrite <- H2, map_length; auto|]. split; auto. apply H5. cbn. lia.
Qed.
Lemma not_worse_refl : forall a, not_worse a a.
Proof. intros [u|]; simpl; auto. pose proof e10. assert (1 <= Rmax (Rabs u) 1) by apply Rmax_r. nra. Qed.
Theorem fit_monotone : forall loops fuel P C x0 st att s, fit loops fuel P C x0 st att = Ok s -> p_monotonicity P = true ->
  let h := history s ++ [s_obj s] in forall k, (1 < k)%nat -> (S k < length h)%nat -> not_worse (nth k h PInf) (nth (S k) h PInf).
Proof.
  intros loops fuel P C x0 st att s E Hm h k Hk Hl. destruct (loop_inv _ _ _ _ x0 _ [] s (inv_start P C x0 st att) E) as (tr & H1 & H2 & H3 & H4 & _).
  assert (Eh : h = map snd (full_trace s tr)) by (unfold h, full_trace; rewrite map_app, H2; auto). rewrite Eh in *. rewrite map_length in Hl. unfold full_trace in Hl. rewrite app_length in Hl. simpl in Hl.
  change PInf with (snd (([] : vec), PInf)). rewrite !(map_nth (@snd vec ext)). destruct (H4 k (([] : vec), PInf)) as [E1|[_ H]]; [lia|rewrite E1; apply not_worse_refl|auto].
Qed.
(** The loop bound never matters once it reaches max_its. *)
Lemma loop_enough : forall loops fuel P C s, (max_of P - s_it s <= loops)%nat -> fista_loop loops fuel P C s = fista_loop (max_of P - s_it s) fuel P C s.
Proof.
  induction loops as [|loops IH]; intros fuel P C s H.
  - replace (max_of P - s_it s)%nat with 0%nat by lia. auto.
  - destruct (max_of P - s_it s)%nat as [|m] eqn:Em.
    + cbn [fista_loop]. destruct (Nat.ltb_spec (s_it s) (max_of P)); auto. lia.
    + cbn [fista_loop]. destruct (Nat.ltb_spec (s_it s) (max_of P)); auto. destruct (iterate fuel P C s) as [[s1|s1]|e] eqn:Ei; auto. cbn [rbind].
      apply iterate_continue in Ei. destruct Ei as (I & _). rewrite IH by lia. f_equal. lia.
Qed.
Theorem fit_loop_bound : forall loops fuel P C x0 st att, (max_of P <= loops)%nat -> fit loops fuel P C x0 st att = fit (max_of P) fuel P C x0 st att.
Proof. intros. unfold fit. rewrite loop_enough by (cbn; lia). cbn [s_it fista_start]. rewrite Nat.sub_0_r. auto. Qed.
Lemma loop_total : forall (Q : fstate -> Prop) fuel P C, (forall s, Q s -> (s_it s < max_of P)%nat -> exists o, iterate fuel P C s = Ok o /\ forall s', o = Continue s' -> Q s') ->
  forall loops s, Q s -> (max_of P - s_it s <= loops)%nat -> exists s', fista_loop loops fuel P C s = Ok s'.
Proof.
  intros Q fuel P C HQ. induction loops as [|loops IH]; intros s Hs Hl; cbn [fista_loop]; destruct (Nat.ltb_spec (s_it s) (max_of P)) as [H|H]; eauto; [lia|].
  destruct (HQ s Hs H) as (o & E & K). rewrite E. cbn [rbind]. destruct o as [s1|s1]; eauto. apply IH; auto. apply iterate_continue in E. destruct E as (I & _). lia.
Qed.
Theorem fit_terminates_fixed : forall loops fuel P C x0 st att, p_backtrack P = false -> c_lipschitz C <> 0 -> (max_of P <= loops)%nat -> exists s, fit loops fuel P C x0 st att = Ok s.
Proof.
  intros loops fuel P C x0 st att Hb HL Hl. apply (loop_total (fun _ => True)); auto; [|cbn; lia]. intros s _ _. unfold iterate. rewrite Hb. destruct (Req_EM_T (c_lipschitz C) 0); [tauto|]. cbn [rbind]. cbv zeta.
  destruct (andb (Nat.leb _ _) _); [eauto|]. destruct (update_working _ _ _ _). destruct (andb (Nat.ltb _ _) _); [destruct (andb _ _); eauto|eauto].
Qed.

(** The multinomial factory of multiresponse models (C74). *)
From Coq Require Import Reals List Lra Lia Arith Bool ZArith.
From Verif Require Import M_affine P_affine M_buffer P_buffer M_loss SpecLoss P_loss P_loss2 P_loss4 Vec Spec SpecBlock SpecConvex M_quad P_quad P_calc P_sep P_block M_mglm SpecMglm P_mglm P_mglm2 P_mglm3 P_mglm8.
Import ListNotations.
Local Open Scope R_scope.

Lemma mat_times_lengths : forall X p q B, Forall (fun r : vec => length r = q) (mat_times X p q B).
Proof. intros. unfold mat_times. apply Forall_map. apply Forall_forall. intros r _. rewrite map_length, seq_length. auto. Qed.
Lemma factory_works : forall h (base : bool) X p (counts : list vec) c weights B J, (0 < length counts)%nat -> (0 < J)%nat -> Forall (fun ct : vec => length ct = J) counts -> counts_ok counts -> 0 <= c ->
  (base = true -> Forall (Forall (fun a => exists z : Z, Rabs (a - IZR z) <= / 10 ^ 8 + / 10 ^ 5 * Rabs a)) counts) ->
  length X = length counts -> Forall (fun r => length r = p) X -> (forall r, weights = Some r -> (r < length h)%nat /\ length (read h r) = length counts) ->
  let q := if base then (J - 1)%nat else J in length B = (p * q)%nat ->
  let cw := match weights with Some r => read h r | None => ones (length counts) end in let f := multi_func base (length counts) q counts c None cw (concat (mat_times X p q B)) in
  exists h' g, mglm_multinomial h X p counts c None None None weights base = (h', Ok g) /\ mglm_eval h' g B EvFunc = (h', Ok (VFunc f)) /\
    (within 50 (concat (mat_times X p q B)) -> f = c * neg_log_lik counts cw (all_predictors base (mat_times X p q B))).
Proof.
  intros h base X p counts c weights B J Lc HJ FJ Hc C Hz LX FX HW q LB cw f0.
  destruct (new_multi_accepts h base (length counts) q counts c None None J Lc FJ) as (A & _).
  destruct A as (_ & A). destruct A as (l & E); [split; auto; split; auto; split; [|discriminate]; intros ->; split; auto; unfold q; lia|].
  assert (EJ : match counts with ct :: _ => length ct | [] => 0%nat end = J) by (destruct counts; [cbn in Lc; lia|exact (Forall_inv FJ)]).
  assert (F : m_base l = base /\ m_rows l = length counts /\ m_cols l = q /\ m_counts l = counts /\ m_coef l = c /\ m_offset l = None).
  { revert E. unfold new_multi. destruct (Rlt_dec c 0); [lra|]. destruct (negb _); [discriminate|]. unfold rbind. destruct (q_add _ _); [|discriminate]. intros E. injection E as <-. auto 6. }
  destruct F as (Eb & En & Eq & Ec & Ef & Eo).
  unfold mglm_multinomial. rewrite EJ. fold q. rewrite E. unfold new_mglm.
  match goal with |- context [let '(_, _) := let '(_, _) := ?m in _ in _] => destruct m as [h1 r1] eqn:R | |- context [let '(_, _) := ?m in _] => destruct m as [h1 r1] eqn:R end.
  assert (Rd : read h1 r1 = match weights with Some r => read h r | None => ones (length counts) end /\ (r1 < length h1)%nat).
  { destruct weights as [r|]; injection R as <- <-; [split; auto; apply HW; auto|]. split; [|rewrite app_length; cbn; lia]. unfold read. rewrite app_nth2, Nat.sub_diag by lia. cbn [nth]. unfold vec in *. rewrite LX. reflexivity. }
  destruct Rd as (Rd & Rl). exists h1. eexists. split; [reflexivity|]. set (g := mk_mglm _ _ _ _ _ _).
  assert (Lw : length (read h1 r1) = length counts) by (rewrite Rd; destruct weights as [r|]; [apply HW; auto|unfold ones; apply repeat_length]).
  assert (S : mglm_shapes h1 g). { unfold mglm_shapes. cbn. rewrite En. split; auto. split; [exact (eq_sym LX)|]. split; [exact Logic.I|]. split; auto. exact (eq_trans Lw (eq_sym LX)). }
  assert (M : multi_fits (m_base l) (m_rows l) (m_cols l) (m_counts l) (m_offset l) (read h1 (mg_cw g))).
  { rewrite Eb, En, Eq, Ec, Eo. cbn [mg_cw g]. split; auto. split; [eapply Forall_impl; [|exact FJ]; intros a Ha; cbn in Ha; unfold q; destruct base; lia|]. split; [exact Logic.I|]. split; [exact Lw|]. destruct base; [left; auto|right; exact HJ]. }
  destruct (mglm_multi_works h1 g l B EvFunc S eq_refl M) as (f & u & V & Df & D & _); [cbn; rewrite Eq; auto|exact Logic.I|].
  assert (P : minus (mglm_pred g B) (m_offset l) = concat (mat_times X p q B)). { rewrite Eo. unfold mglm_pred, minus. cbn. rewrite Eq. auto. }
  assert (P' : mglm_pred g B = concat (mat_times X p q B)) by (rewrite Eo in P; exact P).
  rewrite P in D. rewrite P', Eb, En, Eq, Ec, Ef, Eo in Df. cbn [mg_cw g] in Df. rewrite Rd in Df. assert (E0 : f = f0) by exact Df. split; [rewrite V; cbn [both]; rewrite E0; reflexivity|].
  intros W. specialize (D W). rewrite <- E0, D, Ef, Ec, Eb, En, Eq. cbn [mg_cw g]. rewrite Rd.
  assert (Lm : length (mat_times X p q B) = length counts) by (unfold mat_times; rewrite map_length; auto). rewrite <- Lm at 1. rewrite rows_concat by apply mat_times_lengths. reflexivity.
Qed.
Lemma sum_over_none : forall n, sum_over n (fun _ => 0) = 0.
Proof. induction n as [|n IH]; [reflexivity|]. rewrite sum_over_S, IH. ring. Qed.
Lemma times_padded : forall X p q B B', (forall k j, (k < p)%nat -> (j < q)%nat -> entry (S q) B' k j = entry q B k j) -> (forall k, (k < p)%nat -> entry (S q) B' k q = 0) ->
  mat_times X p (S q) B' = map (fun e => e ++ [0]) (mat_times X p q B).
Proof.
  intros X p q B B' H H0. unfold mat_times. rewrite map_map. apply map_ext. intros r. rewrite seq_S, map_app. cbn [map Nat.add]. f_equal.
  - apply map_ext_in. intros j Hj. apply in_seq in Hj. apply sum_over_ext. intros k Hk. rewrite H by lia. auto.
  - f_equal. rewrite (sum_over_ext _ _ (fun _ => 0)) by (intros k Hk; rewrite H0 by auto; ring). apply sum_over_none.
Qed.
Lemma sum_exp_positive : forall (e : vec), e <> [] -> 0 < vsum (map exp e).
Proof.
  assert (N : forall e : vec, 0 <= vsum (map exp e)) by (induction e as [|a e IH]; cbn [map]; [unfold vsum; cbn; lra|rewrite vsum_cons; assert (E := exp_pos a); lra]).
  intros [|a e] H; [congruence|]. cbn [map]. rewrite vsum_cons. assert (E := exp_pos a). specialize (N e). lra.
Qed.
Lemma softmax_shift : forall t (e : vec), softmax (map (fun a => a + t) e) = softmax e.
Proof.
  intros t e. destruct e as [|b e]; auto. set (E := b :: e). assert (P : 0 < vsum (map exp E)) by (apply sum_exp_positive; discriminate). unfold softmax. rewrite !map_map.
  assert (S : vsum (map (fun x => exp (x + t)) E) = vsum (map exp E) * exp t).
  { generalize E. induction E0 as [|a l IH]; cbn [map]; [unfold vsum; cbn; ring|]. rewrite !vsum_cons, IH, exp_plus. ring. }
  apply map_ext. intros a. rewrite S, exp_plus. assert (exp t <> 0) by (assert (H := exp_pos t); lra). field. split; lra.
Qed.
Lemma times_shifted : forall X p q B B' v, (forall k j, (k < p)%nat -> (j < q)%nat -> entry q B' k j = entry q B k j + nth k v 0) ->
  mat_times X p q B' = map (fun r => map (fun a => a + sum_over p (fun k => nth k r 0 * nth k v 0)) (map (fun j => sum_over p (fun k => nth k r 0 * entry q B k j)) (seq 0 q))) X.
Proof.
  intros X p q B B' v H. unfold mat_times. apply map_ext. intros r. rewrite map_map. apply map_ext_in. intros j Hj. apply in_seq in Hj. rewrite <- sum_over_plus. apply sum_over_ext. intros k Hk. rewrite H by lia. ring.
Qed.
Lemma lik_shift : forall counts cw X p q B B' v, length X = length counts -> (forall k j, (k < p)%nat -> (j < q)%nat -> entry q B' k j = entry q B k j + nth k v 0) ->
  neg_log_lik counts cw (all_predictors false (mat_times X p q B')) = neg_log_lik counts cw (all_predictors false (mat_times X p q B)).
Proof.
  intros counts cw X p q B B' v L H. unfold neg_log_lik, all_predictors. rewrite !map_id. f_equal. apply sum_over_ext. intros i Hi. f_equal. f_equal. f_equal. rewrite (times_shifted X p q B B' v H). unfold mat_times.
  set (F := fun r : vec => map (fun j => sum_over p (fun k => nth k r 0 * entry q B k j)) (seq 0 q)). set (G := fun r : vec => map (fun a => a + sum_over p (fun k => nth k r 0 * nth k v 0)) (F r)).
  change (softmax (nth i (map G X) []) = softmax (nth i (map F X) [])). rewrite (nth_indep (map G X) [] (G [])), (nth_indep (map F X) [] (F [])) by (rewrite map_length, L; auto). rewrite !map_nth. apply softmax_shift.
Qed.
Lemma factory_value : forall h (base : bool) X p (counts : list vec) c weights B J, (0 < length counts)%nat -> (0 < J)%nat -> Forall (fun ct : vec => length ct = J) counts -> counts_ok counts -> 0 <= c ->
  (base = true -> Forall (Forall (fun a => exists z : Z, Rabs (a - IZR z) <= / 10 ^ 8 + / 10 ^ 5 * Rabs a)) counts) ->
  length X = length counts -> Forall (fun r => length r = p) X -> (forall r, weights = Some r -> (r < length h)%nat /\ length (read h r) = length counts) ->
  let q := if base then (J - 1)%nat else J in length B = (p * q)%nat -> within 50 (concat (mat_times X p q B)) ->
  exists h' g, mglm_multinomial h X p counts c None None None weights base = (h', Ok g) /\
    mglm_eval h' g B EvFunc = (h', Ok (VFunc (c * neg_log_lik counts (match weights with Some r => read h r | None => ones (length counts) end) (all_predictors base (mat_times X p q B))))).
Proof.
  intros h base X p counts c weights B J Lc HJ FJ Hc C Hz LX FX HW q LB W. destruct (factory_works h base X p counts c weights B J Lc HJ FJ Hc C Hz LX FX HW LB) as (h' & g & E & V & D).
  exists h', g. split; auto. rewrite V. fold q in D |- *. rewrite (D W). reflexivity.
Qed.
Lemma factory_baseline : forall h X p (counts : list vec) c weights B B' q, (0 < length counts)%nat -> Forall (fun ct : vec => length ct = S q) counts -> counts_ok counts -> 0 <= c ->
  Forall (Forall (fun a => exists z : Z, Rabs (a - IZR z) <= / 10 ^ 8 + / 10 ^ 5 * Rabs a)) counts ->
  length X = length counts -> Forall (fun r => length r = p) X -> (forall r, weights = Some r -> (r < length h)%nat /\ length (read h r) = length counts) ->
  length B = (p * q)%nat -> length B' = (p * S q)%nat -> (forall k j, (k < p)%nat -> (j < q)%nat -> entry (S q) B' k j = entry q B k j) -> (forall k, (k < p)%nat -> entry (S q) B' k q = 0) -> within 50 (concat (mat_times X p q B)) ->
  exists h1 g1 h2 g2 f, mglm_multinomial h X p counts c None None None weights true = (h1, Ok g1) /\ mglm_multinomial h X p counts c None None None weights false = (h2, Ok g2) /\
    mglm_eval h1 g1 B EvFunc = (h1, Ok (VFunc f)) /\ mglm_eval h2 g2 B' EvFunc = (h2, Ok (VFunc f)).
Proof.
  intros h X p counts c weights B B' q Lc FJ Hc C Hz LX FX HW LB LB' H H0 W.
  destruct (factory_value h true X p counts c weights B (S q) Lc ltac:(lia) FJ Hc C (fun _ => Hz) LX FX HW) as (h1 & g1 & E1 & V1); try (cbn; rewrite Nat.sub_0_r; auto).
  assert (T := times_padded X p q B B' H H0).
  destruct (factory_value h false X p counts c weights B' (S q) Lc ltac:(lia) FJ Hc C ltac:(discriminate) LX FX HW) as (h2 & g2 & E2 & V2); auto.
  { rewrite T. unfold within in *. apply Forall_forall. intros a Ha. apply in_concat in Ha as (e & He & Ha). apply in_map_iff in He as (e' & <- & He'). apply in_app_iff in Ha as [Ha|[<-|[]]]; [|lra].
    rewrite Forall_forall in W. apply W. apply in_concat. eauto. }
  exists h1, g1, h2, g2. eexists. split; [exact E1|]. split; [exact E2|]. split; [exact V1|]. rewrite V2. do 4 f_equal. rewrite T. cbn. rewrite Nat.sub_0_r. unfold all_predictors. rewrite map_id. reflexivity.
Qed.
Lemma factory_shift : forall h X p (counts : list vec) c weights B B' v q, (0 < length counts)%nat -> (0 < q)%nat -> Forall (fun ct : vec => length ct = q) counts -> counts_ok counts -> 0 <= c ->
  length X = length counts -> Forall (fun r => length r = p) X -> (forall r, weights = Some r -> (r < length h)%nat /\ length (read h r) = length counts) ->
  length B = (p * q)%nat -> length B' = (p * q)%nat -> (forall k j, (k < p)%nat -> (j < q)%nat -> entry q B' k j = entry q B k j + nth k v 0) -> within 50 (concat (mat_times X p q B)) -> within 50 (concat (mat_times X p q B')) ->
  exists h' g f, mglm_multinomial h X p counts c None None None weights false = (h', Ok g) /\ mglm_eval h' g B EvFunc = (h', Ok (VFunc f)) /\ mglm_eval h' g B' EvFunc = (h', Ok (VFunc f)).
Proof.
  intros h X p counts c weights B B' v q Lc Hq FJ Hc C LX FX HW LB LB' H W W'.
  destruct (factory_value h false X p counts c weights B q Lc Hq FJ Hc C ltac:(discriminate) LX FX HW LB W) as (h1 & g1 & E1 & V1).
  destruct (factory_value h false X p counts c weights B' q Lc Hq FJ Hc C ltac:(discriminate) LX FX HW LB' W') as (h2 & g2 & E2 & V2).
  rewrite E1 in E2. injection E2 as <- <-. exists h1, g1. eexists. split; [exact E1|]. split; [exact V1|]. rewrite V2. do 4 f_equal. exact (lik_shift counts _ X p q B B' v LX H).
Qed.
(** one case of the first of two categories *)
Lemma clipped_shift : forall a b, a <> b -> within 50 [a; b] -> exists t h' g f f', mglm_multinomial [] [[1]] 1 [[1; 0]] 1 None None None None false = (h', Ok g) /\
  mglm_eval h' g [a; b] EvFunc = (h', Ok (VFunc f)) /\ mglm_eval h' g [a + t; b + t] EvFunc = (h', Ok (VFunc f')) /\ f <> f'.
Proof.
  intros a b N W. exists (50 - Rmin a b).
  assert (G : forall B : vec, length B = 2%nat -> exists h' g, mglm_multinomial [] [[1]] 1 [[1; 0]] 1 None None None None false = (h', Ok g) /\ mglm_eval h' g B EvFunc = (h', Ok (VFunc (multi_func false 1 2 [[1; 0]] 1 None (ones 1) B)))).
  { intros B LB. destruct (factory_works [] false [[1]] 1 [[1; 0]] 1 None B 2) as (h' & g & E & V & _); auto; try (cbn; lia); try discriminate; try lra; try (repeat constructor; lra).
    exists h', g. split; auto. cbv zeta in V. rewrite V. do 4 f_equal. destruct B as [|x [|y [|]]]; try discriminate. cbn. unfold sum_over, entry. cbn. f_equal; [|f_equal]; unfold vsum; cbn; ring. }
  destruct (G [a; b] eq_refl) as (h1 & g1 & E1 & V1). destruct (G [a + (50 - Rmin a b); b + (50 - Rmin a b)] eq_refl) as (h2 & g2 & E2 & V2). rewrite E1 in E2. injection E2 as <- <-.
  exists h1, g1. do 2 eexists. split; [exact E1|]. split; [exact V1|]. split; [exact V2|].
  assert (F : forall x y, multi_func false 1 2 [[1; 0]] 1 None (ones 1) [x; y] = ln (exp (clip50 x) + exp (clip50 y)) - clip50 x).
  { intros x y. unfold multi_func, scale, vsum, dot. cbn. destruct (Req_EM_T 1 1); [|congruence]. rewrite !Rplus_0_r || idtac. ring_simplify. replace (0 + exp (clip50 x) + exp (clip50 y)) with (exp (clip50 x) + exp (clip50 y)) by ring. ring. }
  rewrite !F. inversion W as [|? ? Wa W1]; subst. inversion W1 as [|? ? Wb _]; subst.
  assert (Ca : forall x, -50 <= x <= 50 -> clip50 x = x) by (intros x Hx; unfold clip50; rewrite Rmin_left, Rmax_right by lra; auto).
  assert (Cb : forall x, 50 <= x -> clip50 x = 50) by (intros x Hx; unfold clip50; rewrite Rmin_right, Rmax_right by lra; auto).
  rewrite (Ca a Wa), (Ca b Wb), (Cb (a + (50 - Rmin a b))), (Cb (b + (50 - Rmin a b))) by (assert (M := Rmin_l a b); assert (M' := Rmin_r a b); lra).
  intros E. replace (exp 50 + exp 50) with (2 * exp 50) in E by ring. rewrite ln_mult, ln_exp in E by (try apply exp_pos; lra).
  assert (L : ln (exp a + exp b) = ln (2 * exp a)). { rewrite ln_mult, ln_exp by (try apply exp_pos; lra). lra. }
  apply ln_inv in L; [|assert (P := exp_pos a); assert (P' := exp_pos b); lra|assert (P := exp_pos a); lra]. assert (Q : exp a = exp b) by lra. apply exp_inv in Q. auto.
Qed.

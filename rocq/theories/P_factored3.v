(** Factored matrices: the proximal maps, histories of calls, and where they go wrong. *)
From Coq Require Import Reals List Lra Lia Psatz Arith Bool.
From Verif Require Import M_affine P_affine P_affine2 Vec Spec SpecLoss M_quad M_prox M_semi M_shift SpecAtom SpecBase SpecMode M_mode SpecModed SpecPart SpecBlock M_cones SpecCone P_quad P_calc P_sep P_cv P_pl P_prox P_feas P_semi P_shift P_conj P_cones P_gauge P_part P_mixed M_linear SpecLinear P_linear SpecSvd P_svd1 P_svd2 P_svd3 M_svd SpecSvd2 P_svd4 P_svd5 M_factored SpecFactored P_factored1 P_factored2.
Import ListNotations.
Local Open Scope R_scope.

Section Values.
Variables (r c : nat) (X : vec) (U V : list vec) (D : vec).
Hypothesis Hr : (1 <= r)%nat.
Hypothesis Hc : (1 <= c)%nat.
Hypothesis LX : length X = (r * c)%nat.
Hypothesis Sv : is_svd r c X U D V.
Local Notation svd := (fun _ : vec => (U, D, V)) (only parsing).
Lemma l1_is_soft : forall lam, 0 <= lam -> l1_lagrange D (lam / 1) = map (soft lam) D.
Proof.
  intros lam Hl. replace (lam / 1) with lam by field. unfold l1_lagrange. apply map_ext_in. intros a I. pose proof (proj1 (Forall_forall _ _) (sv_pos _ _ _ _ _ _ Sv) a I) as Pa. cbn beta in Pa.
  unfold soft, sgn, pos, Rmax. destruct (Rlt_dec lam (Rabs a)), (Rle_dec (Rabs a - lam) 0); try lra.
Qed.
Lemma nuc_lag : forall lam, 0 <= lam -> is_unique_argmin (r * c) (prox_objective 1 X (fun Y => Fin (lam * nuc_norm r c Y))) (recompose r c U (map (soft lam) D) V).
Proof.
  intros lam Hl. destruct (sn_lagrange_ok r c svd Hr Hc X U V D LX eq_refl Sv SNuclear 1 lam ltac:(lra) Hl) as (e & E & H). unfold sn_lagrange_prox, aux_atom in E. destruct (Rlt_dec lam 0); [lra|]. cbn [lagrange_prox rmap] in E. apply Ok_inj in E. rewrite l1_is_soft in E by auto. subst e. exact H.
Qed.
Lemma sub_rec : forall p : vec, length p = length D -> vsub X (recompose r c U p V) = recompose r c U (vsub D p) V.
Proof.
  intros p Lp. assert (LD : length D = Nat.min r c) by apply Sv. rewrite !(rec r c X U V D Sv) by (rewrite ?vsub_length; congruence). rewrite (sX r c X U V D Sv) at 1. apply (usv_sub (r * c) U V D p); [apply rows_length, (sB r c X U V D Sv)|auto].
Qed.
Lemma nuc_bound : forall b p, 0 <= b -> bound_prox CL1 D b = Ok p -> is_proj (r * c) (fun Y => nuc_norm r c Y <= b) X (recompose r c U p V) /\ length p = length D.
Proof.
  intros b p Hb Ep. assert (Lp : length p = length D). { pose proof (sD r c X U V D Sv) as LD. destruct (bound_prox_correct CL1 (Nat.min r c) D b ltac:(lia) LD Hb) as (p' & E' & H'). rewrite Ep in E'. apply Ok_inj in E'. subst p'. destruct H' as (L & _). congruence. }
  split; auto. destruct (sn_bound_ok r c svd Hr Hc X U V D LX eq_refl Sv SNuclear b Hb) as (e & E & H). unfold sn_bound_prox, aux_atom in E. destruct (Rlt_dec b 0); [lra|]. rewrite Ep in E. cbn [rmap] in E. apply Ok_inj in E.
  assert (LV : length V = length D) by (rewrite (sV r c X U V D Sv), (sD r c X U V D Sv); auto).
  assert (E2 : recompose r c U p V = e). { rewrite <- E. rewrite (recompose_usv r c (kept _ U)); [|apply kept_length, (sUV r c X U V D Sv)|apply kept_length; exact (eq_trans Lp (eq_sym LV))|apply kept_Forall, (FU r c X U V D Sv)|apply kept_Forall, (FV r c X U V D Sv)].
    rewrite kept_usv; [|apply (sUV r c X U V D Sv)|exact (eq_trans Lp (eq_sym LV))|apply (l1_bound_nonneg r c X U V D Sv b p Ep Hb)|apply rows_length, (sB r c X U V D Sv)]. apply (rec r c X U V D Sv). rewrite Lp. apply Sv. }
  rewrite E2. exact H.
Qed.
Lemma op_lag : forall L lam p, 0 < L -> 0 <= lam -> bound_prox CL1 D (lam / L) = Ok p -> is_unique_argmin (r * c) (prox_objective L X (fun Y => Fin (lam * op_norm r c Y))) (vsub X (recompose r c U p V)).
Proof.
  intros L lam p HL Hl Ep. assert (Hb : 0 <= lam / L) by (apply Rmult_le_pos; [auto|left; apply Rinv_0_lt_compat; auto]). destruct (nuc_bound _ _ Hb Ep) as [_ Lp]. rewrite sub_rec by auto.
  destruct (sn_lagrange_ok r c svd Hr Hc X U V D LX eq_refl Sv SOperator L lam HL Hl) as (e & E & H). unfold sn_lagrange_prox, aux_atom in E. destruct (Rlt_dec lam 0); [lra|]. cbn [lagrange_prox] in E. cbn [bound_prox] in Ep. rewrite Ep in E. cbn [rbind rmap] in E. apply Ok_inj in E. subst e. exact H.
Qed.
Lemma op_bound : forall b, 0 <= b -> is_proj (r * c) (fun Y => op_norm r c Y <= b) X (vsub X (recompose r c U (map (soft b) D) V)).
Proof.
  intros b Hb. rewrite sub_rec by apply map_length. destruct (sn_bound_ok r c svd Hr Hc X U V D LX eq_refl Sv SOperator b Hb) as (e & E & H). unfold sn_bound_prox, aux_atom in E. destruct (Rlt_dec b 0); [lra|]. cbn [bound_prox rmap] in E. apply Ok_inj in E.
  assert (E2 : clip (- b) b D = vsub D (map (soft b) D)).
  { pose proof (sv_pos _ _ _ _ _ _ Sv) as P. clear -P Hb. induction P as [|a d Pa P IH]; auto. unfold clip in *. cbn [map]. rewrite IH. change (vsub (a :: d) (soft b a :: map (soft b) d)) with ((a - soft b a) :: vsub d (map (soft b) d)). f_equal.
    rewrite soft_nonneg by auto. unfold pos, Rmin, Rmax. repeat destruct Rle_dec; lra. }
  rewrite <- E2. rewrite E. exact H.
Qed.
End Values.

(** One call *)
Lemma fn_svd_ok : forall fuel it a X rule, ready a -> nonzero_matrix (fn_r a) (fn_c a) X -> exact_iteration (fn_r a) (fn_c a) X (it X) -> not_negligible (fn_r a) (fn_c a) X -> (Nat.min (fn_r a) (fn_c a) < fuel)%nat ->
  exists U1 D1 V1 D2 a', leading (fn_r a) (fn_c a) X U1 D1 V1 D2 /\ fn_svd fuel it a X rule = Ok (a', (U1, D1, V1)) /\ D1 <> [] /\ (Forall (fun b => b = 0) D2 \/ rule (vabs D1) = true) /\ ready a' /\ fn_r a' = fn_r a /\ fn_c a' = fn_c a.
Proof.
  intros fuel it a X rule (Hr & Hc & Hk & Hw & Hw2) NZ EI NN Hf.
  destruct (compute_ok fuel it (fn_r a) (fn_c a) X (Nat.max (fn_rank a) 1) 0 (Some (snd (fn_warm a))) (/ 10 ^ 16) (Some rule) Hr Hc NZ EI NN) as (U1 & D1 & V1 & D2 & Ld & E & NE & F & Z & Lq); try lia.
  { split; [left; apply Rinv_0_lt_compat, pow_lt; lra|lra]. }
  exists U1, D1, V1, D2. eexists. split; auto. unfold fn_svd. rewrite E. cbn [rbind]. split; [reflexivity|]. split; auto. split; [exact Z|]. destruct Ld as (U2 & V2 & _ & L1 & _). unfold ready. cbn [fn_r fn_c fn_rank fn_warm fst snd]. rewrite L1. assert (length D1 <> 0%nat) by (destruct D1; [congruence|discriminate]). repeat split; auto; lia.
Qed.
Lemma fn_lagrange_ok : forall fuel it a X L lam, ready a -> nonzero_matrix (fn_r a) (fn_c a) X -> exact_iteration (fn_r a) (fn_c a) X (it X) -> not_negligible (fn_r a) (fn_c a) X -> (Nat.min (fn_r a) (fn_c a) < fuel)%nat -> 0 <= lam ->
  exists a' f U V D, fn_lagrange_prox fuel it a X L lam = Ok (a', f) /\ ready a' /\ fn_r a' = fn_r a /\ fn_c a' = fn_c a /\ factors_fit f /\ f_r f = fn_r a /\ f_c f = fn_c a /\ is_svd (fn_r a) (fn_c a) X U D V /\ get_X f = recompose (fn_r a) (fn_c a) U (map (soft lam) D) V.
Proof.
  intros fuel it a X L lam Ha NZ EI NN Hf Hl. destruct (fn_svd_ok fuel it a X (svt_rule lam) Ha NZ EI NN Hf) as (U1 & D1 & V1 & D2 & a' & Ld & E & NE & Z & Ha' & Er & Ec).
  assert (B2 : Forall (fun b => b <= lam) D2) by (apply (svt_enough _ _ _ _ _ _ _ Ld lam Hl NE Z)).
  unfold fn_lagrange_prox. rewrite E. cbn [rbind]. set (Dp := map (fun d => d - lam) D1). destruct (new_factored (fn_r a) (fn_c a) (kept (positive Dp) U1) (kept (positive Dp) Dp) (kept (positive Dp) V1) None 0) as [f|] eqn:Ef; [|unfold new_factored in Ef; destruct (Rle_dec 0 0); [discriminate|lra]].
  destruct (lead_lag_form _ _ _ _ _ _ _ Ld lam f Hl B2 Ef) as (K & Fr & Fc & U & V & Sv & EX). exists a', f, U, V, (D1 ++ D2). cbn [rmap]. repeat split; auto; try apply Ha'; try apply K; try apply Sv.
Qed.
Lemma fn_bound_ok : forall fuel it a X b, ready a -> nonzero_matrix (fn_r a) (fn_c a) X -> exact_iteration (fn_r a) (fn_c a) X (it X) -> not_negligible (fn_r a) (fn_c a) X -> (Nat.min (fn_r a) (fn_c a) < fuel)%nat -> 0 <= b ->
  exists a' f U V D p, fn_bound_prox fuel it a X b = Ok (a', f) /\ ready a' /\ fn_r a' = fn_r a /\ fn_c a' = fn_c a /\ factors_fit f /\ f_r f = fn_r a /\ f_c f = fn_c a /\ is_svd (fn_r a) (fn_c a) X U D V /\ bound_prox CL1 D b = Ok p /\ get_X f = recompose (fn_r a) (fn_c a) U p V.
Proof.
  intros fuel it a X b Ha NZ EI NN Hf Hb. destruct (fn_svd_ok fuel it a X (bound_rule b) Ha NZ EI NN Hf) as (U1 & D1 & V1 & D2 & a' & Ld & E & NE & Z & Ha' & Er & Ec).
  destruct (l1_project_spec D1 b NE Hb) as (t & E1 & _).
  unfold fn_bound_prox. rewrite E. cbn [rbind]. unfold aux_atom. destruct (Rlt_dec b 0); [lra|]. cbn [bound_prox]. rewrite E1. cbn [rbind]. set (Dp := map (soft t) D1) in *. destruct (new_factored (fn_r a) (fn_c a) (kept (positive Dp) U1) (kept (positive Dp) Dp) (kept (positive Dp) V1) None 0) as [f|] eqn:Ef; [|unfold new_factored in Ef; destruct (Rle_dec 0 0); [discriminate|lra]].
  destruct (lead_bound_form _ _ _ _ _ _ _ Ld b Dp f Hb NE Z E1 Ef) as (K & Fr & Fc & U & V & p & Sv & Ep & EX). exists a', f, U, V, (D1 ++ D2), p. cbn [rmap]. repeat split; auto; try apply Ha'; try apply K; try apply Sv.
Qed.

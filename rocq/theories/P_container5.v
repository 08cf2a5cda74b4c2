(** Proofs about containers: the run on the dual with rejected steps and with the default settings, what solve returns, and no loss at all. *)
From Coq Require Import Reals List Lra Lia Arith Bool.
From Verif Require Import M_affine SpecAffine P_affine M_loss M_smooth SpecSmooth P_smooth Vec Spec SpecConvex M_quad P_quad P_calc P_sep M_prox M_semi SpecAtom P_semi P_conj M_shift SpecBase P_shift M_afatom SpecCone M_cones P_cones M_fista SpecFista P_fista P_fista2 P_fista3 M_problem SpecProblem P_problem P_separable P_problem2 M_sconj SpecSconj P_sconj M_container SpecContainer P_dual P_container P_container2 P_container3 P_container4.
Import ListNotations.
Local Open Scope R_scope.

Theorem container_run_rejecting : forall P Ld n smooths Gs Hs parts q0 K c l gam L, sound_parts n smooths Gs Hs parts q0 -> container_of n smooths parts q0 K -> 0 < L -> length c = n -> length l = n ->
  no_quadratic n q0 -> (forall x, length x = n -> quads_sum n smooths x = 0) -> total_coef smooths q0 (mk_iq L (FVec c) (FVec l) gam) = L -> let q := mk_iq L (FVec c) (FVec l) gam in
  st_kind (ct_stack K) = TGeneral -> 0 < Ld -> opnorm_bound (st_map (ct_stack K)) Ld ->
  p_backtrack P = false -> p_restart P = None -> 0 < p_start_step P ->
  (exists r, dual_fun Gs parts (zeros (t_out (st_map (ct_stack K)))) = Fin r) ->
  forall D F u, ct_dual_problem K q = Ok D -> (forall u, length u = t_out (dp_map D) -> is_fenchel n (fun x => Fin (q_denot n q x)) (vopp (t_adj (dp_map D) u)) (Fin (F u))) -> is_argmin (t_out (dp_map D)) (objective F (dual_fun Gs parts)) u ->
  exists s tr j v v0, let C := dp_composite D (Ld / L) in let z := zeros (t_out (dp_map D)) in
    fit (max_of P) 0 P C z None false = Ok s /\ explains C P z s tr /\ (j = 0%nat \/ forall d, nth (j - 1) (full_trace s tr) d = nth j (full_trace s tr) d) /\
    (Nat.min (min_of P) (max_of P) <= s_it s <= max_of P)%nat /\ (s_it s = max_of P \/ close_enough C P s (s_working s)) /\
    ct_proximal P Ld K q = Ok v /\ is_unique_argmin n (plus_quad n (parts_fun Hs parts) q) v0 /\ (j <= s_it s)%nat /\
    (j <> s_it s -> forall d, sqn (vsub v0 v) <= 4 * Ld * sqn (vsub (fst (nth j (full_trace s tr) d)) u) / (L * L * ((INR (s_it s - j) + 1) * (INR (s_it s - j) + 1)))).
Proof.
  intros P Ld n smooths Gs Hs parts q0 K c l gam L SP CO HL Lc Ll Z0 Zs TC q NG HLd HO Hb Hr Hst FG D F u ED HF Mu.
  destruct (container_recovers n smooths Gs Hs parts q0 K c l gam L SP CO HL Lc Ll Z0 Zs TC) as (D' & F' & ED' & ET & HF' & EX & RC & AC & GAP). fold q in ED', RC, AC, GAP, HF'. cbv zeta in *. assert (D' = D) by (rewrite ED in ED'; apply Ok_inj in ED'; auto). subst D'. set (T := dp_map D) in *.
  assert (EF : forall x, length x = t_out T -> F x = F' x). { intros x Lx. exact (fenchel_fin_unique _ _ _ _ _ (HF x Lx) (HF' x Lx)). }
  assert (Mu' : is_argmin (t_out T) (objective F' (dual_fun Gs parts)) u). { destruct Mu as (Lu & (r & Er) & M). split; auto. unfold objective in *. split; [exists r; rewrite <- EF by auto; exact Er|]. intros y Ly. rewrite <- !EF by auto. apply M; auto. }
  rewrite <- ET in *. destruct (EX (Ld / L) Ld ltac:(lra) HO) as [X Lip]. set (C := dp_composite D (Ld / L)) in *. assert (HLL : 0 < Ld / L) by (apply Rdiv_lt_0_compat; auto).
  assert (SF : steps_fit (t_out T) P C) by (right; split; [exact HLL|exact Lip]). destruct FG as (g0 & Eg0). assert (Lz : length (zeros (t_out T)) = t_out T) by apply zeros_length.
  assert (GS : good_start (dual_fun Gs parts) C (zeros (t_out T))). { unfold good_start. rewrite Eg0. apply (ex_nonsmooth _ _ _ _ X); auto. }
  destruct (fit_terminates_fixed (max_of P) 0 P C (zeros (t_out T)) None false Hb) as (s & Es); [cbn [C dp_composite c_lipschitz]; lra|lia|].
  destruct (exact_fit _ _ _ _ X P SF _ _ _ None false s Lz GS Hst Es) as (Bad & _ & Eo & Ls). destruct (fit_explained _ _ _ _ _ _ _ _ Es) as (_ & _ & Mx & It).
  assert (Mu2 := Mu'). destruct Mu2 as (Lu & (r0 & Er0) & Min). rewrite Er0 in Min.
  destruct (rate_since_rejection _ _ _ C P u r0 X HLL Lip Hb Hr Lu Er0 Min _ _ _ None false s Lz GS Hst Es) as (tr & j & Xp & Hj & Rj & Rate).
  destruct (finite_fit _ _ _ _ X P SF _ _ _ None false s Lz GS Hst (ex_intro _ g0 Eg0) Es) as (gs & Egs). assert (Eobj : objective F' (dual_fun Gs parts) (s_coefs s) = Fin (F' (s_coefs s) + gs)) by (unfold objective; rewrite Egs; reflexivity).
  destruct (RC u Mu') as (v0 & Ev0 & Uv0). assert (Mv0 := proj1 Uv0). destruct Mv0 as (Lv0 & (p & Ep) & _). assert (Gp := GAP u r0 v0 p Mu' Er0 (proj1 Uv0) Ep).
  destruct (AC (s_coefs s) _ v0 p Ls Eobj Lv0 Ep) as (v & Ev & Acc). exists s, tr, j, v, v0. cbv zeta. split; [exact Es|]. split; [exact Xp|]. split; [exact Rj|]. split; [lia|]. split; [destruct (fit_stop_reason _ _ _ _ _ _ _ _ Es) as [|[|[_ Q]]]; [auto|lia|auto]|].
  split; [|split; [exact Uv0|split; [exact Hj|]]].
  - unfold ct_proximal. rewrite NG, ED. cbn [rbind]. change (coef q) with L. fold C. rewrite <- ET. rewrite Es. cbn [rbind]. exact Ev.
  - intros Hne d. destruct (Rate Hne) as (Fs & EFs & R). specialize (R d). rewrite Eobj in EFs. injection EFs as EFs. cbn [C dp_composite c_lipschitz] in R. set (Y := sqn (vsub (fst (nth j (full_trace s tr) d)) u)) in *. set (m := INR (s_it s - j)) in *. assert (0 <= m) by apply pos_INR.
    assert (R3 : L / 2 * sqn (vsub v0 v) <= 2 * (Ld / L) * Y / ((m + 1) * (m + 1))) by lra. apply (Rmult_le_compat_l (2 / L)) in R3; [|apply Rlt_le, Rdiv_lt_0_compat; lra].
    replace (2 / L * (L / 2 * sqn (vsub v0 v))) with (sqn (vsub v0 v)) in R3 by (field; lra). replace (2 / L * (2 * (Ld / L) * Y / ((m + 1) * (m + 1)))) with (4 * Ld * Y / (L * L * ((m + 1) * (m + 1)))) in R3 by (field; repeat split; nra). exact R3.
Qed.
(** With the settings proximal() uses when none are given. *)
Theorem container_run_default : forall Ld n smooths Gs Hs parts q0 K c l gam L, sound_parts n smooths Gs Hs parts q0 -> container_of n smooths parts q0 K -> 0 < L -> length c = n -> length l = n ->
  no_quadratic n q0 -> (forall x, length x = n -> quads_sum n smooths x = 0) -> total_coef smooths q0 (mk_iq L (FVec c) (FVec l) gam) = L -> let q := mk_iq L (FVec c) (FVec l) gam in
  st_kind (ct_stack K) = TGeneral -> 0 < Ld -> opnorm_bound (st_map (ct_stack K)) Ld ->
  (exists r, dual_fun Gs parts (zeros (t_out (st_map (ct_stack K)))) = Fin r) ->
  forall D F u, ct_dual_problem K q = Ok D -> (forall u, length u = t_out (dp_map D) -> is_fenchel n (fun x => Fin (q_denot n q x)) (vopp (t_adj (dp_map D) u)) (Fin (F u))) -> is_argmin (t_out (dp_map D)) (objective F (dual_fun Gs parts)) u ->
  exists s tr j v v0 a, let C := dp_composite D (Ld / L) in let z := zeros (t_out (dp_map D)) in let P := mk_params (Some (/ 10 ^ 14)) (Some 5%nat) (Some 5000%nat) true 1 None false true false in
    fit 5000 0 P C z None false = Ok s /\ explains C P z s tr /\ (j = 0%nat \/ forall d, nth (j - 1) (full_trace s tr) d = nth j (full_trace s tr) d) /\
    (5 <= s_it s <= 5000)%nat /\ s_obj s = Fin a /\ (s_it s = 5000%nat \/ exists b, total C (s_working s) false = Fin b /\ Rabs (b - a) < / 10 ^ 14 * Rmax (Rabs a) 1) /\
    ct_proximal default_prox Ld K q = Ok v /\ is_unique_argmin n (plus_quad n (parts_fun Hs parts) q) v0 /\ (j <= s_it s)%nat /\
    (j <> s_it s -> forall d, sqn (vsub v0 v) <= 4 * Ld * sqn (vsub (fst (nth j (full_trace s tr) d)) u) / (L * L * ((INR (s_it s - j) + 1) * (INR (s_it s - j) + 1)))).
Proof.
  intros Ld n smooths Gs Hs parts q0 K c l gam L SP CO HL Lc Ll Z0 Zs TC q NG HLd HO FG D F u ED HF Mu.
  destruct (container_run_rejecting default_prox Ld n smooths Gs Hs parts q0 K c l gam L SP CO HL Lc Ll Z0 Zs TC NG HLd HO eq_refl eq_refl ltac:(cbn; lra) FG D F u ED HF Mu) as (s & tr & j & v & v0 & H1 & H2 & H3 & H4 & H5 & H6 & H7 & H8 & H9).
  change (max_of default_prox) with 5000%nat in *. change (min_of default_prox) with 5%nat in *. change (Nat.min 5 5000) with 5%nat in H4.
  assert (Oa : exists a, s_obj s = Fin a).
  { destruct (container_recovers n smooths Gs Hs parts q0 K c l gam L SP CO HL Lc Ll Z0 Zs TC) as (D' & F' & ED' & ET & _ & EX & _). fold q in ED'. cbv zeta in *. assert (D' = D) by (rewrite ED in ED'; apply Ok_inj in ED'; auto). subst D'.
    rewrite <- ET in HO, FG. destruct (EX (Ld / L) Ld ltac:(lra) HO) as [X Lip]. assert (HLL : 0 < Ld / L) by (apply Rdiv_lt_0_compat; auto). destruct FG as (g0 & Eg0). assert (Lz : length (zeros (t_out (dp_map D))) = t_out (dp_map D)) by apply zeros_length.
    assert (SF : steps_fit (t_out (dp_map D)) default_prox (dp_composite D (Ld / L))) by (right; split; [exact HLL|exact Lip]).
    assert (GS : good_start (dual_fun Gs parts) (dp_composite D (Ld / L)) (zeros (t_out (dp_map D)))). { unfold good_start. rewrite Eg0. apply (ex_nonsmooth _ _ _ _ X); auto. }
    destruct (exact_fit _ _ _ _ X default_prox SF _ _ _ None false s Lz GS ltac:(cbn; lra) H1) as (_ & _ & Eo & Ls). destruct (finite_fit _ _ _ _ X default_prox SF _ _ _ None false s Lz GS ltac:(cbn; lra) (ex_intro _ g0 Eg0) H1) as (gs & Egs).
    rewrite Eo. unfold objective. rewrite Egs. cbn. eauto. }
  destruct Oa as (a & Ea). exists s, tr, j, v, v0, a. cbv zeta. split; [exact H1|]. split; [exact H2|]. split; [exact H3|]. split; [lia|]. split; [exact Ea|]. split; [|auto].
  destruct H5 as [H5|H5]; [left; lia|]. right. unfold close_enough in H5. cbn [default_prox prox_params p_coef_stop] in H5. rewrite Ea in H5. destruct (total (dp_composite D (Ld / L)) (s_working s) false) as [b|]; [|contradiction]. exists b. split; auto.
  assert (Ht : tol_of default_prox = / 10 ^ 14). { unfold tol_of, default_prox, prox_params, or_real. cbn [p_tol]. destruct (Req_EM_T (/ 10 ^ 14) 0) as [Z|]; auto. exfalso. assert (0 < / 10 ^ 14) by (apply Rinv_0_lt_compat, pow_lt; lra). lra. }
  rewrite Ht in H5. assert (M : 1 <= Rmax (Rabs a) 1) by apply Rmax_r. assert (E14 : 0 < / 10 ^ 14) by (apply Rinv_0_lt_compat, pow_lt; lra). destruct H5 as [H5|H5]; [|nra].
  apply Rmult_lt_compat_r with (r := Rmax (Rabs a) 1) in H5; [|lra]. unfold Rdiv in H5. rewrite Rmult_assoc, Rinv_l, Rmult_1_r in H5 by lra. exact H5.
Qed.

(** ** solve *)
Theorem container_returns : forall loops fuel prm P Ld n smooths Gs Hs parts q0 K q K' v x, sound_parts n smooths Gs Hs parts q0 -> container_of n smooths parts q0 K -> ct_solve loops fuel prm P Ld K q = (K', Ok (v, x)) ->
  ct_coefs K' = x /\ (ct_smooth K' = ct_smooth K /\ ct_parts K' = ct_parts K /\ ct_stack K' = ct_stack K /\ ct_quadratic K' = ct_quadratic K /\ ct_smoothq K' = ct_smoothq K) /\
  (exists s, fit loops fuel prm (ct_composite P Ld K) (ct_coefs K) None false = Ok s /\ x = s_coefs s) /\
  (length x = n -> (exists r, parts_fun Hs parts x = Fin r) -> v = objective (smooth_sum smooths) (container_fun n smooths Hs parts q0) x).
Proof.
  intros loops fuel prm P Ld n smooths Gs Hs parts q0 K q K' v x SP CO E. unfold ct_solve in E.
  destruct (match q with Some q1 => q_add (ct_quadratic K) (AQuad q1) | None => Ok (ct_quadratic K) end); [|discriminate].
  destruct (fit loops fuel prm (ct_composite P Ld K) (ct_coefs K) None false) as [s|e] eqn:Es; [|discriminate]. injection E as <- <- <-. split; [reflexivity|]. split; [repeat split; reflexivity|]. split; [exists s; auto|].
  intros Lx Fx. destruct (container_value n smooths Gs Hs parts q0 K (s_coefs s) false SP CO Lx Fx) as (_ & _ & V). exact V.
Qed.
Theorem no_loss : forall n parts, new_container n [] parts = Err (match parts with [] => ValueError | _ => IndexError end).
Proof. intros n [|p parts]; reflexivity. Qed.

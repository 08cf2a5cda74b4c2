(** Factored matrices: histories of calls, round trips, and where they go wrong. *)
From Coq Require Import Reals List Lra Lia Psatz Arith Bool.
From Verif Require Import M_affine P_affine P_affine2 Vec Spec SpecLoss M_quad M_prox M_semi M_shift SpecAtom SpecBase SpecMode M_mode SpecModed SpecPart SpecBlock M_cones SpecCone P_quad P_calc P_sep P_cv P_pl P_prox P_feas P_semi P_shift P_conj P_cones P_gauge P_part P_mixed M_linear SpecLinear P_linear SpecSvd P_svd1 P_svd2 P_svd3 M_svd SpecSvd2 P_svd4 P_svd5 M_factored SpecFactored P_factored1 P_factored2 P_factored3.
Import ListNotations.
Local Open Scope R_scope.

Theorem history_from : forall calls fuel a, ready a -> (Nat.min (fn_r a) (fn_c a) < fuel)%nat -> Forall (call_ok (fn_r a) (fn_c a)) calls ->
  exists fs, fn_run fuel a calls = Ok fs /\ Forall2 (answers (fn_r a) (fn_c a)) calls fs /\ Forall (fun f => factors_fit f /\ f_r f = fn_r a /\ f_c f = fn_c a) fs.
Proof.
  induction calls as [|k calls IH]; intros fuel a Ha Hf F; [exists []; repeat split; constructor|]. inversion F as [|? ? Hk F']; subst.
  assert (S1 : exists a' f, (match k with FLagrange it X l => fn_lagrange_prox fuel it a X 1 l | FBound it X b => fn_bound_prox fuel it a X b end) = Ok (a', f) /\ ready a' /\ fn_r a' = fn_r a /\ fn_c a' = fn_c a /\ (factors_fit f /\ f_r f = fn_r a /\ f_c f = fn_c a) /\ answers (fn_r a) (fn_c a) k f).
  { destruct k as [it X l|it X b]; destruct Hk as (NZ & EI & NN & Hv).
    - destruct (fn_lagrange_ok fuel it a X 1 l Ha NZ EI NN Hf Hv) as (a' & f & U & V & D & E & Ha' & Er & Ec & K & Fr & Fc & Sv & EX). exists a', f. split; auto. split; auto. split; auto. split; auto. split; auto. unfold answers. rewrite EX. destruct Ha as (Hr & Hc & _). destruct NZ as [LX _]. exact (nuc_lag _ _ X U V D Hr Hc LX Sv l Hv).
    - destruct (fn_bound_ok fuel it a X b Ha NZ EI NN Hf Hv) as (a' & f & U & V & D & p & E & Ha' & Er & Ec & K & Fr & Fc & Sv & Ep & EX). exists a', f. split; auto. split; auto. split; auto. split; auto. split; auto. unfold answers. rewrite EX. destruct Ha as (Hr & Hc & _). destruct NZ as [LX _]. exact (proj1 (nuc_bound _ _ X U V D Hr Hc LX Sv b p Hv Ep)). }
  destruct S1 as (a' & f & E & Ha' & Er & Ec & K & An). destruct (IH fuel a' Ha') as (fs & E2 & F2 & K2); [rewrite Er, Ec; auto|rewrite Er, Ec; auto|]. rewrite Er, Ec in *. exists (f :: fs). cbn [fn_run]. rewrite E. cbn [rbind fst snd]. rewrite E2. split; auto.
Qed.
Theorem new_ready : forall r c rank, (1 <= rank <= Nat.min r c)%nat -> exists a, new_fn r c rank None = Ok a /\ ready a /\ fn_r a = r /\ fn_c a = c.
Proof. intros r c rank H. eexists. split; [reflexivity|]. unfold ready. cbn. repeat split; auto; lia. Qed.
Theorem fn_history : forall calls fuel r c rank, (1 <= rank <= Nat.min r c)%nat -> (Nat.min r c < fuel)%nat -> Forall (call_ok r c) calls ->
  exists a fs, new_fn r c rank None = Ok a /\ fn_run fuel a calls = Ok fs /\ Forall2 (answers r c) calls fs /\ Forall (fun f => factors_fit f /\ f_r f = r /\ f_c f = c) fs.
Proof.
  intros calls fuel r c rank Hk Hf F. destruct (new_ready r c rank Hk) as (a & E & Ha & Er & Ec). destruct (history_from calls fuel a Ha) as (fs & E2 & F2 & K); rewrite ?Er, ?Ec in *; auto. exists a, fs. auto.
Qed.
Theorem fop_call : forall r c rank fuel it X L lam, (c <= r)%nat -> (1 <= rank <= c)%nat -> (c < fuel)%nat -> nonzero_matrix r c X -> exact_iteration r c X (it X) -> not_negligible r c X -> 0 < L -> 0 <= lam ->
  exists a s1 s2, new_fop r c rank None = Ok a /\ fop_lagrange_prox fuel it a X L lam = Ok s1 /\ fop_bound_prox fuel it a X lam = Ok s2 /\
  is_unique_argmin (r * c) (prox_objective L X (fun Y => Fin (lam * op_norm r c Y))) (snd s1) /\ is_proj (r * c) (fun Y => op_norm r c Y <= lam) X (snd s2).
Proof.
  intros r c rank fuel it X L lam Hrc Hk Hf NZ EI NN HL Hl. assert (Hb : 0 <= lam / L) by (apply Rmult_le_pos; [auto|left; apply Rinv_0_lt_compat; auto]).
  assert (E : new_fop r c rank None = Ok (mk_fn r c rank (r, rank))) by (unfold new_fop, new_fn, shape_eqb; cbn [rbind fst snd]; rewrite Nat.max_l by auto; rewrite !Nat.eqb_refl; auto).
  set (a := mk_fn r c rank (r, rank)) in *. assert (Ha : ready a) by (unfold ready, a; cbn; repeat split; auto; lia). assert (Hf' : (Nat.min r c < fuel)%nat) by lia.
  destruct (fn_bound_ok fuel it a X (lam / L) Ha NZ EI NN Hf' Hb) as (a1 & f1 & U & V & D & p & E1 & _ & _ & _ & _ & _ & _ & Sv & Ep & EX).
  destruct (fn_lagrange_ok fuel it a X 1 lam Ha NZ EI NN Hf' Hl) as (a2 & f2 & U' & V' & D' & E2 & _ & _ & _ & _ & _ & _ & Sv' & EX').
  exists a, (a1, vsub X (get_X f1)), (a2, vsub X (get_X f2)). unfold fop_lagrange_prox, fop_bound_prox. rewrite E1, E2. cbn [rmap fst snd]. destruct NZ as [LX _]. assert (Hr : (1 <= r)%nat) by lia. assert (Hc : (1 <= c)%nat) by lia. split; auto. split; auto. split; auto. rewrite EX, EX'. split.
  - exact (op_lag r c X U V D Hr Hc LX Sv L lam p HL Hl Ep).
  - exact (op_bound r c X U' V' D' Hr Hc LX Sv' lam Hl).
Qed.
(** The zero matrix *)
Lemma svd_of_zero : forall r c U D V, (1 <= r)%nat -> (1 <= c)%nat -> is_svd r c (zeros (r * c)) U D V -> Forall (fun a => a = 0) D.
Proof.
  intros r c U D V Hr Hc Sv. pose proof (sB r c _ U V D Sv) as B. pose proof (sX r c _ U V D Sv) as E. assert (LD : length D = length (rank1s U V)) by (rewrite (sBk r c _ U V D Sv); apply Sv).
  pose proof (mv_tvec (r * c) (rank1s U V) B D LD) as M. rewrite <- E in M. rewrite <- M. apply Forall_forall. intros a I. unfold mat_vec in I. apply in_map_iff in I. destruct I as (x & <- & _). apply dot_zeros_r.
Qed.
Lemma zero_partial : forall r c iter k rank pad warm, (1 <= r)%nat -> (1 <= c)%nat -> exact_iteration r c (zeros (r * c)) iter -> (1 <= rank)%nat -> match warm with Some w => (w <= Nat.min (Nat.min rank (Nat.min r c) + pad) (Nat.min r c))%nat | None => True end ->
  exists u v, partial_svd (iter k) (Nat.min r c) rank pad warm = Ok (PZero u v) /\ (if (r <? c)%nat then length u = c /\ length v = r else length u = r /\ length v = c).
Proof.
  intros r c iter k rank pad warm Hr Hc EI Hk Hw. set (q := Nat.min (Nat.min rank (Nat.min r c) + pad) (Nat.min r c)) in *. assert (Hq : (1 <= q <= Nat.min r c)%nat) by (unfold q; lia).
  destruct (EI k q Hq) as (U & D & V & e & Sv & Le & Fe & E). pose proof (svd_of_zero r c U D V Hr Hc Sv) as Z. pose proof (sv_u _ _ _ _ _ _ Sv) as LU. pose proof (sv_d _ _ _ _ _ _ Sv) as LD. pose proof (sv_v _ _ _ _ _ _ Sv) as LV.
  unfold partial_svd. fold q. replace (match warm with Some w => (q <? w)%nat | None => false end) with false by (destruct warm; auto; symmetry; apply Nat.ltb_ge; auto). rewrite E.
  assert (NZ : existsb (fun b => b) (nonzero (vmul e (firstn q D))) = false).
  { apply not_true_is_false. intros T. apply existsb_exists in T. destruct T as (b & I & ->). unfold nonzero in I. apply in_map_iff in I. destruct I as (a & Ea & I). assert (A0 : a = 0).
    { assert (Zq : Forall (fun a => a = 0) (firstn q D)) by (apply Forall_forall; intros x Ix; rewrite Forall_forall in Z; apply Z; rewrite <- (firstn_skipn q D); apply in_or_app; auto). clear -Zq I. unfold vmul in I. revert e I. induction Zq as [|x d -> Zq IH]; intros [|y e] I; try destruct I as []. - subst. ring. - eauto. }
    subst a. rewrite Rabs_R0 in Ea. assert (0 < / 10 ^ 12) by (apply Rinv_0_lt_compat, pow_lt; lra). destruct Rlt_dec; [lra|discriminate]. }
  rewrite NZ. eexists. eexists. split; [reflexivity|]. pose proof (rows_length _ _ (sv_ou _ _ _ _ _ _ Sv)) as FU. pose proof (rows_length _ _ (sv_ov _ _ _ _ _ _ Sv)) as FV.
  destruct U as [|u U]; [cbn in LU; lia|]. destruct V as [|v V]; [cbn in LV; lia|]. inversion FU; inversion FV; subst. destruct q; [lia|]. destruct e as [|e0 e]; [discriminate|]. destruct (length u <? length v)%nat; cbn; rewrite vscal_length; auto.
Qed.
Lemma zero_compute : forall fuel it r c rank pad warm m rule, (1 <= r)%nat -> (1 <= c)%nat -> exact_iteration r c (zeros (r * c)) (it (zeros (r * c))) -> (1 <= rank)%nat -> match warm with Some w => (w <= Nat.min (Nat.min rank (Nat.min r c) + pad) (Nat.min r c))%nat | None => True end -> (1 <= fuel)%nat -> m <= 1 ->
  exists u v, length u = r /\ length v = c /\ compute_iterative_svd fuel it r c (zeros (r * c)) rank pad warm m rule = Ok (if Rle_dec m 0 then IFull [u] [0] [v] else IEmpty).
Proof.
  intros fuel it r c rank pad warm m rule Hr Hc EI Hk Hw Hf Hm. destruct (zero_partial r c (it (zeros (r * c))) 0 rank pad warm Hr Hc EI Hk Hw) as (u & v & E & Luv). destruct fuel as [|fuel]; [lia|].
  assert (EL : svd_loop (S fuel) (it (zeros (r * c))) (Nat.min r c) pad (2 * Nat.min r c) m rule 0 rank warm = Ok (PZero u v)).
  { cbn [svd_loop]. rewrite E. cbn [rbind p_D p_cols length]. destruct (1 <? rank)%nat eqn:E1; auto. apply Nat.ltb_ge in E1. destruct (match rule with Some t => t (vabs [0]) | None => false end); auto. replace (2 * Nat.min r c <? 2 * rank)%nat with false by (symmetry; apply Nat.ltb_ge; lia).
    destruct (Rlt_dec (vmax [0]) (/ 10 ^ 14)) as [|N]; auto. exfalso. apply N. cbn. rewrite Rmax_left by lra. apply Rinv_0_lt_compat, (pow_lt 10 14). lra. }
  unfold compute_iterative_svd. rewrite EL. destruct (Rlt_dec 1 m); [lra|]. cbn [rbind]. destruct (r <? c)%nat; [exists v, u|exists u, v]; split; try tauto; split; try tauto; destruct (Rle_dec m 0); auto.
Qed.
Theorem round_trip : forall fuel it r c X rank off, (1 <= r)%nat -> (1 <= c)%nat -> length X = (r * c)%nat -> exact_iteration r c X (it X) -> not_negligible r c X -> (1 <= rank)%nat -> (Nat.min r c < fuel)%nat ->
  exists f, factored_of fuel it r c X rank off 0 = Ok f /\ factors_fit f /\ f_r f = r /\ f_c f = c /\ f_off f = off /\ get_X f = X.
Proof.
  intros fuel it r c X rank off Hr Hc LX EI NN Hk Hf. unfold factored_of. destruct (Rle_dec 0 0) as [_|]; [|lra].
  destruct (list_eq_dec Req_EM_T X (zeros (r * c))) as [->|NZ].
  - destruct (zero_compute fuel it r c rank 5 None 0 None Hr Hc EI) as (u & v & Lu & Lv & E); auto; try lia; try lra. rewrite E. destruct (Rle_dec 0 0); [|lra]. cbn [rbind]. unfold new_factored. destruct (Rle_dec 0 0); [|lra]. eexists. split; [reflexivity|].
    assert (K : factors_fit (mk_factored r c [u] [0] [v] (Nat.eqb (length [0]) 1) off 0)) by (unfold factors_fit; cbn; repeat split; auto). split; auto. repeat split; auto. rewrite get_X_usv by auto. cbn [f_r f_c f_U f_D f_VT]. apply (tvec_zeros (r * c) (rank1s [u] [v]) 1). apply rank1s_lengths; auto.
  - destruct (compute_ok fuel it r c X rank 5 None 0 None Hr Hc (Logic.conj LX NZ) EI NN) as (U1 & D1 & V1 & D2 & Ld & E & NE & F & Z & Lq); auto; try lia. { split; [lra|left; apply Rinv_0_lt_compat, pow_lt; lra]. }
    rewrite E. cbn [rbind]. unfold new_factored. destruct (Rle_dec 0 0); [|lra]. eexists. split; [reflexivity|]. pose proof (lead_fit r c X U1 V1 D1 D2 Ld) as (LU & LV & FU & FV & _).
    assert (K : factors_fit (mk_factored r c U1 D1 V1 (Nat.eqb (length D1) 1) off 0)) by (unfold factors_fit; cbn; repeat split; auto). split; auto. repeat split; auto. rewrite get_X_usv by auto. cbn [f_r f_c f_U f_D f_VT].
    destruct Z as [Z|[]]. destruct (lead_pad r c X U1 V1 D1 D2 Ld D1 eq_refl) as (U & V & Sv & ->). assert (E0 : zeros (length D2) = D2) by (clear -Z; induction Z as [|a d -> Z IH]; auto; cbn; f_equal; apply IH). rewrite E0. rewrite (rec r c X U V (D1 ++ D2) Sv) by apply Sv. symmetry. apply (sv_eq _ _ _ _ _ _ Sv).
Qed.

(** ** Where it goes wrong *)
Theorem rank_too_large : forall fuel it r c rank a X v L, (Nat.min r c < rank)%nat -> new_fn r c rank None = Ok a -> (1 <= fuel)%nat ->
  fn_lagrange_prox fuel it a X L v = Err ValueError /\ fn_bound_prox fuel it a X v = Err ValueError.
Proof.
  intros fuel it r c rank a X v L H E Hf. apply Ok_inj in E. subst a. destruct fuel as [|fuel]; [lia|].
  assert (P : forall rule, fn_svd (S fuel) it (mk_fn r c rank (Nat.max r c, rank)) X rule = Err ValueError).
  { intros rule. unfold fn_svd, compute_iterative_svd. cbn [fn_r fn_c fn_rank fn_warm fst snd]. assert (/ 10 ^ 16 <= 1) by (rewrite <- Rinv_1; apply Rinv_le_contravar; [lra|apply pow_R1_Rle; lra]). destruct (Rlt_dec 1 (/ 10 ^ 16)); [lra|]. cbn [svd_loop]. unfold partial_svd at 1.
    replace (Nat.min (Nat.min (Nat.max rank 1) (Nat.min r c) + 0) (Nat.min r c) <? rank)%nat with true by (symmetry; apply Nat.ltb_lt; lia). auto. }
  unfold fn_lagrange_prox, fn_bound_prox. rewrite !P. auto.
Qed.
Theorem zero_fails : forall fuel it a v L, ready a -> exact_iteration (fn_r a) (fn_c a) (zeros (fn_r a * fn_c a)) (it (zeros (fn_r a * fn_c a))) -> (1 <= fuel)%nat ->
  fn_lagrange_prox fuel it a (zeros (fn_r a * fn_c a)) L v = Err IndexError /\ fn_bound_prox fuel it a (zeros (fn_r a * fn_c a)) v = Err IndexError.
Proof.
  intros fuel it a v L (Hr & Hc & Hk & Hw & _) EI Hf.
  assert (P : forall rule, fn_svd fuel it a (zeros (fn_r a * fn_c a)) rule = Err IndexError).
  { intros rule. unfold fn_svd. assert (/ 10 ^ 16 <= 1) by (rewrite <- Rinv_1; apply Rinv_le_contravar; [lra|apply pow_R1_Rle; lra]). destruct (zero_compute fuel it (fn_r a) (fn_c a) (Nat.max (fn_rank a) 1) 0 (Some (snd (fn_warm a))) (/ 10 ^ 16) (Some rule) Hr Hc EI) as (u & w & _ & _ & E); auto; try lia.
    rewrite E. assert (0 < / 10 ^ 16) by (apply Rinv_0_lt_compat, pow_lt; lra). destruct (Rle_dec (/ 10 ^ 16) 0); [lra|]. auto. }
  unfold fn_lagrange_prox, fn_bound_prox. rewrite !P. auto.
Qed.
Lemma nuc_lag_L : forall r c X U V D L lam, (1 <= r)%nat -> (1 <= c)%nat -> length X = (r * c)%nat -> is_svd r c X U D V -> 0 < L -> 0 <= lam -> is_unique_argmin (r * c) (prox_objective L X (fun Y => Fin (lam * nuc_norm r c Y))) (recompose r c U (map (soft (lam / L)) D) V).
Proof.
  intros r c X U V D L lam Hr Hc LX Sv HL Hl. destruct (sn_lagrange_ok r c (fun _ => (U, D, V)) Hr Hc X U V D LX eq_refl Sv SNuclear L lam HL Hl) as (e & E & H). unfold sn_lagrange_prox, aux_atom in E. destruct (Rlt_dec lam 0); [lra|]. cbn [lagrange_prox rmap] in E. apply Ok_inj in E.
  assert (Hb : 0 <= lam / L) by (apply Rmult_le_pos; [auto|left; apply Rinv_0_lt_compat; auto]). pose proof (l1_is_soft r c X U V D Sv (lam / L) Hb) as S1. replace (lam / L / 1) with (lam / L) in S1 by (field; lra). rewrite S1 in E. subst e. exact H.
Qed.
Theorem lipschitz_ignored : forall fuel it a X L lam, ready a -> nonzero_matrix (fn_r a) (fn_c a) X -> exact_iteration (fn_r a) (fn_c a) X (it X) -> not_negligible (fn_r a) (fn_c a) X -> (Nat.min (fn_r a) (fn_c a) < fuel)%nat ->
  0 < L -> L <> 1 -> 0 < lam < op_norm (fn_r a) (fn_c a) X ->
  exists a' f, fn_lagrange_prox fuel it a X L lam = Ok (a', f) /\ ~ is_unique_argmin (fn_r a * fn_c a) (prox_objective L X (fun Y => Fin (lam * nuc_norm (fn_r a) (fn_c a) Y))) (get_X f) /\
  is_unique_argmin (fn_r a * fn_c a) (prox_objective L X (fun Y => Fin (L * lam * nuc_norm (fn_r a) (fn_c a) Y))) (get_X f).
Proof.
  intros fuel it a X L lam Ha NZ EI NN Hf HL H1 Hl. destruct (fn_lagrange_ok fuel it a X L lam Ha NZ EI NN Hf ltac:(lra)) as (a' & f & U & V & D & E & _ & _ & _ & _ & _ & _ & Sv & EX). exists a', f. split; auto. destruct Ha as (Hr & Hc & _). destruct NZ as [LX _].
  rewrite EX. split.
  - intros Q. pose proof (nuc_lag_L _ _ X U V D L lam Hr Hc LX Sv HL ltac:(lra)) as Q'. set (x := recompose _ _ U (map (soft lam) D) V) in *. set (y := recompose _ _ U (map (soft (lam / L)) D) V) in *.
    assert (Exy : y = x). { destruct Q as [(Q1 & _ & Q2) Q3]. destruct Q' as [(Q1' & _ & Q2') Q3']. apply Q3; auto. }
    pose proof (sB _ _ X U V D Sv) as B. assert (LD : length D = length (rank1s U V)) by (rewrite (sBk _ _ X U V D Sv); apply Sv).
    unfold x, y in Exy. rewrite !(rec _ _ X U V D Sv) in Exy by (rewrite map_length; apply Sv). apply (f_equal (mat_vec (rank1s U V))) in Exy. rewrite !(mv_tvec _ _ B) in Exy by (rewrite map_length; auto).
    pose proof (svd_max _ _ X U D V Hr Hc Sv) as Om. rewrite Om in Hl. destruct D as [|d D]; [cbn in Hl; lra|]. cbn [map nth] in *. assert (E0 : soft (lam / L) d = soft lam d) by congruence. pose proof (sv_pos _ _ _ _ _ _ Sv) as P. apply Forall_inv in P. cbn beta in P.
    assert (Hb : 0 < lam / L) by (apply Rmult_lt_0_compat; [lra|apply Rinv_0_lt_compat; auto]). rewrite !soft_nonneg in E0 by lra. unfold pos, Rmax in E0. clear Om. assert (El : lam / L = lam) by (destruct (Rle_dec (d - lam / L) 0), (Rle_dec (d - lam) 0); lra). apply H1. assert (lam / L * L = lam) by (field; lra). rewrite El in H. nra.
  - replace (map (soft lam) D) with (map (soft (L * lam / L)) D) by (replace (L * lam / L) with lam by (field; lra); auto). apply nuc_lag_L; auto. nra.
Qed.
Theorem copy_loses : forall r c U D VT off m f, new_factored r c U D VT (Some off) m = Ok f -> exists g, copy_factored f = Ok g /\ get_X g = get_X f /\ (forall x, f_linear g x = f_linear f x) /\ (forall x, f_affine g x = f_linear f x) /\ f_min g = 0.
Proof.
  intros r c U D VT off m f E. unfold new_factored in E. destruct (Rle_dec 0 m); [|discriminate]. apply Ok_inj in E. subst f. unfold copy_factored, new_factored. cbn [f_r f_c f_U f_D f_VT]. destruct (Rle_dec 0 0); [|lra]. eexists. split; [reflexivity|]. repeat split; auto.
Qed.
Theorem fat_fails : forall r c rank, (r < c)%nat -> new_fop r c rank None = Err TypeError /\ (forall a, new_fn r c rank None = Ok a -> fn_conjugate a = Err TypeError).
Proof.
  intros r c rank H. assert (M : (r =? Nat.max r c)%nat = false) by (apply Nat.eqb_neq; lia). assert (M' : (Nat.max r c =? r)%nat = false) by (apply Nat.eqb_neq; lia). split.
  - unfold new_fop, new_fn, shape_eqb. cbn [rbind fst snd]. rewrite M. auto.
  - intros a E. apply Ok_inj in E. subst a. unfold fn_conjugate, new_fop, new_fn, shape_eqb. cbn [fn_r fn_c fn_rank fn_warm fst snd]. rewrite M'. auto.
Qed.
Theorem tall_conjugate : forall r c rank a, (c <= r)%nat -> new_fn r c rank None = Ok a -> fn_conjugate a = Ok a /\ new_fop r c rank None = Ok a.
Proof.
  intros r c rank a H E. apply Ok_inj in E. subst a. unfold fn_conjugate, new_fop, new_fn, shape_eqb. cbn [fn_r fn_c fn_rank fn_warm fst snd rbind]. rewrite Nat.max_l by auto. rewrite !Nat.eqb_refl. cbn [andb rbind fst snd]. rewrite !Nat.eqb_refl. auto.
Qed.
Theorem large_singular : forall fuel it r c X rank off m, 1 < m -> factored_of fuel it r c X rank off m = Err TypeError.
Proof. intros. unfold factored_of, compute_iterative_svd. destruct (Rle_dec 0 m); [|lra]. destruct (Rlt_dec 1 m); [|lra]. auto. Qed.
(** An exact iteration exists for every matrix *)
Theorem exact_exists : forall r c X, length X = (r * c)%nat -> exists iter, exact_iteration r c X iter.
Proof.
  intros r c X LX. destruct (svd_exists r c X LX) as (U & D & V & Sv). exists (fun k q => (scale_each (repeat 1 q) (firstn q (if (r <? c)%nat then V else U)), vmul (repeat 1 q) (firstn q D), firstn q (if (r <? c)%nat then U else V))).
  intros k q Hq. exists U, D, V, (repeat 1 q). split; auto. split; [apply repeat_length|]. split; auto. apply Forall_forall. intros a I. apply repeat_spec in I. auto.
Qed.

(** A concrete matrix *)
Lemma diag_svd : is_svd 2 2 [3; 0; 0; 1] [[1; 0]; [0; 1]] [3; 1] [[1; 0]; [0; 1]].
Proof.
  assert (O : orthonormal 2 [[1; 0]; [0; 1]]).
  { split; [intros [|[|i]] Hi; cbn in Hi; try lia; reflexivity|]. intros [|[|i]] [|[|j]] Hi Hj; cbn in Hi, Hj; try lia; unfold dot; cbn; lra. }
  constructor; auto.
  - repeat constructor; lra.
  - cbn. lra.
  - unfold usv, mat_tvec. cbn. unfold vadd, vscal, zeros. cbn. repeat f_equal; lra.
Qed.
Lemma diag_ok : nonzero_matrix 2 2 [3; 0; 0; 1] /\ not_negligible 2 2 [3; 0; 0; 1] /\ op_norm 2 2 [3; 0; 0; 1] = 3.
Proof.
  destruct (D_app 2 2 ltac:(lia) ltac:(lia) _ _ _ _ diag_svd) as (A & B & _). cbn [nth] in B. unfold vsum in A. cbn [fold_right] in A. split; [|split; auto].
  - split; auto. unfold zeros. cbn. intros E. injection E. lra.
  - intros U D V Sv. destruct (D_app 2 2 ltac:(lia) ltac:(lia) _ _ _ _ Sv) as (A' & B' & _). pose proof (sv_d _ _ _ _ _ _ Sv) as L. destruct D as [|a [|b [|? ?]]]; try discriminate. unfold vsum in A'. cbn [fold_right nth] in A', B'. rewrite B. assert (Ea : a = 3) by congruence. assert (Eb : b = 1) by (rewrite A in A'; lra). clear A A' B B' Sv. subst a b. assert (P : / 10 ^ 12 < 1) by (rewrite <- Rinv_1; apply Rinv_lt_contravar; [rewrite Rmult_1_l; apply pow_lt; lra|apply Rlt_pow_R1; [lra|lia]]).
    assert (Q : / 10 ^ 16 <= / 10 ^ 1) by (apply Rinv_le_contravar; [apply pow_lt; lra|apply Rle_pow; [lra|lia]]). replace (10 ^ 1) with 10 in Q by ring. constructor; [right; split; lra|]. constructor; [right; split; lra|]. constructor.
Qed.

(** Growing step sizes: the rate with the final step size fails, by any factor. *)
From Coq Require Import Reals List Lra Lia Arith Bool.
From Verif Require Import Vec Spec SpecConvex P_calc P_prox M_fista SpecFista.
Import ListNotations.
Local Open Scope R_scope.

(** minimize |x| over R: the smooth part is 0 and the proximal step is soft thresholding *)
Definition abs_h (x : vec) : ext := Fin (Rabs (nth 0 x 0)).
Definition abs_problem : composite :=
  mk_composite (fun _ => Fin 0) (fun _ => [0]) (fun x _ => abs_h x) (fun L w g => [soft (/ L) (nth 0 w 0 - nth 0 g 0 / L)]) 1.
Lemma abs_exact : exact_problem 1 (fun _ => 0) abs_h abs_problem.
Proof.
  split; cbn; auto.
  - intros x y t _ _ _. lra.
  - intros x _. split; auto. intros d Ld. apply derive_ext with (fct_cte 0); [reflexivity|]. replace (dot [0] d) with 0; [apply derivable_pt_lim_const|]. destruct d as [|a d]; [discriminate|]. unfold dot. cbn. destruct d; cbn; ring.
  - intros [|a [|? ?]] [|b [|? ?]] t r1 r2 Lx Ly Ht H1 H2; try discriminate. unfold abs_h in *. cbn [nth] in *. injection H1 as <-. injection H2 as <-. unfold between. cbn. change (a + t * (b - a)) with (a + t * (b - a)). replace (a + t * (b - a)) with ((1 - t) * a + t * b) by ring.
    eapply Rle_trans; [apply Rabs_triang|]. rewrite !Rabs_mult, (Rabs_pos_eq t), (Rabs_pos_eq (1 - t)) by lra. lra.
  - intros L [|w [|? ?]] [|g [|? ?]] HL Lw Lg; try discriminate. split; auto. split; [eexists; reflexivity|]. intros [|v [|? ?]] Lv; try discriminate. unfold abs_h, sqn, dot. cbn. set (r := / L). assert (Hr : 0 < r) by (apply Rinv_0_lt_compat; auto).
    replace (w - g / L) with (w - r * g) by (unfold r; field; lra). set (a := w - r * g). set (p := soft r a). pose proof (soft_resid r a (Rlt_le _ _ Hr)) as Q1. pose proof (soft_align r a (Rlt_le _ _ Hr)) as Q2. fold p in Q1, Q2.
    assert (Eg : g = L * (w - a)) by (unfold a, r; field; lra). rewrite Eg.
    assert (K : (a - p) * v <= r * Rabs v). { eapply Rle_trans; [apply Rle_abs|]. rewrite Rabs_mult. apply Rmult_le_compat_r; auto. apply Rabs_pos. }
    assert (ErL : L * r = 1) by (unfold r; field; lra). assert (K1 : L * ((a - p) * v) <= Rabs v). { replace (Rabs v) with (L * (r * Rabs v)) by (rewrite <- Rmult_assoc, ErL; ring). apply Rmult_le_compat_l; lra. }
    assert (K2 : L * ((a - p) * p) = Rabs p) by (rewrite Q2, <- Rmult_assoc, ErL; ring). assert (K3 : 0 <= L * ((v - p) * (v - p))) by (apply Rmult_le_pos; [lra|apply Rle_0_sqr]).
    nra.
Qed.

Section Run.
Variables (s0 : R) (att0 flag cstop : bool) (tol : option R) (N : nat).
Hypothesis Hs : 0 < s0.
Hypothesis HN : N <> 0%nat.
Let P := mk_params tol (Some N) (Some N) flag s0 None cstop false true.
(** the step size after k passes *)
Definition sk (k : nat) : R := s0 * (11 / 10) ^ (if att0 then k else k - 99).
Definition big : R := 9900 * sk N.
Lemma sk_pos : forall k, 0 < sk k. Proof. intros k. unfold sk. apply Rmult_lt_0_compat; auto. apply pow_lt. lra. Qed.
Lemma sk_mono : forall k l, (k <= l)%nat -> sk k <= sk l.
Proof. intros k l H. unfold sk. apply Rmult_le_compat_l; [lra|]. apply Rle_pow; [lra|]. destruct att0; lia. Qed.
Definition state_at (k : nat) (s : fstate) : Prop := exists x w v, s_coefs s = [x] /\ s_working s = [w] /\ s_it s = k /\ s_step s = sk k /\ 1 <= s_weight s /\ 0 <= x - w <= v /\ (s_obj s = Fin (Rabs x)) /\
  ((s_attempt s = false /\ att0 = false /\ (k <= 99)%nat /\ v <= INR k * s0 /\ big - x <= INR k * (INR k + 1) / 2 * s0) \/
   (s_attempt s = true /\ (att0 = true \/ (100 <= k)%nat) /\ v <= 99 * sk k /\ big - x <= 4950 * sk k)).
Lemma up_step : forall k s, state_at k s -> (if orb (Nat.eqb ((k + 1) mod 100) 0) (s_attempt s) then s_step s * alpha else s_step s) = sk (S k) /\
  (orb (Nat.eqb ((k + 1) mod 100) 0) (s_attempt s) = false -> (S k <= 99)%nat /\ s_attempt s = false /\ att0 = false) /\
  (orb (Nat.eqb ((k + 1) mod 100) 0) (s_attempt s) = true -> att0 = true \/ (100 <= S k)%nat) /\ (orb (Nat.eqb ((k + 1) mod 100) 0) (s_attempt s) = true -> sk (S k) = sk k * (11 / 10)).
Proof.
  intros k s (x & w & v & _ & _ & _ & Es & _ & _ & _ & [(A1 & A2 & A3 & _)|(A1 & A2 & _)]); rewrite A1, Es, ?orb_false_r, ?orb_true_r.
  - destruct (Nat.eq_dec k 99) as [->|Hk].
    + change (((99 + 1) mod 100 =? 0)%nat) with true. cbv iota. assert (E : sk 100 = sk 99 * (11 / 10)) by (unfold sk; rewrite A2; cbn; ring). split; [rewrite E; reflexivity|]. split; [discriminate|]. split; [intros _; right; lia|auto].
    + rewrite Nat.mod_small by lia. destruct (Nat.eqb (k + 1) 0) eqn:Z; [apply Nat.eqb_eq in Z; lia|]. assert (E : sk (S k) = sk k). { unfold sk. rewrite A2. replace (S k - 99)%nat with 0%nat by lia. replace (k - 99)%nat with 0%nat by lia. auto. } split; [auto|]. split; [intros _; split; [lia|auto]|]. split; discriminate.
  - assert (E : sk (S k) = sk k * (11 / 10)). { unfold sk. destruct att0; [cbn; ring|]. destruct A2 as [A2|A2]; [discriminate|]. replace (S k - 99)%nat with (S (k - 99)) by lia. cbn. ring. }
    split; [rewrite E; reflexivity|]. split; [discriminate|]. split; [intros _; destruct A2; [left; auto|right; lia]|auto].
Qed.
Lemma soft_pos : forall r a, 0 <= r -> r < a -> soft r a = a - r.
Proof. intros r a H1 H2. unfold soft, M_prox.sgn, Rmax. destruct (Rlt_dec 0 a); [|lra]. rewrite Rabs_pos_eq by lra. destruct (Rle_dec (a - r) 0); lra. Qed.
Lemma sums : forall k, (k <= 99)%nat -> INR k * (INR k + 1) / 2 <= 4950.
Proof. intros k H. apply le_INR in H. replace (INR 99) with 99 in H by (cbn; lra). pose proof (pos_INR k). nra. Qed.
Lemma room : forall k s x w, (k < N)%nat -> state_at k s -> s_coefs s = [x] -> s_working s = [w] -> sk (S k) < w /\ big - x <= 4950 * sk k.
Proof.
  intros k s x w Hk (x' & w' & v' & E1 & E2 & _ & _ & _ & Hv & _ & B) F1 F2. rewrite E1 in F1. rewrite E2 in F2. injection F1 as ->. injection F2 as ->. pose proof (sk_mono k N ltac:(lia)) as M1. pose proof (sk_mono (S k) N ltac:(lia)) as M2. pose proof (sk_pos k). pose proof (sk_pos (S k)).
  assert (S0 : s0 <= sk k). { unfold sk. rewrite <- (Rmult_1_r s0) at 1. apply Rmult_le_compat_l; [lra|]. apply pow_R1_Rle. lra. }
  assert (Q : v' <= 99 * sk k /\ big - x <= 4950 * sk k).
  { destruct B as [(_ & _ & K & B1 & B2)|(_ & _ & B1 & B2)]; auto. split.
    - eapply Rle_trans; [exact B1|]. apply le_INR in K. replace (INR 99) with 99 in K by (cbn; lra). pose proof (pos_INR k). apply Rmult_le_compat; lra.
    - eapply Rle_trans; [exact B2|]. pose proof (sums k K). pose proof (pos_INR k). apply Rmult_le_compat; try lra. nra. }
  destruct Q as [Q1 Q2]. split; auto. unfold big in *. lra.
Qed.
Lemma weights : forall t, 1 <= t -> 1 <= / 2 * (1 + sqrt (1 + 4 * (t * t))) /\ 0 <= (t - 1) / (/ 2 * (1 + sqrt (1 + 4 * (t * t)))) <= 1.
Proof.
  intros t Ht. assert (Q : 2 * t <= sqrt (1 + 4 * (t * t))). { rewrite <- (sqrt_square (2 * t)) by lra. apply sqrt_le_1; nra. } set (u := / 2 * (1 + sqrt (1 + 4 * (t * t)))). assert (Hu : t <= u) by (unfold u; lra). split; [lra|]. split.
  - apply Rmult_le_pos; [lra|]. left. apply Rinv_0_lt_compat. lra.
  - apply (Rmult_le_reg_r u); [lra|]. unfold Rdiv. rewrite Rmult_assoc, Rinv_l by lra. lra.
Qed.
Lemma one_pass : forall fuel k s, (1 <= fuel)%nat -> (k < N)%nat -> state_at k s -> exists s', iterate fuel P abs_problem s = Ok (Continue s') /\ state_at (S k) s'.
Proof.
  intros fuel k s Hf Hk St. destruct (up_step k s St) as (U1 & U2 & U3 & U4). pose proof St as (x & w & v & E1 & E2 & E3 & E4 & E5 & E6 & E7 & B). destruct (room k s x w Hk St E1 E2) as [R1 R2]. pose proof (sk_pos (S k)) as Hp.
  set (x' := w - sk (S k)). set (up := orb (Nat.eqb ((k + 1) mod 100) 0) (s_attempt s)) in *.
  assert (BT : backtrack fuel abs_problem k [w] (s_step s) (s_attempt s) = Ok ([x'], sk (S k), if up then true else s_attempt s)).
  { unfold backtrack. fold up. rewrite U1. destruct fuel as [|fuel]; [lia|]. cbn [backtrack_loop]. destruct (Req_EM_T (sk (S k)) 0) as [Z|_]; [lra|]. cbn [c_prox c_grad abs_problem nth].
    replace (/ (1 / sk (S k))) with (sk (S k)) by (field; lra). replace (w - 0 / (1 / sk (S k))) with w by (field; lra). rewrite soft_pos by lra. fold x'.
    assert (OK : step_ok abs_problem [w] [0] [x'] (sk (S k)) = true).
    { unfold step_ok. cbn [c_smooth c_grad abs_problem]. destruct (Rlt_dec _ _) as [C|_]. { exfalso. replace (0 - 0) with 0 in C by ring. rewrite Rabs_R0 in C. unfold Rdiv in C. rewrite Rmult_0_l in C. assert (0 < / 10 ^ 10) by (apply Rinv_0_lt_compat, pow_lt; lra). lra. }
      destruct (Rle_dec _ _) as [|C]; auto. exfalso. apply C. unfold dot. cbn. replace ((x' - w) * (0 - 0) + 0) with 0 by ring. rewrite Rabs_R0. apply Rmult_le_pos; [|apply Rle_0_sqr]. assert (0 < / sk (S k)) by (apply Rinv_0_lt_compat; auto). unfold Rdiv. nra. }
    rewrite OK. reflexivity. }
  destruct (weights _ E5) as [W1 W2]. set (t' := / 2 * (1 + sqrt (1 + 4 * (s_weight s * s_weight s)))) in *.
  eexists. split.
  - unfold iterate. cbn [p_backtrack p_restart P restart_now]. rewrite E2, E3, BT. cbn [rbind]. assert (M : min_of P = N) by (unfold min_of, or_nat; cbn; destruct N; [congruence|auto]). rewrite M. assert (L : Nat.leb N k = false) by (apply Nat.leb_gt; auto). rewrite L. cbn [andb]. unfold update_working. cbn [orb]. fold t'.
    cbn [p_monotonicity P]. rewrite andb_false_r, andb_false_r. reflexivity.
  - set (b := (s_weight s - 1) / t') in *. exists x', (x' + b * (x' - x)), (x - x'). cbn [s_coefs s_working s_it s_step s_weight s_obj s_attempt c_smooth c_nonsmooth abs_problem]. rewrite E1. split; auto. split; [reflexivity|]. split; [lia|]. split; auto. split; auto.
    split. { unfold x' in *. split; [nra|]. nra. } split; [unfold abs_h; cbn; f_equal; ring|].
    assert (Dv : x - x' <= v + sk (S k)) by (unfold x'; lra). assert (Dx : big - x' = (big - x) + (x - x')) by ring.
    destruct up eqn:Eu.
    + right. split; auto. split; [apply U3; auto|]. specialize (U4 eq_refl). assert (Q : v <= 99 * sk k).
      { destruct B as [(_ & _ & K & B1 & _)|(_ & _ & B1 & _)]; auto. eapply Rle_trans; [exact B1|]. assert (S0 : s0 <= sk k). { unfold sk. rewrite <- (Rmult_1_r s0) at 1. apply Rmult_le_compat_l; [lra|]. apply pow_R1_Rle. lra. } apply le_INR in K. replace (INR 99) with 99 in K by (cbn; lra). pose proof (pos_INR k). apply Rmult_le_compat; lra. }
      split; lra.
    + left. destruct (U2 eq_refl) as (V1 & V2 & V3). split; auto. split; auto. split; auto. assert (Z : sk (S k) = s0). { unfold sk. rewrite V3. replace (S k - 99)%nat with 0%nat by lia. cbn. ring. }
      destruct B as [(_ & _ & K & B1 & B2)|(B1 & _)]; [|congruence]. rewrite S_INR. rewrite Z in *. split; [lra|]. rewrite Dx. nra.
Qed.
Lemma run : forall fuel d k s, (1 <= fuel)%nat -> (k + d = N)%nat -> state_at k s -> forall loops, (d <= loops)%nat -> exists s', fista_loop loops fuel P abs_problem s = Ok s' /\ state_at N s'.
Proof.
  intros fuel. assert (M : max_of P = N) by (unfold max_of, or_nat; cbn; destruct N; [congruence|auto]). induction d as [|d IH]; intros k s Hf Hk St loops Hl.
  - assert (k = N) by lia. subst k. exists s. split; auto. pose proof St as (x & w & v & _ & _ & E3 & _). destruct loops; cbn [fista_loop]; rewrite E3, M, Nat.ltb_irrefl; auto.
  - destruct loops as [|loops]; [lia|]. destruct (one_pass fuel k s Hf ltac:(lia) St) as (s1 & E & St1). destruct (IH (S k) s1 Hf ltac:(lia) St1 loops ltac:(lia)) as (s' & E' & St'). exists s'. split; auto.
    pose proof St as (x & w & v & _ & _ & E3 & _). cbn [fista_loop]. rewrite E3, M. destruct (Nat.ltb_spec k N); [|lia]. rewrite E. cbn [rbind]. exact E'.
Qed.
Lemma final : forall loops fuel K, (1 <= fuel)%nat -> (N <= loops)%nat -> 39600 * K < (INR N + 1) * (INR N + 1) ->
  exists s, fit loops fuel P abs_problem [big] None att0 = Ok s /\ s_it s = N /\ exists Fs, objective (fun _ => 0) abs_h (s_coefs s) = Fin Fs /\ K * (2 * sqn (vsub [big] [0]) / (s_step s * ((INR N + 1) * (INR N + 1)))) < Fs.
Proof.
  intros loops fuel K Hf Hl HK. assert (S0 : sk 0 = s0) by (unfold sk; destruct att0; cbn; ring). assert (I : state_at 0 (fista_start P abs_problem [big] None att0)).
  { exists big, big, 0. cbn. split; auto. split; auto. split; auto. split; auto. split; [lra|]. split; [lra|]. split; [f_equal; ring|]. rewrite S0. destruct att0 eqn:Ea; [right; split; auto; split; auto; lra|left]. split; auto. split; auto. split; [lia|]. lra. }
  destruct (run fuel N 0 _ Hf eq_refl I loops Hl) as (s & E & St). exists s. split; [exact E|]. pose proof St as (x & w & v & E1 & E2 & E3 & E4 & _ & Hv & _ & B). split; auto. rewrite E1, E4. exists (0 + Rabs x). split; [reflexivity|].
  assert (Hx : big - x <= 4950 * sk N). { assert (T : s0 <= sk N) by (rewrite <- S0; apply sk_mono; lia). destruct B as [(_ & _ & Q & _ & B2)|(_ & _ & _ & B2)]; auto. eapply Rle_trans; [exact B2|]. pose proof (sums N Q). pose proof (pos_INR N). apply Rmult_le_compat; try lra. nra. }
  pose proof (sk_pos N) as Hp. assert (X : 4950 * sk N <= x) by (unfold big in Hx; lra). rewrite Rabs_pos_eq by lra. eapply Rlt_le_trans; [|rewrite Rplus_0_l; exact X].
  set (m := (INR N + 1) * (INR N + 1)) in *. pose proof (pos_INR N). assert (Hm : 0 < m) by (unfold m; nra).
  replace (sqn (vsub [big] [0])) with (big * big) by (unfold sqn, dot; cbn; ring). unfold big.
  replace (K * (2 * (9900 * sk N * (9900 * sk N)) / (sk N * m))) with (4950 * sk N * (39600 * K / m)) by (field; split; lra).
  assert (G : 39600 * K / m < 1); [|pose proof (Rmult_lt_compat_l (4950 * sk N) _ _ ltac:(lra) G); lra]. apply (Rmult_lt_reg_r m); auto. unfold Rdiv. rewrite Rmult_assoc, Rinv_l by lra. lra.
Qed.
End Run.

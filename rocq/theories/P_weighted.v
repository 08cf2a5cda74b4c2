From Coq Require Import Reals List Lra Lia Psatz Bool.
From Verif Require Import Vec Spec M_quad M_prox M_semi SpecAtom M_shift SpecBase SpecMode M_mode SpecModed SpecWeighted M_weighted SpecWatom
  P_quad P_pl P_prox P_feas P_semi P_conj P_shift P_gauge.
Import ListNotations.
Local Open Scope R_scope.

(** ** Terms *)
Definition wsgn (a : R) : R := if Rle_dec 0 a then 1 else -1.
Lemma wsgn_facts : forall a, a * wsgn a = Rabs a /\ Rabs (wsgn a) = 1.
Proof. intros a. unfold wsgn. destruct (Rle_dec 0 a); split; [rewrite Rabs_right; lra|apply Rabs_R1|rewrite Rabs_left; lra|rewrite Rabs_left; lra]. Qed.
Lemma invw_legal : forall c, weight_legal c -> weight_legal (invw c).
Proof. intros [r|]; simpl; intros H; [|lra]. destruct (Req_EM_T r 0); simpl; auto. apply Rmult_le_pos; [lra|]. left. apply Rinv_0_lt_compat. lra. Qed.
Lemma invw_invw : forall c, weight_legal c -> invw (invw c) = c.
Proof.
  intros [r|]; simpl; intros H; [|destruct (Req_EM_T 0 0); congruence]. destruct (Req_EM_T r 0) as [->|E]; simpl; auto.
  destruct (Req_EM_T (1 / r) 0) as [C|_].
  - exfalso. assert (0 < / r) by (apply Rinv_0_lt_compat; lra). lra.
  - f_equal. field. auto.
Qed.
Lemma wterm_nonneg : forall c a r, weight_legal c -> wterm c a = Fin r -> 0 <= r.
Proof. intros [w|] a r H E; simpl in *. - injection E as <-. pose proof (Rabs_pos a). nra. - destruct (Req_EM_T a 0); [|discriminate]. injection E as <-. lra. Qed.
Lemma wterm_scal : forall c t a r, 0 <= t -> wterm c a = Fin r -> wterm c (t * a) = Fin (t * r).
Proof.
  intros [w|] t a r Ht E; simpl in *.
  - injection E as <-. rewrite Rabs_mult, (Rabs_right t) by lra. f_equal. ring.
  - destruct (Req_EM_T a 0) as [->|]; [|discriminate]. injection E as <-. rewrite Rmult_0_r. destruct (Req_EM_T 0 0); congruence.
Qed.
Lemma wterm_zero : forall c, wterm c 0 = Fin 0.
Proof. intros [w|]; simpl; [rewrite Rabs_R0; f_equal; ring|]. destruct (Req_EM_T 0 0); congruence. Qed.
Lemma term_holder : forall c a u r s, weight_legal c -> wterm c a = Fin r -> wterm (invw c) u = Fin s -> u * a <= r * s.
Proof.
  intros [w|] a u r s H E F; simpl in *.
  - injection E as <-. pose proof (Rle_abs (u * a)) as A. rewrite Rabs_mult in A. destruct (Req_EM_T w 0) as [->|Hw]; simpl in F.
    + destruct (Req_EM_T u 0) as [->|]; [|discriminate]. injection F as <-. lra.
    + injection F as <-. replace (w * Rabs a * (1 / w * Rabs u)) with (Rabs u * Rabs a) by (field; auto). lra.
  - destruct (Req_EM_T a 0) as [->|]; [|discriminate]. injection E as <-. lra.
Qed.
Lemma term_attain : forall c u s, weight_legal c -> wterm (invw c) u = Fin s -> exists a r, wterm c a = Fin r /\ 0 <= r <= 1 /\ u * a = s.
Proof.
  intros [w|] u s H E; simpl in H, E.
  - destruct (Req_EM_T w 0) as [->|Hw]; simpl in E.
    + destruct (Req_EM_T u 0) as [->|]; [|discriminate]. injection E as <-. exists 0, 0. rewrite wterm_zero. split; auto. lra.
    + injection E as <-. assert (P : 0 < / w) by (apply Rinv_0_lt_compat; lra). destruct (wsgn_facts u) as [S1 S2].
      exists (/ w * wsgn u), 1. simpl. rewrite Rabs_mult, S2, Rabs_right by lra. split; [f_equal; field; auto|]. split; [lra|].
      unfold Rdiv. rewrite <- S1. ring.
  - injection E as <-. exists 0, 0. rewrite wterm_zero. split; auto. lra.
Qed.
Lemma term_attain_inf : forall c u, wterm (invw c) u = PInf -> exists a, wterm c a = Fin 0 /\ 0 < u * a.
Proof.
  intros [w|] u E; simpl in E; [|discriminate]. destruct (Req_EM_T w 0) as [->|Hw]; simpl in E; [|discriminate].
  destruct (Req_EM_T u 0) as [->|]; [discriminate|]. exists (wsgn u). destruct (wsgn_facts u) as [S1 S2]. simpl. rewrite S2. split; [f_equal; ring|].
  rewrite S1. apply Rabs_pos_lt. auto.
Qed.

(** ** Gauges *)
Lemma wl1_nonneg : forall w x r, Forall weight_legal w -> wl1 w x = Fin r -> 0 <= r.
Proof.
  induction w as [|c w IH]; intros [|a x] r H E; simpl in E; try (injection E as <-; lra).
  destruct (wterm c a) as [r1|] eqn:E1; [|discriminate]. destruct (wl1 w x) as [r2|] eqn:E2; [|discriminate]. injection E as <-.
  pose proof (wterm_nonneg _ _ _ (Forall_inv H) E1). pose proof (IH _ _ (Forall_inv_tail H) E2). lra.
Qed.
Lemma wsup_nonneg : forall w x r, wsup w x = Fin r -> 0 <= r.
Proof.
  induction w as [|c w IH]; intros [|a x] r E; simpl in E; try (injection E as <-; lra).
  destruct (wterm c a) as [r1|] eqn:E1; [|discriminate]. destruct (wsup w x) as [r2|] eqn:E2; [|discriminate]. injection E as <-.
  pose proof (IH _ _ E2). pose proof (Rmax_r r1 r2). lra.
Qed.
Lemma wl1_zeros : forall w n, wl1 w (zeros n) = Fin 0.
Proof. induction w as [|c w IH]; intros [|n]; simpl; auto. rewrite wterm_zero. fold (zeros n). rewrite IH. simpl. f_equal. ring. Qed.
Lemma wsup_zeros : forall w n, wsup w (zeros n) = Fin 0.
Proof. induction w as [|c w IH]; intros [|n]; simpl; auto. rewrite wterm_zero. fold (zeros n). rewrite IH. simpl. f_equal. apply Rmax_left. lra. Qed.
Lemma wl1_gauge : forall n w, Forall weight_legal w -> gauge n (wl1 w).
Proof.
  intros n w H. constructor; [intros; eapply wl1_nonneg; eauto| |apply wl1_zeros].
  intros t x r _ Ht. clear H. revert x r. induction w as [|c w IH]; intros [|a x] r E; simpl in E |- *; try (injection E as <-; f_equal; ring).
  destruct (wterm c a) as [r1|] eqn:E1; [|discriminate]. destruct (wl1 w x) as [r2|] eqn:E2; [|discriminate]. injection E as <-.
  rewrite (wterm_scal _ _ _ _ Ht E1). fold (vscal t x). rewrite (IH _ _ E2). simpl. f_equal. ring.
Qed.
Lemma wsup_gauge : forall n w, gauge n (wsup w).
Proof.
  intros n w. constructor; [intros; eapply wsup_nonneg; eauto| |apply wsup_zeros].
  intros t x r _ Ht. revert x r. induction w as [|c w IH]; intros [|a x] r E; simpl in E |- *; try (injection E as <-; f_equal; ring).
  destruct (wterm c a) as [r1|] eqn:E1; [|discriminate]. destruct (wsup w x) as [r2|] eqn:E2; [|discriminate]. injection E as <-.
  rewrite (wterm_scal _ _ _ _ Ht E1). fold (vscal t x). rewrite (IH _ _ E2). simpl. f_equal. apply RmaxRmult. auto.
Qed.
Lemma w_holder : forall w x u r s, Forall weight_legal w -> length x = length w -> length u = length w -> wl1 w x = Fin r -> ext_le (wsup (map invw w) u) (Fin s) -> 0 <= s -> dot u x <= r * s.
Proof.
  induction w as [|c w IH]; intros [|a x] [|b u] r s H Lx Lu E F Hs; simpl in Lx, Lu; try discriminate; [simpl in E; injection E as <-; unfold dot; simpl; lra|].
  simpl in E, F. destruct (wterm c a) as [r1|] eqn:E1; [|discriminate]. destruct (wl1 w x) as [r2|] eqn:E2; [|discriminate]. injection E as <-.
  destruct (wterm (invw c) b) as [s1|] eqn:F1; [|simpl in F; tauto]. destruct (wsup (map invw w) u) as [s2|] eqn:F2; [|simpl in F; tauto]. simpl in F.
  pose proof (Rmax_l s1 s2). pose proof (Rmax_r s1 s2).
  pose proof (term_holder _ _ _ _ _ (Forall_inv H) E1 F1). pose proof (wterm_nonneg _ _ _ (Forall_inv H) E1).
  specialize (IH x u r2 s (Forall_inv_tail H) ltac:(congruence) ltac:(congruence) E2). rewrite F2 in IH. simpl in IH. specialize (IH ltac:(lra) Hs).
  rewrite dot_cons. assert (r1 * s1 <= r1 * s) by (apply Rmult_le_compat_l; lra). lra.
Qed.
Lemma w_attain : forall w u, Forall weight_legal w -> length u = length w -> match wsup (map invw w) u with
    | Fin s => exists x r, length x = length w /\ wl1 w x = Fin r /\ r <= 1 /\ dot u x = s
    | PInf => exists x, length x = length w /\ wl1 w x = Fin 0 /\ 0 < dot u x end.
Proof.
  induction w as [|c w IH]; intros [|b u] H Lu; simpl in Lu; try discriminate.
  - simpl. exists [], 0. unfold dot. simpl. repeat split; lra.
  - specialize (IH u (Forall_inv_tail H) ltac:(congruence)). simpl. destruct (wterm (invw c) b) as [s1|] eqn:E1.
    + destruct (wsup (map invw w) u) as [s2|] eqn:E2; simpl.
      * unfold Rmax. destruct (Rle_dec s1 s2) as [Q|Q].
        -- destruct IH as (x & r & Lx & Ex & Hr & Hd). exists (0 :: x), r. simpl. rewrite wterm_zero, Ex. simpl. rewrite dot_cons, Hd.
           repeat split; [congruence|f_equal; ring|auto|ring].
        -- destruct (term_attain _ _ _ (Forall_inv H) E1) as (a & r & Ea & Hr & Hd). exists (a :: zeros (length w)), r. simpl.
           rewrite Ea, wl1_zeros. simpl. rewrite dot_cons, dot_zeros_r, zeros_length. repeat split; [f_equal; ring|lra|lra].
      * destruct IH as (x & Lx & Ex & Hd). exists (0 :: x). simpl. rewrite wterm_zero, Ex. simpl. rewrite dot_cons. repeat split; [congruence|f_equal; ring|lra].
    + destruct (term_attain_inf _ _ E1) as (a & Ea & Hd). exists (a :: zeros (length w)). simpl. rewrite Ea, wl1_zeros. simpl.
      rewrite dot_cons, dot_zeros_r, zeros_length. repeat split; [f_equal; ring|lra].
Qed.
Lemma w_attain_rev : forall w x, Forall weight_legal w -> length x = length w -> match wl1 w x with
    | Fin r => exists u s, length u = length w /\ wsup (map invw w) u = Fin s /\ s <= 1 /\ dot x u = r
    | PInf => exists u, length u = length w /\ wsup (map invw w) u = Fin 0 /\ 0 < dot x u end.
Proof.
  induction w as [|c w IH]; intros [|b x] H Lu; simpl in Lu; try discriminate.
  - simpl. exists [], 0. unfold dot. simpl. repeat split; lra.
  - specialize (IH x (Forall_inv_tail H) ltac:(congruence)). pose proof (Forall_inv H) as Hc. simpl.
    assert (I1 : invw (invw c) = c) by (apply invw_invw; auto).
    destruct (wterm c b) as [s1|] eqn:E1.
    + rewrite <- I1 in E1. destruct (term_attain _ _ _ (invw_legal _ Hc) E1) as (a & r & Ea & Hr & Hd).
      destruct (wl1 w x) as [s2|] eqn:E2; simpl.
      * destruct IH as (u & s & Lx & Ex & Hs & Hdd). exists (a :: u), (Rmax r s). simpl. rewrite Ea, Ex. simpl. rewrite dot_cons, Hdd.
        repeat split; [congruence|apply Rmax_lub; lra|lra].
      * destruct IH as (u & Lx & Ex & Hdd). exists (0 :: u). simpl. rewrite wterm_zero, Ex. simpl. rewrite dot_cons. repeat split; [congruence|f_equal; apply Rmax_left; lra|lra].
    + rewrite <- I1 in E1. destruct (term_attain_inf _ _ E1) as (a & Ea & Hd). exists (a :: zeros (length w)). simpl. rewrite Ea, wsup_zeros. simpl.
      rewrite dot_cons, dot_zeros_r, zeros_length. repeat split; [f_equal; apply Rmax_left; lra|lra].
Qed.
Theorem w_polar : forall n w, length w = n -> Forall weight_legal w -> polar_pair n (wl1 w) (wsup (map invw w)).
Proof.
  intros n w Hn H. constructor; [apply wl1_gauge; auto|apply wsup_gauge| |].
  - intros x u r s Lx Lu E F. apply (w_holder w x u r s); auto; try congruence; [rewrite F; simpl; lra|eapply wsup_nonneg; eauto].
  - intros u Lu. subst n. apply w_attain; auto.
Qed.
Theorem w_polar_rev : forall n w, length w = n -> Forall weight_legal w -> polar_pair n (wsup (map invw w)) (wl1 w).
Proof. intros n w Hn H. apply polar_swap; [apply w_polar; auto|]. intros x Lx. subst n. apply w_attain_rev; auto. Qed.

(** ** Soft thresholding *)
Definition pen (p : R * R) (k : R) : R := snd p * pos (Rabs (fst p) - snd p * k).
Lemma soft_cut_cert : forall w x k cut, length x = length w -> 0 <= k ->
  Forall (fun c => weight_legal c /\ match c with Fin r => cut c = Some (Fin (k * r)) | PInf => cut c = Some PInf end) w ->
  exists p, cut_all cut w x = Ok p /\ length p = length w /\ exists r, wl1 w p = Fin r /\
    (forall v s, length v = length w -> wl1 w v = Fin s -> dot (vsub x p) v <= k * s) /\ dot (vsub x p) p = k * r /\
    r = vsum (map (fun q => pen q k) (masked keepb w x)).
Proof.
  induction w as [|c w IH]; intros [|a x] k cut Lx Hk H; simpl in Lx; try discriminate.
  - exists []. split; auto. split; auto. exists 0. split; auto. unfold dot, vsum. simpl. split; [|split; ring]. intros v s Lv E. injection E as <-. lra.
  - destruct (IH x k cut ltac:(congruence) Hk (Forall_inv_tail H)) as (p & E1 & Lp & r & E2 & C1 & C2 & C3).
    destruct (Forall_inv H) as [Hc Hcut]. cbn [cut_all]. destruct c as [w0|]; rewrite Hcut, E1; simpl in Hc.
    + exists (soft_cut (Fin (k * w0)) a :: p). cbn [rmap]. split; auto. split; [simpl; congruence|].
      assert (Hkw : 0 <= k * w0) by nra.
      replace (soft_cut (Fin (k * w0)) a) with (soft (k * w0) a) by reflexivity.
      pose proof (soft_resid (k * w0) a Hkw) as S1. pose proof (soft_align (k * w0) a Hkw) as S2. pose proof (soft_abs (k * w0) a Hkw) as S3.
      exists (w0 * Rabs (soft (k * w0) a) + r). cbn [wl1 wterm]. rewrite E2. cbn [ext_add]. split; auto.
      unfold vsub in *. cbn [vzip]. split; [|split].
      * intros [|v0 v] s Lv E; [discriminate Lv|]. cbn [wl1 wterm] in E. destruct (wl1 w v) as [s2|] eqn:Ev; [|discriminate]. cbn [ext_add] in E. injection E as <-.
        specialize (C1 v s2 ltac:(simpl in Lv; congruence) Ev). rewrite dot_cons.
        pose proof (Rle_abs ((a - soft (k * w0) a) * v0)) as A. rewrite Rabs_mult in A. pose proof (Rabs_pos v0).
        assert (Rabs (a - soft (k * w0) a) * Rabs v0 <= k * w0 * Rabs v0) by (apply Rmult_le_compat_r; auto). lra.
      * rewrite dot_cons, S2, C2. ring.
      * cbn [masked]. cbn [keepb]. destruct (Req_EM_T w0 0) as [->|Hw0].
        -- rewrite Rmult_0_l, Rplus_0_l. auto.
        -- cbn [map]. rewrite vsum_cons, <- C3. f_equal. unfold pen. simpl. rewrite S3. rewrite (Rmult_comm w0 k). auto.
    + exists (0 :: p). cbn [rmap soft_cut]. split; auto. split; [simpl; congruence|]. exists r. cbn [wl1]. rewrite wterm_zero, E2. cbn [ext_add].
      split; [f_equal; ring|]. unfold vsub in *. cbn [vzip]. split; [|split].
      * intros [|v0 v] s Lv E; [discriminate Lv|]. cbn [wl1 wterm] in E. destruct (Req_EM_T v0 0) as [->|]; [|discriminate]. destruct (wl1 w v) as [s2|] eqn:Ev; [|discriminate]. cbn [ext_add] in E. injection E as <-.
        specialize (C1 v s2 ltac:(simpl in Lv; congruence) Ev). rewrite dot_cons. lra.
      * rewrite dot_cons, C2. ring.
      * cbn [masked]. auto.
Qed.

(** ** The threshold of the l1 projection *)
Lemma masked_keep_range : forall w x, Forall weight_range w -> Forall (fun r => / 10 ^ 20 <= r) (map snd (masked keepb w x)).
Proof.
  induction w as [|c w IH]; intros [|a x] H; simpl; auto. pose proof (Forall_inv H) as Hc. specialize (IH x (Forall_inv_tail H)).
  destruct c as [r|]; auto. simpl in Hc |- *. destruct (Req_EM_T r 0); auto. simpl. constructor; auto. destruct Hc; [tauto|lra].
Qed.
Lemma masked_pen : forall (l : list (R * R)) t, vsum (vzip (fun x w => w * pos (x - w * t)) (map (fun p => Rabs (fst p)) l) (map snd l)) = vsum (map (fun q => pen q t) l).
Proof. induction l as [|p l IH]; intros t; [reflexivity|]. cbn [map vzip]. rewrite !vsum_cons, IH. auto. Qed.
Lemma masked_pen0 : forall (l : list (R * R)), Forall (fun p => 0 <= snd p) l -> vsum (vmul (map snd l) (map (fun p => Rabs (fst p)) l)) = vsum (map (fun q => pen q 0) l).
Proof.
  unfold vmul. induction l as [|p l IH]; intros H; [reflexivity|]. cbn [map vzip]. rewrite !vsum_cons, IH by (exact (Forall_inv_tail H)). f_equal. unfold pen, pos.
  rewrite Rmult_0_r, Rminus_0_r, Rmax_left; auto. apply Rabs_pos.
Qed.
Lemma find_masked : forall w x b, Forall weight_range w -> 0 <= b -> 0 < b \/ masked keepb w x <> [] ->
  let l := masked keepb w x in
  exists t, find_solution_piecewise_linear b 0 (map (fun p => Rabs (fst p)) l) (map snd l) = Ok t /\ 0 <= t /\
    let r := vsum (map (fun q => pen q t) l) in r <= b /\ t * (r - b) = 0.
Proof.
  intros w x b Hw Hb Hne l.
  assert (Pl : Forall (fun p : R * R => 0 <= snd p) l).
  { pose proof (masked_keep_range w x Hw) as K. rewrite Forall_map in K. fold l in K. eapply Forall_impl; [|exact K]. simpl. intros p Hp.
    assert (0 < / 10 ^ 20) by (apply Rinv_0_lt_compat, pow_lt; lra). lra. }
  assert (D : l = [] \/ l <> []) by (destruct l; [left|right]; congruence). destruct D as [E|E].
  - exists 0. destruct Hne as [Hb0|C]; [|tauto]. rewrite E. unfold find_solution_piecewise_linear, vmul. simpl. destruct (Rlt_dec 0 b); [|lra]. repeat split; lra.
  - destruct (find_w_slope0 b (map (fun p => Rabs (fst p)) l) (map snd l)) as (t & Et & Ht & Hc); auto.
    + intros C. apply E. destruct l; auto. discriminate.
    + rewrite !map_length. auto.
    + apply Forall_map, Forall_forall. intros. apply Rabs_pos.
    + apply masked_keep_range. auto.
    + exists t. split; auto. split; auto. rewrite masked_pen0 in Hc by auto. rewrite masked_pen in Hc. intros r.
      destruct Hc as [[Hc ->]|[_ Hc]]; unfold r; [split; [lra|ring]|rewrite Hc; split; [lra|ring]].
Qed.

(** ** Methods *)
Lemma range_legal : forall c, weight_range c -> weight_legal c.
Proof. intros [r|]; simpl; auto. assert (0 < / 10 ^ 20) by (apply Rinv_0_lt_compat, pow_lt; lra). intros [->|]; lra. Qed.
Lemma range_inv : forall c, weight_range c -> weight_range (invw c).
Proof.
  intros [r|] H; cbn [invw weight_range] in *; auto. destruct (Req_EM_T r 0); cbn [weight_range]; auto. right. destruct H as [|[H1 H2]]; [tauto|].
  assert (0 < / 10 ^ 20) by (apply Rinv_0_lt_compat, pow_lt; lra). unfold Rdiv. rewrite Rmult_1_l. split.
  - apply Rinv_le_contravar; lra.
  - rewrite <- (Rinv_inv (10 ^ 20)). apply Rinv_le_contravar; lra.
Qed.
Theorem w_l1_lagrange : forall n w x L lam, length w = n -> Forall weight_legal w -> length x = n -> 0 < L -> 0 <= lam -> 0 < lam \/ ~ In PInf w ->
  exists p, w_lagrange_prox WL1 w x L lam = Ok p /\ is_unique_argmin n (prox_objective L x (gmode (wl1 w) (Lagrange lam))) p.
Proof.
  intros n w x L lam Hn Hw Hx HL Hl Hnan. unfold w_lagrange_prox.
  assert (Hk : 0 <= lam / L) by (apply Rmult_le_pos; [auto|left; apply Rinv_0_lt_compat; auto]).
  destruct (soft_cut_cert w x (lam / L) (fun wi => match fmul lam wi with Some (Fin r) => Some (Fin (r / L)) | o => o end) ltac:(congruence) Hk) as (p & E & Lp & r & Er & C1 & C2 & C3).
  - apply Forall_forall. intros c Hc. rewrite Forall_forall in Hw. split; auto. destruct c as [r|]; simpl.
    + do 2 f_equal. unfold Rdiv. ring.
    + destruct Hnan as [H|H]; [|tauto]. destruct (Rlt_dec 0 lam); auto. lra.
  - exists p. split; auto. apply gauge_prox_cert with (r := r); auto; try congruence. intros v s Lv Ev. apply C1; congruence.
Qed.
Lemma w_soft_proj : forall n w x b t p r, length w = n -> Forall weight_legal w -> length x = n -> length p = n -> 0 <= t -> 0 <= b -> wl1 w p = Fin r ->
  (forall v s, length v = n -> wl1 w v = Fin s -> dot (vsub x p) v <= t * s) -> dot (vsub x p) p = t * r -> r <= b -> t * (r - b) = 0 ->
  is_proj n (gball (wl1 w) b) x p.
Proof.
  intros n w x b t p r Hn Hw Hx Hp Ht Hb Er C1 C2 Hr Hc. apply proj_certificate; auto.
  - unfold gball. rewrite Er. simpl. auto.
  - intros v Lv Hv. unfold gball in Hv. destruct (wl1 w v) as [s|] eqn:Es; simpl in Hv; [|tauto].
    rewrite dot_sub_r by vlen. rewrite C2. specialize (C1 v s Lv Es). assert (t * s <= t * b) by (apply Rmult_le_compat_l; auto). lra.
Qed.
Lemma masked_regular : forall w x, length x = length w -> (exists c, In c w /\ weight_regular c) -> masked keepb w x <> [].
Proof.
  induction w as [|c w IH]; intros [|a x] L (c' & Hi & Hr); simpl in L; try discriminate; [simpl in Hi; tauto|].
  destruct Hi as [->|Hi].
  - destruct Hr as (r & -> & Hr). simpl. destruct (Req_EM_T r 0); [tauto|discriminate].
  - assert (K : masked keepb w x <> []) by (apply IH; [congruence|eauto]). cbn [masked]. destruct c as [r|]; [|exact K]. unfold keepb at 1. destruct (Req_EM_T r 0); [exact K|discriminate].
Qed.
Theorem w_l1_bound : forall n w x b, length w = n -> Forall weight_range w -> length x = n -> 0 <= b -> 0 < b \/ (exists c, In c w /\ weight_regular c) ->
  exists p, w_bound_prox WL1 w x b = Ok p /\ is_proj n (gball (wl1 w) b) x p.
Proof.
  intros n w x b Hn Hw Hx Hb Hd. unfold w_bound_prox.
  destruct (find_masked w x b Hw Hb) as (t & Et & Ht & Hr & Hc). { destruct Hd; auto. right. apply masked_regular; auto. congruence. }
  rewrite Et. cbn [rbind].
  assert (HwL : Forall weight_legal w) by (eapply Forall_impl; [|exact Hw]; exact range_legal).
  destruct (soft_cut_cert w x t (fun wi => match wi with Fin r => Some (Fin (r * (t + 0))) | PInf => fmul (t + 1) PInf end) ltac:(congruence) Ht) as (p & E & Lp & r & Er & C1 & C2 & C3).
  - apply Forall_forall. intros c Hc'. rewrite Forall_forall in HwL. split; auto. destruct c as [r|]; simpl.
    + do 2 f_equal. ring.
    + destruct (Rlt_dec 0 (t + 1)); auto. lra.
  - exists p. split; auto. rewrite <- C3 in *. apply (w_soft_proj n w x b t p r); auto; try congruence. intros v s Lv Ev. apply C1; congruence.
Qed.
(** residual of a projection onto the polar ball *)
Lemma gauge_moreau_rev : forall n h h' L x lam t p r s, polar_pair n h h' -> 0 < L -> length x = n -> length p = n ->
  h' p = Fin r -> h (vsub x p) = Fin s -> s <= t -> r <= lam / L -> t * (r - lam / L) = 0 -> dot p (vsub x p) = t * r ->
  is_unique_argmin n (prox_objective L x (gmode h (Lagrange lam))) (vsub x p).
Proof.
  intros n h h' L x lam t p r s P HL Hx Hp Er Es Hst Hr Hc Hd.
  assert (R0 : vsub x (vsub x p) = p).
  { clear - Hx Hp. subst n. unfold vsub. pattern x, p. apply vec_ind2; auto. intros a c X Y HL IH. cbn [vzip]. rewrite IH. f_equal. lra. }
  assert (Lr : length (vsub x p) = n) by vlen.
  pose proof (ga_nonneg _ _ (po_gauge' _ _ _ P) p r Hp Er) as R1. pose proof (ga_nonneg _ _ (po_gauge _ _ _ P) _ _ Lr Es) as R2.
  apply gauge_prox_cert with (r := s); auto; rewrite R0.
  - intros v s' Lv Ev. pose proof (po_holder _ _ _ P v p s' r Lv Hp Ev Er) as Hh. pose proof (ga_nonneg _ _ (po_gauge _ _ _ P) _ _ Lv Ev).
    assert (s' * r <= s' * (lam / L)) by (apply Rmult_le_compat_l; auto). lra.
  - pose proof (po_holder _ _ _ P (vsub x p) p s r Lr Hp Es Er) as Hh. rewrite Hd in *.
    assert (s * r <= s * (lam / L)) by (apply Rmult_le_compat_l; auto). assert (lam / L * s <= lam / L * t) by (apply Rmult_le_compat_l; lra). lra.
Qed.
Lemma map_inv_inv : forall w, Forall weight_legal w -> map invw (map invw w) = w.
Proof. intros w H. induction H; simpl; auto. rewrite invw_invw by auto. congruence. Qed.
Theorem w_sup_lagrange : forall n w x L lam, length w = n -> Forall weight_range w -> length x = n -> 0 < L -> 0 <= lam ->
  ~ In (Fin 0) w -> 0 < lam \/ (exists c, In c w /\ weight_regular c) ->
  exists p, w_lagrange_prox WSup w x L lam = Ok p /\ is_unique_argmin n (prox_objective L x (gmode (wsup w) (Lagrange lam))) p.
Proof.
  intros n w x L lam Hn Hw Hx HL Hl H0 Hd. unfold w_lagrange_prox. set (iw := map invw w).
  assert (HwL : Forall weight_legal w) by (eapply Forall_impl; [|exact Hw]; exact range_legal).
  assert (Hiw : Forall weight_range iw) by (apply Forall_map; eapply Forall_impl; [|exact Hw]; exact range_inv).
  assert (HiL : Forall weight_legal iw) by (eapply Forall_impl; [|exact Hiw]; exact range_legal).
  assert (Li : length iw = n) by (unfold iw; rewrite map_length; auto).
  assert (Hk : 0 <= lam / L) by (apply Rmult_le_pos; [auto|left; apply Rinv_0_lt_compat; auto]).
  destruct (find_masked iw x (lam / L) Hiw Hk) as (t & Et & Ht & Hr & Hc).
  { destruct Hd as [Hd|(c & Hc & (r & -> & Hr))].
    - left. apply Rmult_lt_0_compat; auto. apply Rinv_0_lt_compat; auto.
    - right. apply masked_regular; [congruence|]. exists (invw (Fin r)). split; [apply in_map; auto|]. simpl. destruct (Req_EM_T r 0); [tauto|]. exists (1 / r). split; auto.
      unfold Rdiv. rewrite Rmult_1_l. apply Rinv_neq_0_compat. auto. }
  rewrite Et. cbn [rbind].
  destruct (soft_cut_cert iw x t (fmul t) ltac:(congruence) Ht) as (p & E & Lp & r & Er & C1 & C2 & C3).
  - apply Forall_forall. intros c Hc'. rewrite Forall_forall in HiL. split; auto. destruct c as [r|]; simpl; auto.
    exfalso. unfold iw in Hc'. apply in_map_iff in Hc'. destruct Hc' as ([r|] & Ec & Hin); simpl in Ec; [|discriminate]. destruct (Req_EM_T r 0) as [->|]; [tauto|discriminate].
  - rewrite E. exists (vsub x p). split; auto. rewrite <- C3 in *.
    assert (P : polar_pair n (wsup w) (wl1 iw)). { rewrite <- (map_inv_inv w) by auto. apply w_polar_rev; auto. }
    assert (P' : polar_pair n (wl1 iw) (wsup w)). { rewrite <- (map_inv_inv w) by auto. apply w_polar; auto. }
    assert (B : gball (wsup w) t (vsub x p)).
    { destruct (gauge_moreau n (wl1 iw) (wsup w) x t p r P' Ht Hx ltac:(congruence) Er) as (_ & B & _); auto. intros v s Lv Ev. apply C1; congruence. }
    unfold gball in B. destruct (wsup w (vsub x p)) as [s|] eqn:Es; simpl in B; [|tauto].
    apply (gauge_moreau_rev n (wsup w) (wl1 iw) L x lam t p r s); auto; try congruence. rewrite dot_comm. auto.
Qed.
Theorem w_sup_bound : forall n w x b, length w = n -> Forall weight_legal w -> length x = n -> 0 <= b -> 0 < b \/ ~ In (Fin 0) w ->
  exists p, w_bound_prox WSup w x b = Ok p /\ is_proj n (gball (wsup w) b) x p.
Proof.
  intros n w x b Hn Hw Hx Hb Hd. unfold w_bound_prox.
  assert (K : exists p, clip_all b (map invw w) x = Ok p /\ length p = length w /\ ext_le (wsup w p) (Fin b) /\
     forall v, length v = length w -> ext_le (wsup w v) (Fin b) -> dot (vsub x p) (vsub v p) <= 0).
  { subst n. revert x Hx. induction w as [|c w IH]; intros [|a x] Hx; simpl in Hx; try discriminate.
    - exists []. repeat split; auto. intros. unfold dot, vsub. simpl. lra.
    - destruct (IH (Forall_inv_tail Hw) ltac:(destruct Hd as [|H]; [auto|right; simpl in H; tauto]) x ltac:(congruence)) as (p & E & Lp & Hp & Hv).
      cbn [map clip_all]. rewrite E. pose proof (Forall_inv Hw) as Hc.
      assert (F : exists h, fmul b (invw c) = Some h /\ ext_le (wterm c (clip1 h a)) (Fin b) /\
        forall v0, ext_le (wterm c v0) (Fin b) -> (a - clip1 h a) * (v0 - clip1 h a) <= 0).
      { destruct c as [r|]; simpl in Hc |- *.
        - destruct (Req_EM_T r 0) as [->|Hr]; simpl.
          + destruct Hd as [Hd|H]; [|simpl in H; tauto]. destruct (Rlt_dec 0 b); [|lra]. exists PInf. simpl. repeat split; [lra|]. intros. replace (a - a) with 0 by ring. lra.
          + exists (Fin (b * (1 / r))). split; auto. assert (Hr' : 0 < r) by lra. set (h := b * (1 / r)).
            assert (Eh : r * h = b) by (unfold h; field; lra). assert (Hh : 0 <= h). { unfold h. apply Rmult_le_pos; auto. unfold Rdiv. rewrite Rmult_1_l. left. apply Rinv_0_lt_compat; auto. }
            cbn [clip1 ext_le wterm]. unfold Rmin, Rmax. split.
            * destruct (Rle_dec a (- h)); destruct (Rle_dec _ h); unfold Rabs; destruct (Rcase_abs _); nra.
            * intros v0 Hv0. assert (Hv1 : Rabs v0 <= h) by (apply Rmult_le_reg_l with r; lra). assert (Hv2 : - h <= v0 <= h) by (revert Hv1; unfold Rabs; destruct (Rcase_abs v0); lra).
              destruct (Rle_dec a (- h)); destruct (Rle_dec _ h); nra.
        - exists (Fin (b * 0)). split; auto. rewrite Rmult_0_r. cbn [clip1].
          assert (Z : Rmin (Rmax a (- 0)) 0 = 0). { rewrite Ropp_0. unfold Rmin, Rmax. destruct (Rle_dec a 0); destruct (Rle_dec _ 0); lra. }
          rewrite Z. split; [destruct (Req_EM_T 0 0); simpl; [lra|tauto]|]. intros v0 Hv0. destruct (Req_EM_T v0 0) as [->|]; simpl in Hv0; [lra|tauto]. }
      destruct F as (h & F1 & F2 & F3). rewrite F1. cbn [rmap]. exists (clip1 h a :: p). split; auto. split; [simpl; congruence|]. split.
      + cbn [wsup]. destruct (wterm c (clip1 h a)); simpl in F2; [|tauto]. destruct (wsup w p); simpl in Hp; [|tauto]. simpl. apply Rmax_lub; auto.
      + intros [|v0 v] Lv Bv; [discriminate Lv|]. cbn [wsup] in Bv. destruct (wterm c v0) as [s1|] eqn:S1; [|simpl in Bv; tauto]. destruct (wsup w v) as [s2|] eqn:S2; [|simpl in Bv; tauto].
        simpl in Bv. pose proof (Rmax_l s1 s2). pose proof (Rmax_r s1 s2). specialize (Hv v ltac:(simpl in Lv; congruence)). rewrite S2 in Hv. simpl in Hv. specialize (Hv ltac:(lra)).
        specialize (F3 v0). rewrite S1 in F3. simpl in F3. specialize (F3 ltac:(lra)). unfold vsub in *. cbn [vzip]. rewrite dot_cons. lra. }
  destruct K as (p & E & Lp & Hp & Hv). exists p. split; auto. apply proj_certificate; auto; try congruence. intros v Lv Bv. apply Hv; auto. congruence.
Qed.

(** ** Values *)
Lemma violates_true : forall w x, length x = length w -> violates w x = true -> wl1 w x = PInf /\ wsup w x = PInf.
Proof.
  induction w as [|c w IH]; intros [|a x] L H; simpl in L; try discriminate. cbn [violates] in H. apply orb_prop in H. destruct H as [H|H].
  - destruct c as [r|]; simpl in H; [discriminate|]. cbn [wl1 wsup wterm]. destruct (Req_EM_T a 0); [discriminate|]. simpl. auto.
  - destruct (IH x ltac:(congruence) H) as [E1 E2]. cbn [wl1 wsup]. rewrite E1, E2. destruct (wterm c a); auto.
Qed.
Lemma violates_false : forall w x, length x = length w -> Forall weight_legal w -> violates w x = false ->
  let l := map (fun p => Rabs (fst p * snd p)) (masked finiteb w x) in wl1 w x = Fin (vsum l) /\ wsup w x = Fin (max_list 0 l).
Proof.
  induction w as [|c w IH]; intros [|a x] L Hw H; simpl in L; try discriminate; [simpl; auto|]. cbn [violates] in H. apply orb_false_elim in H. destruct H as [H1 H2].
  destruct (IH x ltac:(congruence) (Forall_inv_tail Hw) H2) as [E1 E2]. cbn [wl1 wsup]. rewrite E1, E2. destruct c as [r|]; cbn [masked finiteb wterm].
  - cbn [map max_list]. pose proof (Forall_inv Hw) as Hr. simpl in Hr. rewrite vsum_cons. cbn [fst snd]. rewrite Rabs_mult, (Rabs_right r), (Rmult_comm (Rabs a)) by lra. simpl. auto.
  - simpl in H1. destruct (Req_EM_T a 0); [|discriminate]. simpl. rewrite Rplus_0_l. split; auto. f_equal. apply Rmax_right.
    fold (max_list 0 (map (fun p => Rabs (fst p * snd p)) (masked finiteb w x))). apply max_list_ge_d.
Qed.
Lemma np_max_nonneg : forall l, l <> [] -> all_nonneg l -> np_max l = Ok (max_list 0 l).
Proof.
  intros l Hne H. destruct (np_max_spec l Hne) as (m & E & Hm & Hin). rewrite E. f_equal. apply Rle_antisym.
  - apply Hm. apply max_list_ge.
  - apply max_list_le. split; [|apply Hm; lra]. unfold all_nonneg in H. rewrite Forall_forall in H. apply H; auto.
Qed.
Lemma masked_finite : forall w x, length x = length w -> (exists r, In (Fin r) w) -> masked finiteb w x <> [].
Proof.
  induction w as [|c w IH]; intros [|a x] L (r & Hr); simpl in L; try discriminate; [destruct Hr|]. cbn [masked]. destruct c as [r0|]; [discriminate|].
  destruct Hr as [C|Hr]; [discriminate|]. apply IH; eauto.
Qed.
Theorem w_value : forall c w x lam, length x = length w -> Forall weight_legal w -> (exists r, In (Fin r) w) ->
  w_seminorm c w x lam true = Ok (ext_scale lam (wfun c w x)).
Proof.
  intros c w x lam L Hw (r & Hr). unfold w_seminorm. destruct (violates w x) eqn:V; simpl.
  - destruct (violates_true w x L V) as [E1 E2]. destruct c; simpl; rewrite ?E1, ?E2; auto.
  - destruct (violates_false w x L Hw V) as [E1 E2]. destruct c; simpl; rewrite ?E1, ?E2; auto.
    rewrite np_max_nonneg; auto.
    + intros C. apply map_eq_nil in C. revert C. apply masked_finite; eauto.
    + apply Forall_map, Forall_forall. intros. apply Rabs_pos.
Qed.
Theorem w_feasibility : forall c w x b, length x = length w -> Forall weight_legal w -> (exists r, In (Fin r) w) -> 0 <= b ->
  (gball (wfun c w) b x -> w_constraint c w x b = Ok (Fin 0)) /\
  (w_constraint c w x b = Ok (Fin 0) -> gball (wfun c w) (b * (1 + / 10 ^ 5)) x) /\
  (w_constraint c w x b = Ok (Fin 0) \/ w_constraint c w x b = Ok PInf).
Proof.
  intros c w x b L Hw Hr Hb. unfold w_constraint, gball. rewrite w_value by auto. cbn [rmap]. change (/ 10 ^ 5) with tol. pose proof tol_pos.
  destruct (wfun c w x) as [r|]; cbn [ext_scale ext_le].
  - assert (0 <= b * tol) by nra. destruct (Rle_dec (1 * r) (b * (1 + tol))); (split; [|split]); intros; auto; try discriminate; try (exfalso; lra); lra.
  - split; [tauto|]. split; [discriminate|auto].
Qed.

(** ** Objects *)
Lemma weights_ok_true : forall w, Forall weight_legal w -> weights_ok w = true.
Proof. intros w H. unfold weights_ok. apply forallb_forall. intros c Hc. rewrite Forall_forall in H. specialize (H c Hc). destruct c; simpl in *; auto. destruct (Rle_dec 0 r); auto. Qed.
Lemma weights_ok_false : forall w, weights_ok w = true -> Forall weight_legal w.
Proof. intros w H. unfold weights_ok in H. rewrite forallb_forall in H. apply Forall_forall. intros c Hc. specialize (H c Hc). destruct c; simpl in *; auto. destruct (Rle_dec 0 r); auto. discriminate. Qed.
Theorem new_watom_correct : forall c w m o q, mode_ok m ->
  (Forall weight_legal w -> new_watom c w (lag_of m) (bnd_of m) o q = Ok (mk_watom c w (mk_moded (lag_of m) (bnd_of m) (new_base (length w) o q)))) /\
  (~ Forall weight_legal w -> new_watom c w (lag_of m) (bnd_of m) o q = Err ValueError).
Proof.
  intros c w m o q Hm. unfold new_watom. rewrite new_moded_ok by auto. cbn [rbind]. split; intros H.
  - rewrite weights_ok_true; auto.
  - destruct (weights_ok w) eqn:E; auto. apply weights_ok_false in E. tauto.
Qed.
Theorem watom_proximal_correct : forall n a m p, watom_wf n a m -> wprox_legal (w_class a) (w_weights a) m -> q_shape n p ->
  0 < coef (b_quadratic (m_base (w_moded a))) + coef p -> some_array (m_base (w_moded a)) p ->
  exists v, watom_proximal a (AQuad p) = Ok v /\ prox_spec n (gmode (wfun (w_class a) (w_weights a)) m) (m_base (w_moded a)) p v.
Proof.
  intros n a m p (Ln & Hw & Hwf) Hl Hp HL Hv. unfold watom_proximal. apply moded_proximal_correct; auto.
  pose proof Hwf as (_ & _ & Hm & _). intros x L Hx HLp. destruct (w_class a); destruct m as [lam|b]; cbn [wprox_legal] in Hl; simpl in Hm.
  - apply w_l1_lagrange; auto.
  - apply w_l1_bound; tauto.
  - apply w_sup_lagrange; tauto.
  - apply w_sup_bound; auto.
Qed.
Lemma w_polar_c : forall c n w, length w = n -> Forall weight_legal w -> polar_pair n (wfun c w) (wfun (wpair c) (map invw w)).
Proof.
  intros [|] n w Ln Hw; simpl; [apply w_polar; auto|]. 
  assert (Hi : Forall weight_legal (map invw w)) by (apply Forall_map; eapply Forall_impl; [|exact Hw]; exact invw_legal).
  pose proof (w_polar_rev n (map invw w) ltac:(rewrite map_length; auto) Hi) as P. rewrite map_inv_inv in P by auto. exact P.
Qed.
Theorem watom_conjugate_correct : forall n a m, watom_wf n a m -> coef (b_quadratic (m_base (w_moded a))) = 0 ->
  exists e, watom_conjugate a = Some (Ok e) /\ w_class e = wpair (w_class a) /\ watom_wf n e (dual_mode m) /\
    (forall u, length u = n -> is_fenchel n (moded_doc n (wfun (w_class a) (w_weights a)) (w_moded a) m) u
                                             (moded_doc n (wfun (w_class e) (w_weights e)) (w_moded e) (dual_mode m) u)) /\
    exists f, watom_conjugate e = Some (Ok f) /\ w_class f = w_class a /\ w_weights f = w_weights a /\ watom_wf n f m /\
      forall v, length v = n -> moded_doc n (wfun (w_class f) (w_weights f)) (w_moded f) m v = moded_doc n (wfun (w_class a) (w_weights a)) (w_moded a) m v.
Proof.
  intros n a m (Ln & Hw & Hwf) Hc.
  destruct (moded_conjugate_correct n _ _ _ _ Hwf Hc (w_polar_c (w_class a) n _ Ln Hw)) as (e & E1 & E2 & E3 & f & F1 & F2 & F3).
  assert (Hi : Forall weight_legal (map invw (w_weights a))) by (apply Forall_map; eapply Forall_impl; [|exact Hw]; exact invw_legal).
  exists (mk_watom (wpair (w_class a)) (map invw (w_weights a)) e). unfold watom_conjugate. rewrite E1. cbn [rbind]. rewrite weights_ok_true by auto. cbn [w_class w_weights w_moded].
  split; [reflexivity|]. split; [reflexivity|]. split; [split; [cbn [w_weights]; rewrite map_length; auto|split; auto]|]. split; [exact E3|].
  exists (mk_watom (w_class a) (w_weights a) f). rewrite F1. cbn [rbind]. rewrite map_inv_inv, weights_ok_true by auto.
  assert (PP : wpair (wpair (w_class a)) = w_class a) by (destruct (w_class a); auto). rewrite PP. cbn [w_class w_weights w_moded].
  split; [reflexivity|]. split; [reflexivity|]. split; [reflexivity|]. split; [split; [auto|split; auto]|]. exact F3.
Qed.
Theorem watom_lagrange_value : forall n a lam x, watom_wf n a (Lagrange lam) -> (exists r, In (Fin r) (w_weights a)) -> length x = n ->
  watom_objective a x true = Ok (moded_doc n (wfun (w_class a) (w_weights a)) (w_moded a) (Lagrange lam) x).
Proof.
  intros n a lam x (Ln & Hw & Hwf) Hr Hx. unfold watom_objective. apply moded_objective_correct; auto.
  intros y Hy. apply w_value; auto. congruence.
Qed.

(** ** What goes wrong *)
Lemma wsup_zero_weight_nan : w_lagrange_prox WSup [Fin 1; Fin 0] [1; 5] 1 2 = Err NaNResult.
Proof.
  unfold w_lagrange_prox. cbn [map]. unfold invw. destruct (Req_EM_T 1 0); [lra|]. destruct (Req_EM_T 0 0); [|lra].
  cbn [masked keepb]. destruct (Req_EM_T (1 / 1) 0); [lra|]. cbn [map fst snd]. unfold find_solution_piecewise_linear, vmul, vsum. cbn [vzip fold_right].
  rewrite Rabs_R1. destruct (Rlt_dec _ _) as [_|C]; [|exfalso; lra]. cbn [rbind cut_all fmul]. destruct (Rlt_dec 0 0); [lra|]. auto.
Qed.
Lemma wsup_zero_weight_answer : is_unique_argmin 2 (prox_objective 1 [1; 5] (gmode (wsup [Fin 1; Fin 0]) (Lagrange 2))) [0; 5].
Proof.
  apply gauge_prox_cert with (r := 0); auto; try lra.
  - simpl. rewrite Rabs_R0, Rmult_0_r, Rmult_0_l. f_equal. unfold Rmax. repeat destruct (Rle_dec _ _); lra.
  - intros v s Lv E. destruct v as [|a [|b [|]]]; try discriminate Lv. simpl in E. injection E as <-. unfold dot, vsub. simpl.
    pose proof (Rle_abs a). pose proof (Rabs_pos a). pose proof (Rmax_l (1 * Rabs a) (Rmax (0 * Rabs b) 0)). lra.
  - unfold dot, vsub. simpl. lra.
Qed.
Lemma wl1_zero_lagrange_nan : forall x, w_lagrange_prox WL1 [PInf] [x] 1 0 = Err NaNResult.
Proof. intros x. unfold w_lagrange_prox. cbn [cut_all fmul]. destruct (Rlt_dec 0 0); [lra|]. auto. Qed.
Lemma wl1_zero_bound_raises : forall x, w_bound_prox WL1 [PInf] [x] 0 = Err IndexError.
Proof. intros x. unfold w_bound_prox. cbn [masked map]. unfold find_solution_piecewise_linear, vmul, vsum. cbn [vzip fold_right]. destruct (Rlt_dec 0 0); [lra|]. auto. Qed.
Lemma wsup_zero_bound_nan : forall x, w_bound_prox WSup [Fin 0] [x] 0 = Err NaNResult.
Proof. intros x. unfold w_bound_prox. cbn [map]. unfold invw. destruct (Req_EM_T 0 0); [|lra]. cbn [clip_all fmul]. destruct (Rlt_dec 0 0); [lra|]. auto. Qed.
(** a weight below the guard of the root finder *)
Lemma wl1_tiny_weight : exists p, w_bound_prox WL1 [Fin (/ 10 ^ 21)] [1] (/ 10 ^ 22) = Ok p /\ ~ gball (wl1 [Fin (/ 10 ^ 21)]) (/ 10 ^ 22) p.
Proof.
  set (e := / 10 ^ 21). assert (E1 : / 10 ^ 20 = 10 * e) by (unfold e; field). assert (E2 : / 10 ^ 22 = e / 10) by (unfold e; field).
  assert (He : 0 < e < 1 / 1000). { unfold e. split; [apply Rinv_0_lt_compat; lra|]. unfold Rdiv. rewrite Rmult_1_l. apply Rinv_lt_contravar; lra. }
  unfold w_bound_prox. rewrite E2. cbn [masked keepb]. destruct (Req_EM_T e 0); [lra|]. cbn [map fst snd]. unfold find_solution_piecewise_linear. rewrite Rabs_R1.
  unfold vmul, vsum. cbn [vzip fold_right]. destruct (Rlt_dec _ _) as [C|_]; [exfalso; lra|].
  cbn [knots_of sort_desc fold_right insert_desc pl_start pl_scan]. rewrite E1, Rmax_right by lra. unfold pl_final.
  destruct (Req_EM_T _ 0) as [C|_]; [exfalso; nra|]. cbn [rbind cut_all rmap]. eexists. split; [reflexivity|].
  unfold gball. cbn [wl1 wterm soft_cut ext_add ext_le]. rewrite Rabs_R1.
  replace (e * ((e / 10 - (- 0 * (1 / (10 * e)) - 1 / (10 * e) * (- 0 - e * e))) / (- 0 - e * e) + 0)) with (0 : R) by (field; lra).
  unfold sgn. destruct (Rlt_dec 0 1); [|lra]. rewrite Rminus_0_r, Rmax_left by lra. rewrite Rmult_1_l, Rabs_R1. lra.
Qed.

(** ** terms *)
Lemma l1_terms_correct : forall w x, length x = length w -> Forall (fun a => 0 <= a) w ->
  wl1 (map Fin w) x = Fin (vsum (l1_terms w x)).
Proof.
  unfold l1_terms, vmul, vabs. induction w as [|c w IH]; intros [|a x] L H; simpl in L; try discriminate; auto.
  cbn [map wl1 wterm vzip]. rewrite IH by (auto; exact (Forall_inv_tail H)). cbn [ext_add]. rewrite vsum_cons. f_equal. ring.
Qed.
Lemma sup_terms_wrong : sup_terms [2] [1] = [Fin (1 / 2)] /\ wsup [Fin 2] [1] = Fin 2.
Proof.
  unfold sup_terms, vabs. cbn [map combine fst snd wsup wterm ext_max]. rewrite Rabs_R1. destruct (Req_EM_T 2 0); [lra|]. split; auto. f_equal. rewrite Rmax_left; lra.
Qed.

(** sparse_group_block.py: the dual norm search, the dual object's values and its terms. *)
From Coq Require Import Reals List Lra Lia Psatz Bool Arith.
From Verif Require Import Vec Spec SpecAtom M_quad M_prox M_semi M_shift M_mode SpecBase SpecMode SpecModed SpecWeighted SpecPart SpecLinear SpecSgl SpecBlock M_sgl M_block SpecBatom M_sgb SpecSgb
  P_quad P_prox P_feas P_semi P_conj P_shift P_gauge P_part P_mixed P_linear P_group P_slope P_sgl P_search P_sgl2 P_sgl3 P_sgl4 P_sgl6 P_block P_block2 P_block3 P_sgb P_sgb2.
From Verif Require P_cones.
Import ListNotations.
Local Open Scope R_scope.

Lemma norm_app_le : forall x y, norm (x ++ y) <= norm x + norm y.
Proof.
  intros x y. pose proof (norm_nonneg x). pose proof (norm_nonneg y). apply Rsqr_incr_0; [|apply norm_nonneg|lra]. unfold Rsqr.
  assert (E : sqn (x ++ y) = sqn x + sqn y) by (unfold sqn, dot, vmul; clear; induction x as [|a x IH]; cbn [app vzip]; [unfold vsum; cbn; ring|]; rewrite !vsum_cons, IH; ring).
  rewrite norm_sq, E, <- !norm_sq. nra.
Qed.
Lemma norm_le_l1 : forall x, norm x <= ell1 x.
Proof.
  induction x as [|a x IH].
  - unfold norm, sqn, dot, vsum, ell1, vsum. cbn. rewrite sqrt_0. lra.
  - change (a :: x) with ([a] ++ x) at 1. eapply Rle_trans; [apply norm_app_le|]. unfold ell1 in *. cbn [map]. rewrite vsum_cons. apply Rplus_le_compat; auto.
    unfold norm, sqn, dot, vmul, vsum. cbn [vzip fold_right]. rewrite Rplus_0_r. fold (Rsqr a). rewrite sqrt_Rsqr_abs. lra.
Qed.
Lemma norm_le_rows : forall l : list vec, norm (concat l) <= vsum (map ell2 l).
Proof.
  induction l as [|y l IH]; cbn [concat map].
  - unfold norm, sqn, dot, vsum. cbn. rewrite sqrt_0. lra.
  - rewrite vsum_cons, ell2_norm. eapply Rle_trans; [apply norm_app_le|]. lra.
Qed.
Lemma block_radius : forall r c l1 l2 v s, 0 <= l1 -> 0 <= l2 -> length v = (r * c)%nat -> sparse_block r c l1 l2 v = Fin s -> (l1 + l2) * norm v <= s.
Proof.
  intros r c l1 l2 v s H1 H2 Lv E. injection E as <-. pose proof (norm_le_l1 v). pose proof (norm_le_rows (rows r c v)) as N. rewrite concat_rows in N by auto. nra.
Qed.

Section Gauge.
Variables (r c : nat) (l1 l2 : R).
Hypothesis H1 : 0 <= l1.
Hypothesis H2 : 0 <= l2.
Let n := (r * c)%nat.
Let P := sparse_block r c l1 l2.
Let G : gauge n P. Proof. apply block_gauge; auto. Qed.
Theorem block_norm_exists : forall x, length x = n -> 0 < l1 + l2 -> exists D, is_dual_norm n P x D.
Proof.
  intros x Lx Hp. apply dual_norm_exists with (b0 := norm x / (l1 + l2)); [apply (ga_nonneg _ _ G)|apply Rmult_le_pos; [apply norm_nonneg|left; apply Rinv_0_lt_compat; auto]|].
  intros v s Lv Ev. pose proof (block_radius r c l1 l2 v s H1 H2 Lv Ev) as B. pose proof (cauchy_schwarz x v ltac:(congruence)) as CS. pose proof (Rle_abs (dot x v)).
  assert (norm x * norm v <= norm x / (l1 + l2) * s); [|lra].
  replace (norm x * norm v) with (norm x / (l1 + l2) * ((l1 + l2) * norm v)) by (field; lra). apply Rmult_le_compat_l; auto. apply Rmult_le_pos; [apply norm_nonneg|left; apply Rinv_0_lt_compat; auto].
Qed.
Theorem block_gauge_terminates : forall x fuel, (20 < fuel)%nat -> exists e, sgb_gauge r c l1 l2 x fuel = Ok e.
Proof.
  intros x fuel Hf. destruct (search_ok (fun t => Ok (sgb_inside r c l1 l2 x t)) (fun t => sgb_inside r c l1 l2 x t) (/ 10 ^ 6)) with (k := 50%nat) (n := 20%nat) (fuel := fuel) as (e & E & _); auto; try lia; try lra. exists e. exact E.
Qed.
Theorem block_gauge_accurate : forall x D fuel, length x = n -> (20 < fuel)%nat -> is_dual_norm n P x D -> 0 < l1 + l2 ->
  exists e, sgb_gauge r c l1 l2 x fuel = Ok e /\
    match e with
    | PInf => 2 ^ 50 < D
    | Fin m => (m = 0 /\ D <= (1 / 2) ^ 50 + / 10 ^ 10 * Rmax (norm x) 1 / (l1 + l2)) \/
               (0 < m /\ (1 - / 10 ^ 6) * m < D /\ D <= (1 + 2 * / 10 ^ 6) * m + / 10 ^ 10 * Rmax (norm x) 1 / (l1 + l2))
    end.
Proof.
  intros x D fuel Lx Hf HD Hp. set (f := fun t => sgb_inside r c l1 l2 x t).
  assert (Hq : forall t, 0 < t -> exists q, pcert n P t x q /\ (f t = true <-> norm q <= / 10 ^ 10 * Rmax (norm x) 1)).
  { intros t Ht. exists (sgb_prox r c x (t * l1) (t * l2)). split; [apply sgb_pcert; auto; lra|]. unfold f, sgb_inside. destruct (Rlt_dec _ _); split; intros; auto; try discriminate; lra. }
  assert (HE : forall t, 0 < t -> 0 < / 10 ^ 10 * Rmax (norm x) 1) by (intros t Ht; apply Rmult_lt_0_compat; [lra|]; pose proof (Rmax_r (norm x) 1); lra).
  pose proof (reject_below n P x D (ga_nonneg _ _ G) Lx HD f _ HE Hq) as RB.
  pose proof (fun t H => accept_above n P x D Lx HD f _ Hq t (l1 + l2) H Hp (fun v s L E => block_radius r c l1 l2 v s H1 H2 L E)) as AA.
  destruct (search_ok (fun t => Ok (f t)) f (/ 10 ^ 6)) with (k := 50%nat) (n := 20%nat) (fuel := fuel) as (e & E & He); auto; try lia; try lra.
  exists e. split; [exact E|]. destruct e as [m|].
  - destruct He as [[-> H]|(lo & hi & (B1 & B2 & B3 & B4 & B5) & K1 & K2 & _)].
    + left. split; auto. apply AA; auto. apply pow_lt. lra.
    + right. split; [lra|]. specialize (RB lo ltac:(lra) B2). specialize (AA hi ltac:(lra) B3).
      assert (W : (1 - / 10 ^ 6) * hi <= lo) by lra. split; [nra|].
      assert (HI : hi <= (1 + 2 * / 10 ^ 6) * m) by lra. lra.
  - apply RB; auto. apply pow_lt. lra.
Qed.
(** The slack is absolute: points of norm at most 1e-10 are inside every ball *)
Theorem block_gauge_small : forall x fuel, length x = n -> (20 < fuel)%nat -> norm x <= / 10 ^ 10 -> sgb_gauge r c l1 l2 x fuel = Ok (Fin 0).
Proof.
  intros x fuel Lx Hf Hs. set (f := fun t => sgb_inside r c l1 l2 x t).
  assert (F : forall t, 0 < t -> f t = true).
  { intros t Ht. unfold f, sgb_inside. pose proof (sgb_pcert r c l1 l2 H1 H2 x t Lx ltac:(lra)) as C. pose proof (resid_le n P x (ga_nonneg _ _ G) Lx t _ ltac:(lra) C).
    pose proof (Rmax_r (norm x) 1). destruct (Rlt_dec _ _); auto. exfalso. lra. }
  destruct (search_ok (fun t => Ok (f t)) f (/ 10 ^ 6)) with (k := 50%nat) (n := 20%nat) (fuel := fuel) as (e & E & He); auto; try lia; try lra.
  unfold sgb_gauge. unfold f in E. rewrite E. destruct e as [m|].
  - destruct He as [[-> _]|(lo & hi & (B1 & B2 & _) & _)]; auto. rewrite F in B2 by lra. discriminate.
  - rewrite F in He by (apply pow_lt; lra). discriminate.
Qed.
End Gauge.

(** ** The dual object *)
Theorem sgb_dual_feasible : forall a b x D fuel, sb_dual a = true -> 0 <= sb_l1 a -> 0 <= sb_l2 a -> 0 < sb_l1 a + sb_l2 a -> 0 <= b -> (20 < fuel)%nat -> length x = (sb_r a * sb_c a)%nat ->
  is_dual_norm (sb_r a * sb_c a) (bpen a) x D ->
  (D <= b -> D <= 2 ^ 50 -> sgb_constraint a fuel x b = Ok (Fin 0)) /\
  (sgb_constraint a fuel x b = Ok (Fin 0) -> D <= (1 + 2 * / 10 ^ 5) * b + (1 / 2) ^ 50 + / 10 ^ 10 * Rmax (norm x) 1 / (sb_l1 a + sb_l2 a)) /\
  (sgb_constraint a fuel x b = Ok (Fin 0) \/ sgb_constraint a fuel x b = Ok PInf).
Proof.
  intros a b x D fuel Ed H1 H2 Hp Hb Hf Lx HD. destruct (block_gauge_accurate (sb_r a) (sb_c a) (sb_l1 a) (sb_l2 a) H1 H2 x D fuel Lx Hf HD Hp) as (e & E & He).
  unfold sgb_constraint. rewrite Ed, E. cbn [rmap rbind]. assert (P50 : 0 < (1 / 2) ^ 50) by (apply pow_lt; lra).
  set (sl := / 10 ^ 10 * Rmax (norm x) 1 / (sb_l1 a + sb_l2 a)) in *. clearbody sl. set (q := (1 / 2) ^ 50) in *. clearbody q. set (w := 2 ^ 50) in *. clearbody w.
  assert (T : tol = / 10 ^ 5) by reflexivity.
  destruct e as [m|].
  - unfold rleb. destruct (Rle_dec m (b * (1 + tol))) as [L|L]; cbn [ok_or_inf].
    + split; [auto|]. split; [|auto]. intros _. destruct He as [[-> He]|(M1 & M2 & M3)]; [nra|]. rewrite T in L. nra.
    + split; [|split; [discriminate|auto]]. intros LD _. exfalso. apply L. rewrite T. destruct He as [[-> He]|(M1 & M2 & M3)]; nra.
  - split; [intros; exfalso; lra|]. split; [discriminate|auto].
Qed.
Theorem sgb_dual_value : forall n a lam x fuel chk, sgb_wf n a (Lagrange lam) -> sb_dual a = true -> length x = n -> (20 < fuel)%nat ->
  exists g, (forall y, sgb_gauge (sb_r a) (sb_c a) (sb_l1 a) (sb_l2 a) y fuel = Ok (g y)) /\
    sgb_objective a fuel x chk = Ok (base_doc n (fun y => ext_scale lam (g y)) (m_base (sb_moded a)) x).
Proof.
  intros n a lam x fuel chk (En & H1 & H2 & (El & Eb & Hm & Hwf) & _) Ed Lx Hf.
  exists (fun y => match sgb_gauge (sb_r a) (sb_c a) (sb_l1 a) (sb_l2 a) y fuel with Ok e => e | Err _ => PInf end).
  assert (K : forall y, sgb_gauge (sb_r a) (sb_c a) (sb_l1 a) (sb_l2 a) y fuel = Ok (match sgb_gauge (sb_r a) (sb_c a) (sb_l1 a) (sb_l2 a) y fuel with Ok e => e | Err _ => PInf end)).
  { intros y. destruct (block_gauge_terminates (sb_r a) (sb_c a) (sb_l1 a) (sb_l2 a) y fuel Hf) as (e & ->). auto. }
  split; auto. unfold sgb_objective, moded_objective. rewrite Eb, El. cbn [bnd_of lag_of need rbind]. apply shifted_objective_correct; auto.
  intros y Ly. unfold sgb_seminorm. rewrite Ed, K. cbn [rmap rbind]. destruct (block_gauge_terminates (sb_r a) (sb_c a) (sb_l1 a) (sb_l2 a) y fuel Hf) as (e & ->). destruct e; auto.
Qed.
Theorem block_gauge_wrong : is_dual_norm 1 (sparse_block 1 1 (/ 10 ^ 11) (/ 10 ^ 11)) [/ 10 ^ 10] 5 /\
  forall fuel, (20 < fuel)%nat -> sgb_gauge 1 1 (/ 10 ^ 11) (/ 10 ^ 11) [/ 10 ^ 10] fuel = Ok (Fin 0).
Proof.
  assert (V : forall w, 0 <= w -> norm [w] = w) by (intros w Hw; unfold norm, sqn, dot, vmul, vsum; cbn [vzip fold_right]; rewrite Rplus_0_r; apply sqrt_square; auto).
  assert (EV : forall v, sparse_block 1 1 (/ 10 ^ 11) (/ 10 ^ 11) [v] = Fin (2 * / 10 ^ 11 * Rabs v)).
  { intros v. unfold sparse_block. cbn [rows firstn skipn map]. unfold ell1, ell2. cbn [map]. unfold vsum. cbn [fold_right]. f_equal. rewrite !Rplus_0_r. fold (Rsqr v). rewrite sqrt_Rsqr_abs. ring. }
  assert (DV : forall u v, dot [u] [v] = u * v) by (intros; unfold dot, vmul, vsum; cbn [vzip fold_right]; ring).
  split.
  - split; [lra|]. split.
    + intros v s Lv Ev. destruct v as [|v [|]]; try discriminate. rewrite EV in Ev. injection Ev as <-. rewrite DV. pose proof (Rle_abs v). lra.
    + intros b Hb HB. specialize (HB [1] _ eq_refl (EV 1)). rewrite DV, Rabs_R1 in HB. lra.
  - intros fuel Hf. apply block_gauge_small; auto; try lra. rewrite V; lra.
Qed.

(** ** The dual's terms *)
Lemma one_group_row : forall c l1 l2 y, length y = c -> one_group (repeat l1 c) l2 y = row_pen l1 l2 y.
Proof.
  intros c l1 l2 y <-. rewrite one_group_value. unfold one_value, row_pen, ell1. cbn [ext_add]. rewrite ell2_norm. do 2 f_equal.
  induction y as [|a y IH]; cbn [length repeat map]; [unfold vsum; cbn; ring|]. unfold vmul in *. cbn [vzip]. rewrite !vsum_cons, IH. ring.
Qed.
(** A matrix is in the dual ball when all its rows are in the rows' *)
Lemma rows_ball : forall r c l1 l2 x b, 0 <= l1 -> 0 <= l2 -> length x = (r * c)%nat -> (dual_ball (r * c) (sparse_block r c l1 l2) b x <-> Forall (dual_ball c (row_pen l1 l2) b) (rows r c x)).
Proof.
  intros r c l1 l2 x b H1 H2 Lx. split.
  - intros H. revert x Lx H. induction r as [|r IH]; intros x Lx H; cbn [rows]; constructor.
    + intros v s Lv Ev. specialize (H (v ++ zeros (r * c)) s). assert (L1 : length (firstn c x) = c) by (rewrite firstn_length, Lx; simpl; lia).
      assert (Z : sparse_block r c l1 l2 (zeros (r * c)) = Fin 0) by (apply (ga_zero _ _ (block_gauge r c l1 l2 H1 H2))).
      rewrite <- (firstn_skipn c x) in H at 1. rewrite P_cones.dot_app in H by congruence. rewrite dot_zeros_r, Rplus_0_r in H. apply H; [rewrite app_length, zeros_length; simpl; lia|].
      rewrite bpen_rows by (rewrite app_length, zeros_length; simpl; lia). unfold row_sum. cbn [rows]. rewrite <- Lv, firstn_app, firstn_all, Nat.sub_diag, skipn_app, skipn_all, Nat.sub_diag. cbn [firstn skipn app]. rewrite app_nil_r.
      unfold ext_sum. cbn [map fold_right]. fold (ext_sum (map (row_pen l1 l2) (rows r (length v) (zeros (r * length v))))). fold (row_sum (row_pen l1 l2) r (length v) (zeros (r * length v))).
      rewrite <- bpen_rows by apply zeros_length. rewrite Lv, Z, Ev. cbn. f_equal. ring.
    + apply IH; [rewrite skipn_length, Lx; simpl; lia|]. intros v s Lv Ev. specialize (H (zeros c ++ v) s). assert (L1 : length (firstn c x) = c) by (rewrite firstn_length, Lx; simpl; lia).
      rewrite <- (firstn_skipn c x) in H at 1. rewrite P_cones.dot_app in H by (rewrite zeros_length; auto). rewrite dot_zeros_r, Rplus_0_l in H. apply H; [rewrite app_length, zeros_length; simpl; lia|].
      rewrite bpen_rows in * by (auto; rewrite app_length, zeros_length; simpl; lia). unfold row_sum in *. cbn [rows].
      assert (F1 : firstn c (zeros c ++ v) = zeros c) by (rewrite <- (zeros_length c) at 1; rewrite firstn_app, firstn_all, Nat.sub_diag; cbn [firstn]; apply app_nil_r).
      assert (F2 : skipn c (zeros c ++ v) = v) by (rewrite <- (zeros_length c) at 1; rewrite skipn_app, skipn_all, Nat.sub_diag; auto).
      rewrite F1, F2. unfold ext_sum in *. cbn [map fold_right]. rewrite Ev. unfold row_pen. cbn [ext_add]. f_equal. rewrite ell2_norm, norm_zeros.
      assert (E1 : ell1 (zeros c) = 0) by (unfold ell1, zeros; clear; induction c; cbn [repeat map]; auto; rewrite vsum_cons, IHc, Rabs_R0; ring). rewrite E1. ring.
  - intros H v s Lv Ev. rewrite bpen_rows in Ev by auto. unfold row_sum in Ev. revert x v s Lx Lv H Ev. induction r as [|r IH]; intros x v s Lx Lv H Ev; cbn [rows map] in *.
    + destruct x; [|discriminate]. destruct v; [|discriminate]. injection Ev as <-. unfold dot, vsum. cbn. lra.
    + inversion H as [|? ? A B]; subst. unfold ext_sum in Ev. cbn [fold_right] in Ev. fold (ext_sum (map (row_pen l1 l2) (rows r c (skipn c v)))) in Ev.
      destruct (ext_sum (map (row_pen l1 l2) (rows r c (skipn c v)))) as [s2|] eqn:E2; [|discriminate]. unfold row_pen in Ev at 1. cbn [ext_add] in Ev. injection Ev as <-.
      assert (L1 : length (firstn c x) = c) by (rewrite firstn_length, Lx; simpl; lia). assert (L2 : length (firstn c v) = c) by (rewrite firstn_length, Lv; simpl; lia).
      specialize (IH (skipn c x) (skipn c v) s2 ltac:(rewrite skipn_length, Lx; simpl; lia) ltac:(rewrite skipn_length, Lv; simpl; lia) B E2).
      specialize (A (firstn c v) _ L2 eq_refl). rewrite <- (firstn_skipn c x), <- (firstn_skipn c v) at 1. rewrite P_cones.dot_app by congruence. rewrite Rmult_plus_distr_l. apply Rplus_le_compat; auto.
Qed.
Theorem block_norm_max : forall r c l1 l2 x D (d : nat -> R), 0 <= l1 -> 0 <= l2 -> (0 < r)%nat -> length x = (r * c)%nat ->
  (forall i, (i < r)%nat -> is_dual_norm c (one_group (repeat l1 c) l2) (nth i (rows r c x) []) (d i)) ->
  (is_dual_norm (r * c) (sparse_block r c l1 l2) x D <-> (exists i, (i < r)%nat /\ D = d i) /\ forall i, (i < r)%nat -> d i <= D).
Proof.
  intros r c l1 l2 x D d H1 H2 Hr Lx Hd. pose proof (rows_lengths r c x Lx) as RL. pose proof (rows_length r c x) as RN.
  assert (PN : forall v s, length v = c -> one_group (repeat l1 c) l2 v = Fin s -> 0 <= s).
  { intros v s Lv Ev. rewrite one_group_row in Ev by auto. injection Ev as <-. pose proof (norm_le_l1 v). pose proof (norm_nonneg v). rewrite ell2_norm. nra. }
  assert (IFF : forall b, 0 <= b -> (dual_ball (r * c) (sparse_block r c l1 l2) b x <-> forall i, (i < r)%nat -> d i <= b)).
  { intros b Hb. rewrite rows_ball by auto. rewrite Forall_forall. split.
    - intros H i Hi. apply (norm_iff c _ _ (d i) b PN (Hd i Hi) Hb). intros v s Lv Ev. rewrite one_group_row in Ev by auto. apply (H (nth i (rows r c x) [])); auto. apply nth_In. lia.
    - intros H y Hy. destruct (In_nth _ _ [] Hy) as (i & Hi0 & <-). assert (Hi : (i < r)%nat) by (rewrite <- RN; exact Hi0). intros v s Lv Ev. rewrite <- one_group_row with (c := c) in Ev by auto.
      exact (proj1 (norm_iff c _ _ (d i) b PN (Hd i Hi) Hb) (H i Hi) v s Lv Ev). }
  split.
  - intros (A & B & C). assert (U : forall i, (i < r)%nat -> d i <= D) by (apply IFF; auto). split; auto.
    assert (M : exists i, (i < r)%nat /\ forall j, (j < r)%nat -> d j <= d i).
    { clear - Hr. destruct r as [|r]; [lia|]. clear Hr. induction r as [|r IH].
      - exists 0%nat. split; [lia|]. intros j Hj. assert (j = 0)%nat by lia. subst. lra.
      - destruct IH as (i & Hi & H). destruct (Rle_dec (d i) (d (Datatypes.S r))) as [L|L].
        + exists (Datatypes.S r). split; [lia|]. intros j Hj. destruct (Nat.eq_dec j (Datatypes.S r)) as [->|]; [lra|]. specialize (H j ltac:(lia)). lra.
        + exists i. split; [lia|]. intros j Hj. destruct (Nat.eq_dec j (Datatypes.S r)) as [->|]; [lra|]. apply H. lia. }
    destruct M as (i & Hi & H). exists i. split; auto. apply Rle_antisym; auto. apply C; [apply (Hd i Hi)|]. apply IFF; auto. apply (Hd i Hi).
  - intros ((i & Hi & ->) & U). split; [apply (Hd i Hi)|]. split; [apply IFF; auto; apply (Hd i Hi)|]. intros b Hb HB. apply (proj1 (IFF b Hb)); auto.
Qed.
Theorem sgb_dual_terms_correct : forall a x fuel, 0 <= sb_l1 a -> 0 <= sb_l2 a -> length x = (sb_r a * sb_c a)%nat -> (20 < fuel)%nat ->
  length (sgb_dual_terms a fuel x) = sb_r a /\
  forall i D, (i < sb_r a)%nat -> is_dual_norm (sb_c a) (one_group (repeat (sb_l1 a) (sb_c a)) (sb_l2 a + / 10 ^ 5)) (nth i (rows (sb_r a) (sb_c a) x) []) D ->
    exists e, nth i (sgb_dual_terms a fuel x) (Err OutOfFuel) = Ok e /\
      match e with PInf => 2 ^ 50 < D | Fin m => m = 0 /\ D <= (1 / 2) ^ 50 \/ Rabs (m - D) <= / 10 ^ 6 * (1 + / 10 ^ 6) * D end.
Proof.
  intros a x fuel H1 H2 Lx Hf. unfold sgb_dual_terms. split; [rewrite map_length; apply rows_length|]. intros i D Hi HD.
  set (f := fun row => rmap fst (gauge_function_dual_strong row (repeat (sb_l1 a) (sb_c a)) (sb_l2 a) fuel)).
  rewrite nth_indep with (d' := f []) by (rewrite map_length, rows_length; auto). rewrite map_nth. set (y := nth i (rows (sb_r a) (sb_c a) x) []) in *.
  assert (Ly : length y = sb_c a). { pose proof (rows_lengths _ _ x Lx) as F. rewrite Forall_forall in F. apply F. apply nth_In. rewrite rows_length. auto. }
  destruct (strong_accurate y (repeat (sb_l1 a) (sb_c a)) (sb_l2 a) D fuel) as (e & o & E & He); auto.
  - rewrite repeat_length. auto.
  - apply Forall_forall. intros z Hz. apply repeat_spec in Hz. subst z. auto.
  - rewrite Ly. auto.
  - exists e. unfold f. rewrite E. cbn [rmap rbind fst]. split; auto. destruct e as [m|]; [|tauto]. destruct He as [(-> & He & _)|(_ & He & _)]; auto.
Qed.

(** Percentiles and choose_tuning_parameter. *)
From Coq Require Import Reals List Lra Lia Arith ZArith Permutation Sorted.
From Verif Require Import Vec Spec M_quad M_slope M_multi SpecIso SpecMulti P_slope P_multi P_multi2 P_multi3 P_multi4 M_tuning SpecTuning.
Import ListNotations.
Local Open Scope R_scope.

Lemma filter_le_len : forall (f g : R -> bool) V, (forall a, In a V -> f a = true -> g a = true) -> (length (filter f V) <= length (filter g V))%nat.
Proof.
  intros f g. induction V as [|a V IH]; intros H; cbn; [lia|]. assert (L := IH (fun b Hb => H b (or_intror Hb))). assert (Ha := H a (or_introl eq_refl)).
  destruct (f a); [rewrite Ha by auto; cbn; lia|]. destruct (g a); cbn; lia.
Qed.
Lemma filter_perm : forall (f : R -> bool) V W, Permutation V W -> length (filter f V) = length (filter f W).
Proof. intros f V W P. induction P as [|a V W P IH|a b V|V W U P1 IH1 P2 IH2]; cbn; auto; [destruct (f a); cbn; auto|destruct (f a), (f b); auto|congruence]. Qed.
Lemma le_lt : forall x y V, x < y -> (count_le x V <= count_lt y V)%nat.
Proof. intros x y V H. apply filter_le_len. intros a _. destruct (Rle_dec a x); [|discriminate]. destruct (Rlt_dec a y); auto. lra. Qed.
Lemma le_le : forall x y V, x <= y -> (count_le x V <= count_le y V)%nat.
Proof. intros x y V H. apply filter_le_len. intros a _. destruct (Rle_dec a x); [|discriminate]. destruct (Rle_dec a y); auto. lra. Qed.
Lemma lt_lt : forall x y V, x <= y -> (count_lt x V <= count_lt y V)%nat.
Proof. intros x y V H. apply filter_le_len. intros a _. destruct (Rlt_dec a x); [|discriminate]. destruct (Rlt_dec a y); auto. lra. Qed.
Lemma lt_ge : forall x V, (count_lt x V + count_ge x V = length V)%nat.
Proof. intros x V. unfold count_lt, count_ge. induction V as [|a V IH]; auto. cbn. destruct (Rlt_dec a x), (Rle_dec x a); cbn; try lra; lia. Qed.
Lemma kth_mono : forall i j V x y, is_kth i V x -> is_kth j V y -> (i <= j)%nat -> x <= y.
Proof. intros i j V x y (_ & A) (_ & B) H. destruct (Rle_lt_dec x y) as [|L]; auto. exfalso. assert (K := le_lt y x V L). lia. Qed.
Lemma kth_unique : forall i V x y, is_kth i V x -> is_kth i V y -> x = y.
Proof. intros i V x y A B. apply Rle_antisym; eapply kth_mono; eauto. Qed.

Lemma sorted_count : forall s k, nondecreasing s -> (k < length s)%nat -> (count_lt (nth k s 0%R) s <= k < count_le (nth k s 0%R) s)%nat.
Proof.
  induction s as [|a s IH]; intros k S Hk; [cbn in Hk; lia|]. assert (H := nondecreasing_hd _ _ S). assert (S' := nondecreasing_tail _ _ S). destruct k as [|k].
  - cbn [nth]. unfold count_lt, count_le. cbn [filter]. destruct (Rlt_dec a a) as [C|_]; [lra|]. destruct (Rle_dec a a) as [_|C]; [|lra].
    assert (E : filter (fun b => if Rlt_dec b a then true else false) s = []).
    { clear -H. induction s as [|b s IH]; auto. cbn. inversion H; subst. destruct (Rlt_dec b a); [lra|]. auto. }
    rewrite E. cbn. lia.
  - cbn [nth]. cbn in Hk. destruct (IH k S' ltac:(lia)) as [A B]. unfold count_lt, count_le in *. cbn [filter].
    assert (Ha : a <= nth k s 0) by (rewrite Forall_forall in H; apply H; apply nth_In; lia).
    destruct (Rle_dec a (nth k s 0)) as [_|C]; [|lra]. destruct (Rlt_dec a (nth k s 0)); cbn [length]; lia.
Qed.
Lemma sorted_kth : forall V k, (k < length V)%nat -> is_kth k V (nth k (np_sort V) 0).
Proof.
  intros V k Hk. assert (P := np_sort_perm V). assert (L := np_sort_length V). split; [apply (Permutation_in _ (Permutation_sym P)); apply nth_In; rewrite L; auto|].
  assert (C := sorted_count (np_sort V) k (np_sort_sorted V) ltac:(rewrite L; auto)). unfold count_lt, count_le in *. rewrite !(filter_perm _ _ _ P). exact C.
Qed.
Lemma percentile_unique : forall V q v w, is_percentile V q v -> is_percentile V q w -> v = w.
Proof.
  intros V q v w (k & f & a & b & E & F & A & B & ->) (k' & f' & a' & b' & E' & F' & A' & B' & ->).
  assert (k = k') as <-. { apply Nat.le_antisymm; apply Nat.lt_succ_r; apply INR_lt; rewrite S_INR; lra. }
  assert (f = f') as <- by lra. rewrite (kth_unique _ _ _ _ A A'). destruct B as [->|B]; [ring|]. destruct B' as [->|B']; [ring|]. rewrite (kth_unique _ _ _ _ B B'). reflexivity.
Qed.
Lemma percentile_mono : forall V q q' v w, q <= q' -> is_percentile V q v -> is_percentile V q' w -> v <= w.
Proof.
  intros V q q' v w Hq (k & f & a & b & E & F & A & B & ->) (k' & f' & a' & b' & E' & F' & A' & B' & ->).
  assert (Hh : q * INR (length V - 1) <= q' * INR (length V - 1)) by (apply Rmult_le_compat_r; [apply pos_INR|lra]).
  assert (Kk : (k <= k')%nat). { apply Nat.lt_succ_r. apply INR_lt. rewrite S_INR. lra. }
  assert (Ab : f = 0 \/ a <= b) by (destruct B as [->|B]; [auto|right; eapply kth_mono; eauto; lia]).
  assert (Ab' : f' = 0 \/ a' <= b') by (destruct B' as [->|B']; [auto|right; eapply kth_mono; eauto; lia]).
  assert (Lw : a' <= (1 - f') * a' + f' * b') by (destruct Ab' as [->|]; [lra|]; assert (0 <= f' * (b' - a')) by (apply Rmult_le_pos; lra); lra).
  destruct (Nat.eq_dec k k') as [<-|Nq].
  - assert (a = a') as <- by (eapply kth_unique; eauto). destruct B as [->|B]; [lra|]. destruct B' as [->|B']; [assert (f = 0) by lra; subst f; lra|].
    assert (b = b') as <- by (eapply kth_unique; eauto). assert (0 <= (f' - f) * (b - a)) by (apply Rmult_le_pos; [lra|]; destruct Ab as [->|]; [|lra]; destruct (Req_dec f' 0); [|destruct Ab'; lra]; assert (a <= b) by (eapply kth_mono; eauto; lia); lra). lra.
  - assert (Up : (1 - f) * a + f * b <= a'). { destruct B as [->|B]; [assert (a <= a') by (eapply kth_mono; eauto); lra|]. assert (b <= a') by (eapply kth_mono; eauto; lia). assert (a <= a') by (eapply kth_mono; eauto).
      assert (0 <= (1 - f) * (a' - a)) by (apply Rmult_le_pos; lra). assert (0 <= f * (a' - b)) by (apply Rmult_le_pos; lra). lra. }
    lra.
Qed.
Lemma percentile_share : forall V q v, is_percentile V q v -> q * INR (length V - 1) < INR (count_le v V) /\ (1 - q) * INR (length V - 1) <= INR (count_ge v V).
Proof.
  intros V q v (k & f & a & b & E & F & A & B & ->). assert (Ab : f = 0 \/ a <= b) by (destruct B as [->|B]; [auto|right; eapply kth_mono; eauto; lia]).
  assert (Lw : a <= (1 - f) * a + f * b) by (destruct Ab as [->|]; [lra|]; assert (0 <= f * (b - a)) by (apply Rmult_le_pos; lra); lra). set (v := (1 - f) * a + f * b) in *. split.
  - assert (K : (k + 1 <= count_le v V)%nat) by (assert (C := le_le a v V Lw); destruct A; lia). apply le_INR in K. rewrite plus_INR in K. cbn in K. lra.
  - assert (G := lt_ge v V). assert (Lv : (1 <= length V)%nat) by (destruct A as [A _]; destruct V; [destruct A|cbn; lia]).
    assert (Gi : INR (count_lt v V) + INR (count_ge v V) = INR (length V - 1) + 1). { rewrite <- plus_INR, G. replace (length V) with (length V - 1 + 1)%nat at 1 by lia. rewrite plus_INR. reflexivity. }
    destruct B as [->|B].
    + assert (v = a) by (unfold v; ring). assert (K : (count_lt v V <= k)%nat) by (rewrite H; apply A). apply le_INR in K. lra.
    + assert (v <= b) by (unfold v; destruct Ab as [->|]; [assert (a <= b) by (eapply kth_mono; eauto; lia); lra|]; assert (0 <= (1 - f) * (b - a)) by (apply Rmult_le_pos; lra); lra).
      assert (K : (count_lt v V <= S k)%nat) by (assert (C := lt_lt v b V H); destruct B; lia). apply le_INR in K. rewrite S_INR in K. lra.
Qed.
Lemma nodup_count : forall x V, NoDup V -> (count_le x V <= count_lt x V + 1)%nat.
Proof.
  intros x V N. unfold count_le, count_lt. induction N as [|a V Na N IH]; cbn; [lia|]. destruct (Rle_dec a x) as [C|C], (Rlt_dec a x) as [D|D]; cbn [length]; try lra; try lia.
  assert (a = x) as -> by lra. assert (E : length (filter (fun b => if Rle_dec b x then true else false) V) = length (filter (fun b => if Rlt_dec b x then true else false) V)).
  { clear -Na. induction V as [|b V IH]; auto. cbn. assert (b <> x) by (intros ->; apply Na; left; auto). assert (IH' := IH (fun H => Na (or_intror H))). destruct (Rle_dec b x), (Rlt_dec b x); cbn; try lra; congruence. }
  lia.
Qed.
Lemma percentile_short : forall V q v, NoDup V -> (2 <= length V)%nat -> INR (length V - 1) < q * INR (length V) -> q < 1 -> is_percentile V q v -> INR (count_le v V) < q * INR (length V).
Proof.
  intros V q v N Ln Hq H1 (k & f & a & b & E & F & A & B & ->). set (n := length V) in *.
  assert (Tn : 0 < INR (n - 1)) by (apply lt_0_INR; lia).
  assert (Kn : (k < n - 1)%nat). { apply INR_lt. assert (q * INR (n - 1) < 1 * INR (n - 1)) by (apply Rmult_lt_compat_r; lra). lra. }
  assert (M := sorted_kth V (n - 1) ltac:(lia)). set (m := nth (n - 1) (np_sort V) 0) in *.
  assert (Am : a < m). { assert (Le : a <= m) by (eapply kth_mono; eauto; lia). destruct Le as [|Eq]; auto. exfalso. destruct A as [_ A]. destruct M as [_ M]. rewrite <- Eq in M. assert (C := nodup_count a V N). lia. }
  assert (Vm : (1 - f) * a + f * b < m). { destruct B as [->|B]; [lra|]. assert (b <= m) by (eapply kth_mono; eauto; lia). assert (0 < (1 - f) * (m - a)) by (apply Rmult_lt_0_compat; lra). assert (0 <= f * (m - b)) by (apply Rmult_le_pos; lra). lra. }
  assert (C := le_lt _ _ V Vm). destruct M as [_ [M _]]. assert (K : (count_le ((1 - f) * a + f * b) V <= n - 1)%nat) by lia. apply le_INR in K. lra.
Qed.
Lemma np_percentile_value : forall V q, V <> [] -> 0 <= q <= 1 -> exists v, np_percentile V q = Ok v /\ is_percentile V q v.
Proof.
  intros V q N Hq. unfold np_percentile. destruct (Rlt_dec q 0); [lra|]. destruct (Rlt_dec 1 q); [lra|]. destruct V as [|a0 V0]; [congruence|]. set (V := a0 :: V0) in *. eexists. split; [reflexivity|].
  assert (Lv : (1 <= length V)%nat) by (cbn; lia). set (top := (length V - 1)%nat) in *. set (at_ := INR top * q). assert (Pt := pos_INR top).
  assert (H0 : 0 <= at_) by (apply Rmult_le_pos; lra). assert (H1 : at_ <= INR top) by (unfold at_; rewrite <- (Rmult_1_r (INR top)) at 2; apply Rmult_le_compat_l; lra).
  destruct (base_Int_part at_) as [I1 I2]. assert (Iz : (0 <= Int_part at_)%Z). { apply le_IZR. assert (-1 < Int_part at_)%Z by (apply lt_IZR; lra). apply IZR_le. lia. }
  set (lo := Z.to_nat (Int_part at_)). assert (El : INR lo = IZR (Int_part at_)) by (unfold lo; rewrite INR_IZR_INZ, Z2Nat.id by auto; reflexivity).
  assert (Ll : (lo <= top)%nat) by (apply INR_le; lra).
  exists lo, (at_ - INR lo), (nth lo (np_sort V) 0), (nth (Nat.min (lo + 1) top) (np_sort V) 0). split; [fold top; unfold at_; ring|]. split; [lra|]. split; [apply sorted_kth; lia|]. split; [|ring].
  destruct (Nat.eq_dec lo top) as [Eq|Nq]; [left; rewrite Eq in *; lra|]. right. rewrite Nat.min_l by lia. rewrite Nat.add_1_r. apply sorted_kth. lia.
Qed.
Lemma np_percentile_perm : forall V W q, Permutation V W -> np_percentile V q = np_percentile W q.
Proof.
  intros V W q P. assert (E : np_sort V = np_sort W) by (apply np_sort_unique; [apply np_sort_sorted|]; eapply Permutation_trans; [exact P|apply np_sort_perm]). assert (L := Permutation_length P).
  unfold np_percentile. destruct V, W; try discriminate; auto. rewrite E, L. reflexivity.
Qed.

(** ** The loop *)
Lemma smuce_keeps : forall M z sg, ms_p (fst (smuce M z sg)) = ms_p M /\ ms_slices (fst (smuce M z sg)) = ms_slices M /\ ms_sizes (fst (smuce M z sg)) = ms_sizes M.
Proof. intros. cbn. auto. Qed.
Lemma draws_value : forall draws M, ms_ok M -> ms_slices M <> [] -> Forall (good_draw M) draws ->
  exists V, snd (draw_stats M draws) = Ok V /\ Forall2 (largest_stat (ms_slices M)) draws V.
Proof.
  induction draws as [|z draws IH]; intros M K N F; [exists []; split; [reflexivity|constructor]|]. inversion F as [|? ? [Lz Dz] F']; subst.
  destruct (smuce_value M z K N Lz Dz) as (t & s & E & I1 & I2 & I3). cbn [draw_stats]. destruct (smuce_keeps M z None) as (Kp & Ks & _). assert (K1 := smuce_ok M z None K).
  destruct (smuce M z None) as [M1 r] eqn:Es. cbn [snd fst] in *. subst r. destruct (IH M1 K1) as (V & Ev & Fv); [congruence| |].
  { eapply Forall_impl; [|exact F']. intros y [A B]. split; congruence. }
  destruct (draw_stats M1 draws) as [M2 r2]. cbn [snd] in *. subst r2. exists (t :: V). split; [reflexivity|]. constructor; [split; [exists s; auto|exact I3]|]. rewrite <- Ks. exact Fv.
Qed.
Lemma stat_unique : forall sl z t u, largest_stat sl z t -> largest_stat sl z u -> t = u.
Proof. intros sl z t u ((s & A & ->) & B) ((s' & A' & ->) & B'). apply Rle_antisym; auto. Qed.
Lemma stats_unique : forall sl draws V W, Forall2 (largest_stat sl) draws V -> Forall2 (largest_stat sl) draws W -> V = W.
Proof. intros sl draws V W H. revert W. induction H; intros W HW; inversion HW; subst; auto. f_equal; eauto using stat_unique. Qed.
Theorem tuning_value : forall M draws q sg, ms_ok M -> ms_slices M <> [] -> draws <> [] -> Forall (good_draw M) draws -> 0 <= q <= 1 ->
  exists V v, Forall2 (largest_stat (ms_slices M)) draws V /\ snd (tuning M draws q sg) = Ok v /\ is_percentile V q v /\ forall w, is_percentile V q w -> w = v.
Proof.
  intros M draws q sg K N Nd F Hq. destruct (draws_value draws M K N F) as (V & Ev & Fv). assert (NV : V <> []) by (destruct Fv; congruence).
  destruct (np_percentile_value V q NV Hq) as (v & Eq & P). exists V, v. split; auto. split; [unfold tuning; destruct (draw_stats M draws) as [M1 r]; cbn in Ev; subst r; exact Eq|]. split; auto. intros w Pw. eapply percentile_unique; eauto.
Qed.
Lemma tuning_is : forall M draws q sg v V, ms_ok M -> ms_slices M <> [] -> draws <> [] -> Forall (good_draw M) draws -> 0 <= q <= 1 -> Forall2 (largest_stat (ms_slices M)) draws V ->
  snd (tuning M draws q sg) = Ok v -> is_percentile V q v.
Proof. intros M draws q sg v V K N Nd F Hq FV E. destruct (tuning_value M draws q sg K N Nd F Hq) as (V' & v' & A & B & C & _). rewrite (stats_unique _ _ _ _ FV A). congruence. Qed.
Lemma F2_length : forall {A B} (R0 : A -> B -> Prop) l l', Forall2 R0 l l' -> length l = length l'.
Proof. intros A B R0 l l' H. induction H; cbn; auto. Qed.
Theorem tuning_share : forall M draws q sg v V, ms_ok M -> ms_slices M <> [] -> draws <> [] -> Forall (good_draw M) draws -> 0 <= q <= 1 -> Forall2 (largest_stat (ms_slices M)) draws V ->
  snd (tuning M draws q sg) = Ok v -> q * INR (length draws - 1) < INR (count_le v V) /\ (1 - q) * INR (length draws - 1) <= INR (count_ge v V).
Proof. intros M draws q sg v V K N Nd F Hq FV E. rewrite (F2_length _ _ _ FV). apply percentile_share. eapply tuning_is; eauto. Qed.
Theorem tuning_short : forall M draws q sg v V, ms_ok M -> ms_slices M <> [] -> (2 <= length draws)%nat -> Forall (good_draw M) draws -> INR (length draws - 1) < q * INR (length draws) -> q < 1 ->
  Forall2 (largest_stat (ms_slices M)) draws V -> NoDup V -> snd (tuning M draws q sg) = Ok v -> INR (count_le v V) < q * INR (length draws).
Proof.
  intros M draws q sg v V K N Ln F Hq H1 FV Nd E. assert (Ld := F2_length _ _ _ FV). unfold vec in *. rewrite Ld in *. apply percentile_short; auto. eapply (tuning_is M draws q sg); eauto; [intros ->; cbn in Ld; lia|].
  split; [|lra]. assert (0 < INR (length V)) by (apply lt_0_INR; lia). assert (0 < INR (length V - 1)) by (apply lt_0_INR; lia). destruct (Rle_lt_dec 0 q); auto. exfalso. assert (q * INR (length V) <= 0 * INR (length V)) by (apply Rmult_le_compat_r; lra). lra.
Qed.
Theorem tuning_monotone : forall M draws q q' sg v w, ms_ok M -> ms_slices M <> [] -> draws <> [] -> Forall (good_draw M) draws -> 0 <= q -> q <= q' -> q' <= 1 ->
  snd (tuning M draws q sg) = Ok v -> snd (tuning M draws q' sg) = Ok w -> v <= w.
Proof.
  intros M draws q q' sg v w K N Nd F H0 Hq H1 E E'. destruct (draws_value draws M K N F) as (V & _ & FV). eapply (percentile_mono V q q'); auto; eapply tuning_is; eauto; lra.
Qed.
Theorem tuning_order : forall M draws draws' q sg, ms_ok M -> ms_slices M <> [] -> Forall (good_draw M) draws -> Permutation draws draws' -> snd (tuning M draws q sg) = snd (tuning M draws' q sg).
Proof.
  intros M draws draws' q sg K N F P. destruct (draws_value draws M K N F) as (V & E & FV). assert (F' : Forall (good_draw M) draws') by (eapply Permutation_Forall; eauto). destruct (draws_value draws' M K N F') as (W & E' & FW).
  assert (PV : Permutation V W). { destruct (Permutation_Forall2 P FV) as (V' & PV & FV'). rewrite (stats_unique _ _ _ _ FW FV'). exact PV. }
  unfold tuning. destruct (draw_stats M draws) as [M1 r], (draw_stats M draws') as [M2 r']. cbn [snd] in *. subst. cbn [rbind]. apply np_percentile_perm. exact PV.
Qed.
Theorem tuning_range : forall M draws q sg, ms_ok M -> ms_slices M <> [] -> Forall (good_draw M) draws -> q < 0 \/ 1 < q -> snd (tuning M draws q sg) = Err ValueError.
Proof.
  intros M draws q sg K N F Hq. destruct (draws_value draws M K N F) as (V & E & FV). unfold tuning. destruct (draw_stats M draws) as [M1 r]. cbn [snd] in *. subst. cbn [rbind]. unfold np_percentile. destruct (Rlt_dec q 0); auto. destruct (Rlt_dec 1 q); auto. lra.
Qed.
Theorem tuning_scaling : forall M M' draws q sg sg', ms_ok M -> ms_ok M' -> ms_slices M' = ms_slices M -> ms_p M' = ms_p M -> ms_slices M <> [] -> Forall (good_draw M) draws -> snd (tuning M draws q sg) = snd (tuning M' draws q sg').
Proof.
  intros M M' draws q sg sg' K K' Es Ep N F. destruct (draws_value draws M K N F) as (V & E & FV). assert (F' : Forall (good_draw M') draws) by (eapply Forall_impl; [|exact F]; intros z [A B]; split; congruence).
  destruct (draws_value draws M' K' ltac:(congruence) F') as (W & E' & FW). rewrite Es in FW. assert (V = W) by (eapply stats_unique; eauto). subst W.
  unfold tuning. destruct (draw_stats M draws) as [M1 r], (draw_stats M' draws) as [M2 r']. cbn [snd] in *. subst. reflexivity.
Qed.
Theorem tuning_leaves : forall M draws q sg x, ms_ok M -> ms_slices M <> [] -> draws <> [] -> Forall (good_draw M) draws -> length x = ms_p M ->
  ms_linear (fst (tuning M draws q sg)) x = Ok (doc_multi (ms_slices M) (FVec (map sqrt (ms_sizes M))) x).
Proof.
  intros M draws q sg x K N Nd F Lx.
  assert (G : forall ds M, ms_ok M -> ms_slices M <> [] -> Forall (good_draw M) ds -> let M' := fst (draw_stats M ds) in ms_ok M' /\ ms_p M' = ms_p M /\ ms_slices M' = ms_slices M /\ (ds <> [] \/ ms_scaling M = FVec (map sqrt (ms_sizes M)) -> ms_scaling M' = FVec (map sqrt (ms_sizes M)))).
  { clear. induction ds as [|z ds IH]; intros M K N F; cbn zeta.
    - cbn. split; auto. split; auto. split; auto. intros [H|H]; [congruence|auto].
    - inversion F as [|? ? [Lz Dz] F']; subst. destruct (smuce_value M z K N Lz Dz) as (t & s & E & _). destruct (smuce_keeps M z None) as (Kp & Ks & Kz). assert (K1 := smuce_ok M z None K).
      assert (Sc : ms_scaling (fst (smuce M z None)) = FVec (map sqrt (ms_sizes M))) by reflexivity.
      cbn [draw_stats]. destruct (smuce M z None) as [M1 r]. cbn [snd fst] in *. subst r. destruct (IH M1 K1) as (A & B & C & D); [congruence| |].
      { eapply Forall_impl; [|exact F']. intros y [A B]. split; congruence. }
      destruct (draw_stats M1 ds) as [M2 r2]. cbn [fst] in *. split; auto. split; [congruence|]. split; [congruence|]. intros _. rewrite D; [congruence|]. right. congruence. }
  destruct (G draws M K N F) as (A & B & C & D). assert (Et : fst (tuning M draws q sg) = fst (draw_stats M draws)) by (unfold tuning; destruct (draw_stats M draws); reflexivity). rewrite Et.
  rewrite linear_doc by (auto; congruence). rewrite D by auto. rewrite C. reflexivity.
Qed.

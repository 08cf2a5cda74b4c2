(** The multiscale transform: its adjoint. *)
From Coq Require Import Reals List Lra Lia Arith ZArith.
From Verif Require Import Vec Spec SpecLoss M_quad M_slope M_affine P_quad P_sep P_cv P_fused M_multi SpecMulti P_multi.
Import ListNotations.
Local Open Scope R_scope.
Local Notation center := M_affine.center (only parsing).

Lemma nth_map_any : forall {A} (G : A -> R) l k d, (k < length l)%nat -> nth k (map G l) 0 = G (nth k l d).
Proof. intros A G l k d H. rewrite (nth_indep _ 0 (G d)) by (rewrite map_length; auto). apply map_nth. Qed.
(** What interval k adds at position l *)
Definition hit (sl : list (Z * Z)) (k l : nat) : bool := let (i, j) := nth k sl (0, 0)%Z in inside (Z.to_nat i) (Z.to_nat j) l.
Definition spread (sl : list (Z * Z)) (w : vec) (l : nat) : R := sum_over (length w) (fun k => if hit sl k l then nth k w 0 else 0).

Lemma slice_add_length : forall i j a out, length (slice_add i j a out) = length out.
Proof. intros. unfold slice_add. rewrite map_length, seq_length. auto. Qed.
Lemma slice_add_nth : forall i j a out l, (l < length out)%nat -> nth l (slice_add i j a out) 0 = nth l out 0 + (if inside i j l then a else 0).
Proof. intros i j a out l H. unfold slice_add. rewrite (nth_map_seq (fun l => if ((i <=? l) && (l <? j))%nat%bool then nth l out 0 + a else nth l out 0)) by auto. fold (inside i j l). destruct (inside i j l); ring. Qed.
Lemma slices_fold : forall sl p w, Forall (slice_ok p) sl -> forall ks out, Forall (fun k => (k < length sl)%nat) ks -> length out = p ->
  let r := fold_left (fun out k => if Req_EM_T (nth k w 0) 0 then out else let (i, j) := nth k sl (0, 0)%Z in slice_add (py_end p i) (py_end p j) (nth k w 0) out) ks out in
  length r = p /\ (forall l, (l < p)%nat -> nth l r 0 = nth l out 0 + vsum (map (fun k => if hit sl k l then nth k w 0 else 0) ks)).
Proof.
  intros sl p w Hs ks. induction ks as [|k ks IH]; intros out Hk L; cbn zeta; cbn [fold_left map].
  - split; auto. intros l Hl. unfold vsum. cbn. ring.
  - inversion Hk as [|? ? Hk1 Hk2]; subst. set (out' := if Req_EM_T (nth k w 0) 0 then out else let (i, j) := nth k sl (0, 0)%Z in slice_add (py_end (length out) i) (py_end (length out) j) (nth k w 0) out).
    assert (O : length out' = length out /\ forall l, (l < length out)%nat -> nth l out' 0 = nth l out 0 + (if hit sl k l then nth k w 0 else 0)).
    { unfold out', hit. pose proof (proj1 (Forall_forall _ _) Hs (nth k sl (0, 0)%Z) (nth_In _ _ Hk1)) as [A B]. destruct (nth k sl (0, 0)%Z) as [i j] eqn:E. cbn [fst snd] in A, B. destruct Req_EM_T as [Z|Z].
      - split; auto. intros. rewrite Z. destruct (inside _ _ _); ring.
      - rewrite slice_add_length, !py_end_pos by lia. split; auto. intros l Hl. rewrite slice_add_nth by auto. auto. }
    destruct O as [O1 O2]. destruct (IH out' Hk2 O1) as [R1 R2]. split; auto. intros l Hl. rewrite R2 by auto. rewrite O2 by auto. rewrite vsum_cons. ring.
Qed.

Lemma put_length : forall mask w, length (put mask w) = length mask.
Proof. induction mask as [|b mask IH]; intros w; auto. cbn. destruct b; cbn; rewrite IH; auto. Qed.
Lemma dot_put : forall {A} (G : A -> R) mask L w, length L = length mask -> length w = length (pick mask L) -> dot (put mask w) (map G L) = dot w (map G (pick mask L)).
Proof.
  intros A G. induction mask as [|b mask IH]; intros [|a L] w HL Hw; try discriminate; [destruct w; [reflexivity|discriminate]|]. cbn [put pick map]. destruct b.
  - cbn [pick] in Hw. destruct w as [|w0 w]; [discriminate|]. cbn [hd tl map]. rewrite !dot_cons, IH by (cbn in HL, Hw; lia). ring.
  - cbn [pick] in Hw. rewrite dot_cons, IH by (cbn in HL; auto). ring.
Qed.
Lemma sum_over_shift : forall n F, sum_over (S n) F = F 0%nat + sum_over n (fun i => F (S i)).
Proof. intros n F. unfold sum_over. cbn [seq map]. rewrite vsum_cons. f_equal. rewrite <- seq_shift, map_map. auto. Qed.
Lemma sum_over_add : forall n m F, sum_over (n + m) F = sum_over n F + sum_over m (fun i => F (n + i)%nat).
Proof. intros n m. induction m as [|m IH]; intros F; [rewrite Nat.add_0_r; unfold sum_over at 3; cbn; ring|]. rewrite Nat.add_succ_r, !sum_over_S, IH. ring. Qed.
Lemma sum_over_mul : forall n q F, sum_over (n * q) F = sum_over n (fun i => sum_over q (fun j => F (i * q + j)%nat)).
Proof.
  induction n as [|n IH]; intros q F; [reflexivity|]. rewrite sum_over_S. replace (S n * q)%nat with (n * q + q)%nat by lia. rewrite sum_over_add, IH. auto.
Qed.
Lemma nth_prod : forall p (L : list nat) a b, (a < length L)%nat -> (b < p)%nat -> nth (a * p + b) (list_prod L (seq 0 p)) (0, 0)%nat = (nth a L 0%nat, b).
Proof.
  intros p L. induction L as [|c L IH]; intros a b Ha Hb; [cbn in Ha; lia|]. cbn [list_prod]. destruct a as [|a].
  - cbn [Nat.mul Nat.add nth]. rewrite app_nth1 by (rewrite map_length, seq_length; auto). rewrite (nth_indep _ (0, 0)%nat ((fun y => (c, y)) 0%nat)) by (rewrite map_length, seq_length; auto). rewrite (map_nth (fun y => (c, y))), seq_nth by auto. auto.
  - rewrite app_nth2 by (rewrite map_length, seq_length; lia). rewrite map_length, seq_length. replace (S a * p + b - p)%nat with (a * p + b)%nat by lia. rewrite IH by (cbn in Ha; lia). auto.
Qed.
Lemma nth_pairs : forall p a b, (a < p)%nat -> (b < p)%nat -> nth (a * p + b) (pairs p) (0, 0)%nat = (a, b).
Proof. intros p a b Ha Hb. unfold pairs. rewrite nth_prod by (rewrite ?seq_length; auto). rewrite seq_nth by auto. auto. Qed.
Lemma double_sum : forall p (V : vec) (G : nat * nat -> R), length V = (p * p)%nat -> sum_over p (fun a => sum_over p (fun b => nth (a * p + b) V 0 * G (a, b))) = dot V (map G (pairs p)).
Proof.
  intros p V G L. rewrite (dot_index (p * p)) by (rewrite ?map_length, ?pairs_length; auto). rewrite sum_over_mul. apply sum_over_ext. intros a Ha. apply sum_over_ext. intros b Hb. f_equal.
  assert (a * p + b < p * p)%nat by nia. rewrite (nth_indep _ 0 (G (0, 0)%nat)) by (rewrite map_length, pairs_length; auto). rewrite map_nth, nth_pairs by auto. auto.
Qed.
Lemma sum_ind : forall p l F, (l <= p)%nat -> sum_over l F = sum_over p (fun q => (if (q <? l)%nat then 1 else 0) * F q).
Proof. intros p l F H. rewrite (sum_below F p l) by auto. apply sum_over_ext. intros q Hq. destruct (q <? l)%nat; ring. Qed.

Lemma all_spread : forall p mask w l, length mask = (p * p)%nat -> length w = length (pick mask (pairs p)) -> Forall (slice_ok p) (map zpair (pick mask (pairs p))) -> (l < p)%nat ->
  let V := put mask w in
  nth l (map Ropp (cumsum (vsub (map (fun j => vsum (map (fun i => nth (i * p + j) V 0) (seq 0 p))) (seq 0 p)) (map (fun i => vsum (map (fun j => nth (i * p + j) V 0) (seq 0 p))) (seq 0 p))))) 0
  = spread (map zpair (pick mask (pairs p))) w l.
Proof.
  intros p mask w l Lm Lw Hs Hl V. set (cols := map (fun j => _) (seq 0 p)). set (rws := map (fun i => _) (seq 0 p)).
  assert (Lc : length cols = p) by (unfold cols; rewrite map_length, seq_length; auto). assert (Lr : length rws = p) by (unfold rws; rewrite map_length, seq_length; auto).
  assert (Ld : length (vsub cols rws) = p) by (unfold vsub; rewrite vzip_length; congruence).
  rewrite nth_map0 by (rewrite cumsum_len, Ld; auto). rewrite nth_cumsum by (rewrite Ld; auto).
  assert (E : sum_over (S l) (fun q => nth q (vsub cols rws) 0) = sum_over (S l) (fun q => sum_over p (fun i => nth (i * p + q) V 0)) - sum_over (S l) (fun q => sum_over p (fun j => nth (q * p + j) V 0))).
  { rewrite <- sum_over_minus. apply sum_over_ext. intros q Hq. unfold vsub. rewrite (nth_zip0 _ _ _ p) by (auto; lia). unfold cols, rws. rewrite !nth_map_seq by lia. reflexivity. }
  rewrite E. clear E. rewrite (sum_ind p (S l) (fun q => sum_over p (fun i => nth (i * p + q) V 0))) by lia. rewrite (sum_ind p (S l) (fun q => sum_over p (fun j => nth (q * p + j) V 0))) by lia.
  set (c := fun q => if (q <? S l)%nat then 1 else 0).
  assert (E1 : sum_over p (fun q => c q * sum_over p (fun i => nth (i * p + q) V 0)) = dot V (map (fun ab => c (snd ab)) (pairs p))).
  { rewrite <- (double_sum p V (fun ab => c (snd ab))) by (unfold V; rewrite put_length; auto). cbn [snd]. rewrite sum_over_swap. apply sum_over_ext. intros q Hq. rewrite <- sum_over_scal. apply sum_over_ext. intros i Hi. ring. }
  assert (E2 : sum_over p (fun q => c q * sum_over p (fun j => nth (q * p + j) V 0)) = dot V (map (fun ab => c (fst ab)) (pairs p))).
  { rewrite <- (double_sum p V (fun ab => c (fst ab))) by (unfold V; rewrite put_length; auto). cbn [fst]. apply sum_over_ext. intros q Hq. rewrite <- sum_over_scal. apply sum_over_ext. intros i Hi. ring. }
  change (- (sum_over p (fun q => c q * sum_over p (fun i => nth (i * p + q) V 0)) - sum_over p (fun q => c q * sum_over p (fun j => nth (q * p + j) V 0))) = spread (map zpair (pick mask (pairs p))) w l).
  unfold c in *. rewrite E1, E2. unfold V. rewrite !dot_put by (rewrite ?pairs_length; auto).
  set (sel := pick mask (pairs p)) in *. rewrite !(dot_index (length w)) by (rewrite ?map_length; auto). rewrite <- sum_over_minus. unfold spread.
  replace (- sum_over (length w) (fun i => nth i w 0 * nth i (map (fun ab : nat * nat => if (snd ab <? S l)%nat then 1 else 0) sel) 0 - nth i w 0 * nth i (map (fun ab : nat * nat => if (fst ab <? S l)%nat then 1 else 0) sel) 0))
    with (sum_over (length w) (fun i => -1 * (nth i w 0 * nth i (map (fun ab : nat * nat => if (snd ab <? S l)%nat then 1 else 0) sel) 0 - nth i w 0 * nth i (map (fun ab : nat * nat => if (fst ab <? S l)%nat then 1 else 0) sel) 0))) by (rewrite sum_over_scal; ring).
  apply sum_over_ext. intros k Hk. assert (Hk' : (k < length sel)%nat) by congruence.
  rewrite !(nth_map_any _ _ _ (0, 0)%nat) by auto. unfold hit. change (0, 0)%Z with (zpair (0, 0)%nat). rewrite map_nth.
  pose proof (proj1 (Forall_forall _ _) Hs (zpair (nth k sel (0, 0)%nat)) (in_map zpair _ _ (nth_In _ _ Hk'))) as [A B]. destruct (nth k sel (0, 0)%nat) as [a b]. unfold zpair in *. cbn [fst snd] in *. rewrite !Nat2Z.id. unfold inside.
  destruct (Nat.ltb_spec b (S l)); destruct (Nat.ltb_spec a (S l)); destruct (Nat.leb_spec a l); destruct (Nat.ltb_spec l b); cbn [andb]; try lia; ring.
Qed.

Lemma weights_ok : forall sc v sl, length v = length sl -> scaling_fits sc (length sl) ->
  exists w, rescale sc (vzip Rdiv v (sizes_of sl)) = Ok w /\ length w = length sl /\ (forall k, (k < length sl)%nat -> nth k w 0 = factor sc k * (nth k v 0 / nth k (sizes_of sl) 0)).
Proof.
  intros sc v sl L H. assert (L1 : length (sizes_of sl) = length sl) by (unfold sizes_of; apply map_length). assert (L2 : length (vzip Rdiv v (sizes_of sl)) = length sl) by (rewrite vzip_length; congruence).
  rewrite rescale_ok by (rewrite L2; auto). eexists. split; [reflexivity|]. rewrite map_length, seq_length, L2. split; auto. intros k Hk.
  rewrite (nth_map_seq (fun k => factor sc k * nth k (vzip Rdiv v (sizes_of sl)) 0)) by auto. rewrite (nth_zip0 _ _ _ (length sl)) by auto. auto.
Qed.
Lemma existsb_skipn_nil : forall f n (w : vec), (length w <= n)%nat -> existsb f (skipn n w) = false.
Proof. intros. rewrite skipn_all2 by auto. auto. Qed.
(** adjoint_map spreads each weight over its interval and centers. *)
Lemma adjoint_form : forall M v, ms_ok M -> length v = length (ms_slices M) ->
  exists w out, length w = length (ms_slices M) /\ (forall k, (k < length (ms_slices M))%nat -> nth k w 0 = factor (ms_scaling M) k * (nth k v 0 / nth k (sizes_of (ms_slices M)) 0)) /\
    length out = ms_p M /\ (forall l, (l < ms_p M)%nat -> nth l out 0 = spread (ms_slices M) w l) /\ ms_adjoint M v = Ok (center out).
Proof.
  intros M v [Hp Hs Hz Ho Hc Ha] L. destruct (weights_ok (ms_scaling M) v (ms_slices M) L Hc) as (w & Ew & Lw & Nw). exists w.
  unfold ms_adjoint. rewrite Hz. replace (length (sizes_of (ms_slices M))) with (length (ms_slices M)) by (unfold sizes_of; rewrite map_length; auto). rewrite L, Nat.eqb_refl. cbn [negb]. rewrite (sizes_no_zero (ms_p M)) by auto. rewrite Ew. cbn [rbind].
  destruct (ms_all M) eqn:EA; cbn [negb].
  - destruct (Ha eq_refl) as (mask & Em & Lm & Es). rewrite Em, Lm, Nat.eqb_refl. cbn [negb rbind]. cbv zeta. match goal with |- context [match ?o with [] => Err NaNResult | _ :: _ => _ end] => set (out := o) end. exists out. split; [auto|]. split; [exact Nw|].
    assert (Lo : length out = ms_p M). { unfold out. rewrite map_length, cumsum_len. unfold vsub. apply vzip_length2; rewrite map_length, seq_length; auto. }
    split; [exact Lo|]. split.
    + intros l Hl. rewrite Es at 1. unfold out. apply all_spread; auto; [rewrite Lw, Es, map_length; auto|rewrite <- Es; auto].
    + destruct out; [cbn in Lo; lia|reflexivity].
  - cbn [negb]. rewrite existsb_skipn_nil by lia. cbn [rbind].
    destruct (slices_fold (ms_slices M) (ms_p M) w Hs (seq 0 (length w)) (zeros (ms_p M))) as [R1 R2]; [apply Forall_forall; intros k Hk; apply in_seq in Hk; lia|apply zeros_length|].
    eexists. split; [auto|]. split; [exact Nw|]. split; [exact R1|]. split.
    + intros l Hl. rewrite R2 by auto. unfold zeros. rewrite nth_repeat. unfold spread, sum_over. ring.
    + match goal with |- match ?o with _ => _ end = _ => destruct o eqn:EO end; [cbn in R1; lia|reflexivity].
Qed.
Lemma interval_hit : forall p sl k x, Forall (slice_ok p) sl -> (k < length sl)%nat -> length x = p ->
  (let (i, j) := nth k sl (0, 0)%Z in interval_mean x (Z.to_nat i) (Z.to_nat j)) = sum_over p (fun l => if hit sl k l then nth l x 0 else 0) / nth k (sizes_of sl) 0.
Proof.
  intros p sl k x Hs Hk L. pose proof (proj1 (Forall_forall _ _) Hs _ (nth_In _ (0, 0)%Z Hk)) as [A B]. unfold sizes_of. set (F := fun ij : Z * Z => IZR (snd ij) - IZR (fst ij) * 1). rewrite (nth_indep (map F sl) 0 (F (0, 0)%Z)) by (rewrite map_length; auto). rewrite map_nth. unfold F, hit.
  destruct (nth k sl (0, 0)%Z) as [i j]. cbn [fst snd] in *. unfold interval_mean. rewrite (interval_inside _ p) by lia. f_equal. rewrite INR_IZR_INZ, Rmult_1_r, <- minus_IZR. f_equal. lia.
Qed.
Lemma doc_length : forall sl sc x, length (doc_multi sl sc x) = length sl. Proof. intros. unfold doc_multi. rewrite map_length, seq_length. auto. Qed.
Lemma nth_doc : forall p sl sc x k, Forall (slice_ok p) sl -> length x = p -> (k < length sl)%nat ->
  nth k (doc_multi sl sc x) 0 = factor sc k * (sum_over p (fun l => if hit sl k l then nth l (center x) 0 else 0) / nth k (sizes_of sl) 0).
Proof.
  intros p sl sc x k Hs L Hk. unfold doc_multi. rewrite (nth_map_seq (fun k => let (i, j) := nth k sl (0, 0)%Z in factor sc k * interval_mean (map (fun a => a - average x) x) (Z.to_nat i) (Z.to_nat j))) by auto. rewrite center_map.
  rewrite <- (interval_hit p sl k (center x)) by (auto; rewrite center_len; auto). destruct (nth k sl (0, 0)%Z). auto.
Qed.
(** adjoint_map is the adjoint of linear_map. *)
Theorem multi_adjoint : forall M v, ms_ok M -> length v = length (ms_slices M) ->
  exists a, ms_adjoint M v = Ok a /\ length a = ms_p M /\ vsum a = 0 /\ forall x, length x = ms_p M -> dot (doc_multi (ms_slices M) (ms_scaling M) x) v = dot x a.
Proof.
  intros M v H L. destruct (adjoint_form M v H L) as (w & out & Lw & Nw & Lo & No & E). destruct H as [Hp Hs Hz Ho Hc Ha]. exists (center out). split; auto. split; [rewrite center_len; auto|]. split.
  - rewrite (vsum_index (ms_p M)) by (rewrite center_len; auto). rewrite (sum_over_ext _ _ (fun i => nth i out 0 - vsum out / INR (length out))) by (intros; apply nth_center; lia). rewrite sum_over_minus, <- vsum_index by auto.
    assert (C : forall n c, sum_over n (fun _ => c) = INR n * c). { induction n as [|n IHn]; intros c; [unfold sum_over; cbn; ring|]. rewrite sum_over_S, IHn, S_INR. ring. } rewrite C, Lo. field. apply not_0_INR. lia.
  - intros x Lx. rewrite <- dot_center_sym by congruence. rewrite (dot_index (length (ms_slices M))) by (rewrite ?doc_length; auto). rewrite (dot_index (ms_p M)) by (rewrite ?center_len; auto).
    rewrite (sum_over_ext (ms_p M) _ (fun l => sum_over (length (ms_slices M)) (fun k => if hit (ms_slices M) k l then nth k w 0 * nth l (center x) 0 else 0))).
    + rewrite sum_over_swap. apply sum_over_ext. intros k Hk. rewrite (nth_doc (ms_p M)) by auto.
      rewrite (sum_over_ext (ms_p M) (fun i => if hit (ms_slices M) k i then nth k w 0 * nth i (center x) 0 else 0) (fun l => nth k w 0 * (if hit (ms_slices M) k l then nth l (center x) 0 else 0))) by (intros; destruct hit; ring).
      rewrite sum_over_scal, Nw by auto. unfold Rdiv. ring.
    + intros l Hl. rewrite No by auto. unfold spread. rewrite Lw, <- sum_over_scal. apply sum_over_ext. intros k Hk. destruct hit; ring.
Qed.

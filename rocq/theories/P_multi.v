(** The multiscale transform: averages over intervals. *)
From Coq Require Import Reals List Lra Lia Arith ZArith.
From Verif Require Import Vec Spec SpecLoss M_quad M_slope M_affine P_quad P_sep P_cv P_fused M_multi SpecMulti.
Import ListNotations.
Local Open Scope R_scope.
Local Notation center := M_affine.center (only parsing).

Lemma nth_cumsum0 : forall z k, (k <= length z)%nat -> nth k (0 :: cumsum z) 0 = sum_over k (fun i => nth i z 0).
Proof.
  intros z k. induction k as [|k IH]; intros H; [reflexivity|]. rewrite sum_over_S, <- IH by lia. pose proof (cumsum_step z 0 k ltac:(lia)) as C. fold (cumsum z) in C. lra.
Qed.
Lemma nth_cumsum : forall z k, (k < length z)%nat -> nth k (cumsum z) 0 = sum_over (S k) (fun i => nth i z 0).
Proof. intros z k H. rewrite <- nth_cumsum0 by lia. reflexivity. Qed.
Lemma interval_sum : forall F i j, (i <= j)%nat -> vsum (map F (seq i (j - i))) = sum_over j F - sum_over i F.
Proof. intros F i j H. unfold sum_over. replace j with (i + (j - i))%nat at 2 by lia. rewrite seq_app, map_app, vsum_app. cbn [Nat.add]. lra. Qed.
Lemma sum_below : forall F p i, (i <= p)%nat -> sum_over i F = sum_over p (fun l => if (l <? i)%nat then F l else 0).
Proof.
  intros F p i. induction p as [|p IH]; intros H.
  - replace i with 0%nat by lia. reflexivity.
  - rewrite sum_over_S. destruct (Nat.eq_dec i (S p)) as [->|N].
    + replace (p <? S p)%nat with true by (symmetry; apply Nat.ltb_lt; lia). rewrite sum_over_S. f_equal. apply sum_over_ext. intros l Hl. replace (l <? S p)%nat with true by (symmetry; apply Nat.ltb_lt; lia). auto.
    + replace (p <? i)%nat with false by (symmetry; apply Nat.ltb_ge; lia). rewrite <- IH by lia. ring.
Qed.
Definition inside (i j l : nat) : bool := ((i <=? l) && (l <? j))%nat%bool.
Lemma inside_diff : forall i j l a, (i <= j)%nat -> (if inside i j l then a else 0) = (if (l <? j)%nat then a else 0) - (if (l <? i)%nat then a else 0).
Proof.
  intros i j l a H. unfold inside. destruct (Nat.leb_spec i l); destruct (Nat.ltb_spec l j); destruct (Nat.ltb_spec l i); cbn; try lia; ring.
Qed.
Lemma sum_over_minus : forall n F G, sum_over n (fun i => F i - G i) = sum_over n F - sum_over n G.
Proof. induction n as [|n IH]; intros; [unfold sum_over; cbn; ring|]. rewrite !sum_over_S, IH. ring. Qed.
Lemma interval_inside : forall F p i j, (i <= j)%nat -> (j <= p)%nat -> vsum (map F (seq i (j - i))) = sum_over p (fun l => if inside i j l then F l else 0).
Proof.
  intros F p i j H H'. rewrite interval_sum by auto. rewrite (sum_below F p j), (sum_below F p i) by lia. rewrite <- sum_over_minus. apply sum_over_ext. intros l Hl. rewrite inside_diff by auto. auto.
Qed.

Lemma nth_map_seq : forall (F : nat -> R) n i d, (i < n)%nat -> nth i (map F (seq 0 n)) d = F i.
Proof. intros F n i d H. rewrite (nth_indep _ d (F 0%nat)) by (rewrite map_length, seq_length; auto). rewrite map_nth, seq_nth by auto. auto. Qed.
Lemma center_map : forall x, map (fun a => a - average x) x = center x. Proof. reflexivity. Qed.
Lemma center_len : forall x, length (center x) = length x. Proof. intros. apply map_length. Qed.
Lemma cumsum_len : forall x, length (cumsum x) = length x.
Proof. intros x. unfold cumsum. generalize 0. induction x; intros; cbn; auto. Qed.
Lemma py_get_pos : forall l k, (0 <= k < Z.of_nat (length l))%Z -> py_get l k = Ok (nth (Z.to_nat k) l 0).
Proof. intros l k H. unfold py_get. replace (k <? 0)%Z with false by (symmetry; apply Z.ltb_ge; lia). replace (0 <=? k)%Z with true by (symmetry; apply Z.leb_le; lia). replace (k <? Z.of_nat (length l))%Z with true by (symmetry; apply Z.ltb_lt; lia). reflexivity. Qed.
Lemma py_end_pos : forall n k, (0 <= k <= Z.of_nat n)%Z -> py_end n k = Z.to_nat k.
Proof. intros n k H. unfold py_end. replace (k <? 0)%Z with false by (symmetry; apply Z.ltb_ge; lia). lia. Qed.
Lemma slice_mean_ok : forall z ij, slice_ok (length z) ij -> slice_mean (cumsum z) ij = Ok (interval_mean z (Z.to_nat (fst ij)) (Z.to_nat (snd ij))).
Proof.
  intros z [i j] [H H']. cbn [fst snd] in *. unfold slice_mean.
  assert (S : (if (1 <=? i)%Z then rbind (py_get (cumsum z) (j - 1)) (fun a => rbind (py_get (cumsum z) (i - 1)) (fun b => Ok (a - b))) else py_get (cumsum z) (j - 1)) = Ok (vsum (map (fun l => nth l z 0) (seq (Z.to_nat i) (Z.to_nat j - Z.to_nat i))))).
  { rewrite interval_sum by lia. rewrite py_get_pos by (rewrite cumsum_len; lia). rewrite nth_cumsum by lia. replace (S (Z.to_nat (j - 1))) with (Z.to_nat j) by lia.
    destruct (Z.leb_spec 1 i) as [A|A].
    - rewrite py_get_pos by (rewrite cumsum_len; lia). cbn [rbind]. rewrite nth_cumsum by lia. replace (S (Z.to_nat (i - 1))) with (Z.to_nat i) by lia. reflexivity.
    - replace (Z.to_nat i) with 0%nat by lia. f_equal. unfold sum_over at 3. cbn. ring. }
  rewrite S. cbn [rbind]. replace (j - i =? 0)%Z with false by (symmetry; apply Z.eqb_neq; lia). unfold interval_mean. do 2 f_equal. rewrite INR_IZR_INZ. f_equal. lia.
Qed.
Lemma rmapM_ok : forall {A B} (f : A -> res B) (g : A -> B) l, Forall (fun a => f a = Ok (g a)) l -> rmapM f l = Ok (map g l).
Proof. induction l as [|a l IH]; intros H; auto. inversion H; subst. cbn. rewrite H2. cbn. rewrite IH by auto. auto. Qed.

(** The unscaled means *)
Definition means (slices : list (Z * Z)) (x : vec) : vec := map (fun ij => interval_mean (center x) (Z.to_nat (fst ij)) (Z.to_nat (snd ij))) slices.
Lemma rescale_ok : forall sc v, scaling_fits sc (length v) -> rescale sc v = Ok (map (fun k => factor sc k * nth k v 0) (seq 0 (length v))).
Proof.
  intros sc v H. destruct sc as [|c|s]; cbn [rescale factor].
  - f_equal. rewrite <- (map_nth_seq v) at 1. apply map_ext. intros; ring.
  - f_equal. rewrite <- (map_nth_seq v) at 1. rewrite map_map. apply map_ext. intros; ring.
  - cbn in H. rewrite H, Nat.eqb_refl. f_equal. apply (nth_ext _ _ 0 0); [rewrite map_length, seq_length; unfold vmul; rewrite vzip_length; auto|]. intros i Hi. unfold vmul in Hi. rewrite vzip_length in Hi by auto.
    unfold vmul. rewrite (Vec.nth_vzip Rmult v s i 0 0 0) by auto. rewrite (nth_map_seq (fun k => nth k s 0 * nth k v 0)) by auto. ring.
Qed.
Lemma doc_means : forall sl sc x, scaling_fits sc (length sl) -> rescale sc (means sl x) = Ok (doc_multi sl sc x).
Proof.
  intros sl sc x H. rewrite rescale_ok by (unfold means; rewrite map_length; auto). unfold means. rewrite map_length. f_equal. unfold doc_multi. apply map_ext_in. intros k Hk. apply in_seq in Hk. rewrite center_map.
  set (F := fun ij : Z * Z => interval_mean (center x) (Z.to_nat (fst ij)) (Z.to_nat (snd ij))). rewrite (nth_indep (map F sl) 0 (F (0, 0)%Z)) by (rewrite map_length; lia). rewrite map_nth. destruct (nth k sl (0, 0)%Z); auto.
Qed.

Record ms_ok (M : mscale) : Prop := {
  ok_p : (1 <= ms_p M)%nat; ok_slices : Forall (slice_ok (ms_p M)) (ms_slices M); ok_sizes : ms_sizes M = sizes_of (ms_slices M);
  ok_out : ms_out M = length (ms_slices M); ok_scaling : scaling_fits (ms_scaling M) (length (ms_slices M));
  ok_all : ms_all M = true -> exists mask, ms_mask M = Some mask /\ length mask = (ms_p M * ms_p M)%nat /\ ms_slices M = map zpair (pick mask (pairs (ms_p M))) }.

Lemma pick_map : forall {A B} (f : A -> B) mask l, pick mask (map f l) = map f (pick mask l).
Proof. induction mask as [|b mask IH]; intros [|a l]; auto. cbn. destruct b; cbn; rewrite IH; auto. Qed.
Lemma pairs_length : forall p, length (pairs p) = (p * p)%nat.
Proof. intros. unfold pairs. rewrite prod_length, !seq_length. auto. Qed.
Lemma pick_length : forall {A B} mask (l : list A) (l' : list B), length l = length l' -> length (pick mask l) = length (pick mask l').
Proof. induction mask as [|b mask IH]; intros [|a l] [|a' l'] H; try discriminate; auto. cbn. destruct b; cbn; rewrite (IH l l') by (cbn in H; lia); auto. Qed.
Lemma sizes_no_zero : forall p s, Forall (slice_ok p) s -> has_zero (sizes_of s) = false.
Proof.
  induction s as [|[i j] s IH]; intros H; auto. inversion H as [|? ? [A B] H']; subst. cbn. destruct Req_EM_T as [E|E].
  - exfalso. cbn in A, E. rewrite Rmult_1_r, <- minus_IZR in E. apply eq_IZR in E. lia.
  - apply IH; auto.
Qed.
Lemma vzip_map2 : forall {A} (f : R -> R -> R) (g h : A -> R) l, vzip f (map g l) (map h l) = map (fun a => f (g a) (h a)) l.
Proof. induction l as [|a l IH]; auto. cbn. rewrite IH. auto. Qed.
Lemma pick_in : forall {A} mask (l : list A) a, In a (pick mask l) -> In a l.
Proof. induction mask as [|b mask IH]; intros [|c l] a H; cbn in H; try contradiction. destruct b; [destruct H as [->|H]; [left; auto|]|]; right; eauto. Qed.

(** linear_map computes the documented averages. *)
Lemma linear_doc : forall M x, ms_ok M -> length x = ms_p M -> ms_linear M x = Ok (doc_multi (ms_slices M) (ms_scaling M) x).
Proof.
  intros M x [Hp Hs Hz Ho Hc Ha] L. unfold ms_linear. destruct x as [|x0 x']; [cbn in L; lia|]. set (x := x0 :: x') in *. clearbody x.
  rewrite <- doc_means by auto. destruct (ms_all M) eqn:EA; cbn [negb].
  - destruct (Ha eq_refl) as (mask & Em & Lm & Es). rewrite Em. cbv zeta. rewrite L, pick_map, !map_length, pairs_length, Lm, Nat.eqb_refl. cbn [negb].
    assert (EL : length (pick mask (pairs (ms_p M))) = length (ms_sizes M)) by (rewrite Hz; unfold sizes_of; rewrite map_length, Es, map_length; auto).
    rewrite EL, Nat.eqb_refl. cbn [negb]. rewrite Hz, (sizes_no_zero (ms_p M)) by auto. cbn [rbind]. f_equal. rewrite Es. unfold sizes_of, means. rewrite !map_map, vzip_map2. apply map_ext_in.
    intros [a b] Hab. pose proof (pick_in _ _ _ Hab) as Hin. unfold pairs in Hin. apply in_prod_iff in Hin. destruct Hin as [Ha1 Hb1]. apply in_seq in Ha1, Hb1. unfold zpair. cbn [fst snd]. rewrite !Nat2Z.id.
    assert (Hsl : slice_ok (ms_p M) (Z.of_nat a, Z.of_nat b)). { rewrite Forall_forall in Hs. apply Hs. rewrite Es. apply (in_map zpair) in Hab. exact Hab. } destruct Hsl as [B1 B2]. cbn [fst snd] in B1, B2.
    rewrite !nth_cumsum0 by (rewrite center_len; lia). unfold interval_mean. rewrite interval_sum by lia. rewrite INR_IZR_INZ. replace (IZR (Z.of_nat (b - a))) with (IZR (Z.of_nat b) - IZR (Z.of_nat a)) by (rewrite Nat2Z.inj_sub by lia; rewrite minus_IZR; auto).
    rewrite Rmult_1_r. f_equal. ring.
  - cbn [negb]. rewrite (rmapM_ok _ (fun ij => interval_mean (center x) (Z.to_nat (fst ij)) (Z.to_nat (snd ij)))).
    + cbn [rmap rbind]. fold (means (ms_slices M) x). unfold means at 2. rewrite map_length, Ho, Nat.sub_diag. cbn [zeros repeat]. rewrite app_nil_r. auto.
    + eapply Forall_impl; [|exact Hs]. intros ij Hij. apply slice_mean_ok. rewrite center_len, L. auto.
Qed.

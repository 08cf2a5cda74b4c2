(** The multiscale transform: construction, histories, test statistic. *)
From Coq Require Import Reals List Lra Lia Arith ZArith.
From Verif Require Import Vec Spec SpecLoss M_quad M_slope M_affine P_quad P_sep P_cv P_fused M_multi SpecMulti P_multi P_multi2.
Import ListNotations.
Local Open Scope R_scope.
Local Notation center := M_affine.center (only parsing).

Lemma cbrt_from_spec : forall fuel k p, (k + fuel = p)%nat -> (k = 0 \/ (2 * (k - 1) + 1) ^ 3 <= 8 * p)%nat ->
  let r := cbrt_from k fuel p in (8 * p < (2 * r + 1) ^ 3)%nat /\ (r = 0 \/ (2 * (r - 1) + 1) ^ 3 <= 8 * p)%nat.
Proof.
  induction fuel as [|fuel IH]; intros k p E H; cbn [cbrt_from].
  - split; auto. replace k with p by lia. cbn [Nat.pow]. nia.
  - destruct (Nat.ltb_spec (8 * p) ((2 * k + 1) ^ 3)) as [A|A]; [split; auto|]. apply IH; [lia|]. right. replace (S k - 1)%nat with k by lia. auto.
Qed.
(** The default size is the integer nearest to the cube root: it never ties. *)
Lemma round_cbrt_spec : forall p, (1 <= p)%nat -> let k := round_cbrt p in (1 <= k)%Z /\ ((2 * k - 1) ^ 3 < 8 * Z.of_nat p < (2 * k + 1) ^ 3)%Z.
Proof.
  intros p Hp k. unfold k, round_cbrt. destruct (cbrt_from_spec p 0 p eq_refl (or_introl eq_refl)) as [A B]. set (r := cbrt_from 0 p p) in *. clearbody r. cbn [Nat.pow] in A, B.
  assert (R1 : (1 <= r)%nat) by (destruct r; [cbn in A; lia|lia]). destruct B as [B|B]; [lia|]. destruct r as [|r]; [lia|]. replace (S r - 1)%nat with r in B by lia. split; [lia|].
  assert (C3 : forall z, (z ^ 3 = z * z * z)%Z) by (intros; ring). rewrite !C3. set (z := Z.of_nat (S r)).
  assert (A' : (8 * Z.of_nat p < (2 * z + 1) * (2 * z + 1) * (2 * z + 1))%Z) by (unfold z; lia). assert (B' : ((2 * z - 1) * (2 * z - 1) * (2 * z - 1) <= 8 * Z.of_nat p)%Z) by (unfold z; lia). clearbody z. split; auto.
  assert (P : forall a, (a * a * a = 8 * Z.of_nat p -> Z.odd a = false)%Z). { intros a Ea. destruct (Z.odd a) eqn:Eo; auto. assert (O3 : Z.odd (a * a * a) = true) by (rewrite !Z.odd_mul, Eo; auto). rewrite Ea, Z.odd_mul in O3. discriminate. }
  assert (N : ((2 * z - 1) * (2 * z - 1) * (2 * z - 1) <> 8 * Z.of_nat p)%Z). { intros E. apply P in E. rewrite Z.odd_sub, Z.odd_mul in E. discriminate. } lia.
Qed.
Lemma pick_filter : forall {A} (f : A -> bool) l, pick (map f l) l = filter f l.
Proof. induction l as [|a l IH]; auto. cbn. rewrite IH. auto. Qed.
Definition size_ok (minsize : option Z) : Prop := match minsize with Some z => (0 <= z)%Z | None => True end.
Lemma minsize_pos : forall p minsize slices sc, (1 <= p)%nat -> size_ok minsize -> (1 <= ms_minsize (ms_new p minsize slices sc))%Z.
Proof.
  intros p minsize slices sc Hp Hm. assert (E : (1 <= match minsize with Some z => if (z =? 0)%Z then round_cbrt p else z | None => round_cbrt p end)%Z).
  { destruct (round_cbrt_spec p Hp) as [A _]. destruct minsize as [z|]; auto. destruct (Z.eqb_spec z 0); auto. cbn in Hm. lia. }
  unfold ms_new. destruct slices; auto.
Qed.
Lemma all_slices_filter : forall p minsize sc, let M := ms_new p minsize [] sc in
  ms_slices M = map zpair (filter (fun ij => (ms_minsize M <=? Z.of_nat (snd ij) - Z.of_nat (fst ij))%Z) (pairs p)).
Proof. intros. unfold M, ms_new. cbn [ms_slices ms_minsize]. rewrite pick_filter. auto. Qed.
(** Without slices: every pair of positions at least minsize apart, each once. *)
Theorem all_slices : forall p minsize sc, let M := ms_new p minsize [] sc in
  NoDup (ms_slices M) /\ forall i j, In (i, j) (ms_slices M) <-> (0 <= i < Z.of_nat p /\ 0 <= j < Z.of_nat p /\ ms_minsize M <= j - i)%Z.
Proof.
  intros p minsize sc M. unfold M. rewrite all_slices_filter. fold M. set (m := ms_minsize M). clearbody m. split.
  - apply FinFun.Injective_map_NoDup; [intros [a b] [c d] E; unfold zpair in E; cbn in E; injection E as E1 E2; f_equal; lia|]. apply NoDup_filter. unfold pairs.
    assert (NP : forall (l l' : list nat), NoDup l -> NoDup l' -> NoDup (list_prod l l')).
    { induction l as [|a l IH]; intros l' H H'; cbn; [constructor|]. inversion H; subst.
      assert (NA : forall (u v : list (nat * nat)), NoDup u -> NoDup v -> (forall z, In z u -> ~ In z v) -> NoDup (u ++ v)).
      { induction u as [|u0 u IHu]; intros v Hu Hv Hd; auto. inversion Hu; subst. cbn. constructor; [rewrite in_app_iff; intros [C|C]; [auto|exact (Hd u0 (or_introl eq_refl) C)]|]. apply IHu; auto. intros z Hz. apply Hd. right. auto. }
      apply NA; auto; [apply FinFun.Injective_map_NoDup; auto; intros x y E; congruence|]. intros [x y] Hz Hz'. apply in_map_iff in Hz. destruct Hz as (y' & E & _). inversion E; subst. apply in_prod_iff in Hz'. tauto. }
    apply NP; apply seq_NoDup.
  - intros i j. rewrite in_map_iff. split.
    + intros ([a b] & E & H). apply filter_In in H. destruct H as [H1 H2]. apply in_prod_iff in H1. rewrite !in_seq in H1. apply Z.leb_le in H2. unfold zpair in E. cbn in E, H2. inversion E; subst. lia.
    + intros (A & B & C). exists (Z.to_nat i, Z.to_nat j). split; [unfold zpair; cbn; f_equal; lia|]. apply filter_In. split; [apply in_prod_iff; rewrite !in_seq; lia|]. cbn. apply Z.leb_le. lia.
Qed.
Lemma new_ok : forall p minsize slices sc, (1 <= p)%nat -> size_ok minsize -> Forall (slice_ok p) slices -> scaling_fits sc (length (ms_slices (ms_new p minsize slices sc))) -> ms_ok (ms_new p minsize slices sc).
Proof.
  intros p minsize slices sc Hp Hm Hs Hc. destruct slices as [|s0 slices].
  - pose proof (minsize_pos p minsize [] sc Hp Hm) as P. destruct (all_slices p minsize sc) as [_ I]. split; auto.
    + apply Forall_forall. intros [i j] H. apply I in H. change (ms_p (ms_new p minsize [] sc)) with p. split; cbn [fst snd]; lia.
    + intros _. eexists. split; [reflexivity|]. split; [rewrite map_length, pairs_length; auto|reflexivity].
  - split; auto. discriminate.
Qed.
Lemma copy_ok : forall M, ms_ok M -> ms_ok (ms_copy M).
Proof. intros M [Hp Hs Hz Ho Hc Ha]. split; auto. intros E. destruct (Ha E) as (mask & Em & A). exists mask. split; auto. unfold ms_copy. cbn [ms_mask]. rewrite Em. auto. Qed.
Lemma update_ok : forall M r s sc, ms_ok M -> s <> [] -> Forall (slice_ok (ms_p M)) s -> scaling_fits sc (length s) -> ms_ok (fst (ms_update M r s sc)).
Proof. intros M r s sc [Hp Hs Hz Ho Hc Ha] N F C. unfold ms_update. destruct s as [|s0 s]; [congruence|]. destruct r; cbn [fst]; split; auto; discriminate. Qed.
Lemma run_ok : forall ops M, ms_ok M -> Forall (mop_ok (ms_p M)) ops ->
  ms_ok (mrun M ops) /\ ms_p (mrun M ops) = ms_p M /\ (ms_slices (mrun M ops), ms_scaling (mrun M ops)) = fold_left masked ops (ms_slices M, ms_scaling M).
Proof.
  induction ops as [|o ops IH]; intros M H F; [auto|]. inversion F as [|? ? F1 F2]; subst. change (mrun M (o :: ops)) with (mrun (mstep M o) ops). cbn [fold_left].
  assert (A : ms_ok (mstep M o) /\ ms_p (mstep M o) = ms_p M /\ (ms_slices (mstep M o), ms_scaling (mstep M o)) = masked (ms_slices M, ms_scaling M) o).
  { destruct o as [r s sc| |x|v|z sg]; cbn in F1; try contradiction; auto.
    - destruct F1 as (N & Fs & C). split; [apply update_ok; auto|]. unfold mstep, ms_update. destruct s as [|s0 s]; [congruence|]. destruct r; auto.
    - split; [apply copy_ok; auto|]. split; reflexivity. }
  destruct A as (A1 & A2 & A3). rewrite <- A3. destruct (IH (mstep M o) A1 ltac:(rewrite A2; auto)) as (B1 & B2 & B3). split; auto. split; [congruence|auto].
Qed.
(** Every history: linear_map averages over the intervals asked for last, adjoint_map is its adjoint. *)
Theorem multi_history : forall p minsize slices sc ops x v,
  (1 <= p)%nat -> size_ok minsize -> Forall (slice_ok p) slices -> scaling_fits sc (length (ms_slices (ms_new p minsize slices sc))) -> Forall (mop_ok p) ops ->
  let M0 := ms_new p minsize slices sc in let M := mrun M0 ops in let asked := fold_left masked ops (ms_slices M0, sc) in
  length x = p -> length v = length (fst asked) ->
  let y := doc_multi (fst asked) (snd asked) x in
  ms_linear M x = Ok y /\ ms_affine M x = Ok y /\ exists a, ms_adjoint M v = Ok a /\ length a = p /\ dot y v = dot x a.
Proof.
  intros p minsize slices sc ops x v Hp Hm Hs Hc Ho M0 M asked Lx Lv y.
  assert (K : ms_ok M0) by (apply new_ok; auto). assert (Ep : ms_p M0 = p) by (unfold M0, ms_new; destruct slices; auto). assert (Es : ms_scaling M0 = sc) by (unfold M0, ms_new; destruct slices; auto).
  destruct (run_ok ops M0 K ltac:(rewrite Ep; auto)) as (A & B & C). fold M in A, B, C. rewrite Es in C. fold asked in C. assert (E : ms_linear M x = Ok y).
  { rewrite linear_doc by (auto; congruence). unfold y. rewrite <- C. auto. }
  split; auto. split; auto. destruct (multi_adjoint M v A ltac:(rewrite Lv, <- C; auto)) as (a & E1 & E2 & _ & E3). exists a. split; auto. split; [congruence|]. rewrite <- E3 by congruence. unfold y. rewrite <- C. auto.
Qed.
(** Intervals that end with the signal are never among all of them. *)
Theorem multi_last_missing : forall p m sc, (1 <= m <= Z.of_nat p)%Z ->
  let last := (Z.of_nat p - m, Z.of_nat p)%Z in slice_ok p last /\ ~ In last (ms_slices (ms_new p (Some m) [] sc)).
Proof. intros p m sc H last. split; [unfold last, slice_ok; cbn; lia|]. intros C. apply all_slices in C. lia. Qed.
Lemma dot_ext : forall n a b, length a = n -> length b = n -> (forall x, length x = n -> dot x a = dot x b) -> a = b.
Proof.
  intros n a b La Lb H. apply vsub_eq_zero; [congruence|]. unfold sqn. assert (L : length (vsub a b) = n) by vlen. rewrite dot_sub_r by vlen. rewrite (H _ L). lra.
Qed.
(** Giving all the slices explicitly changes nothing. *)
Theorem multi_same : forall p minsize sc x v, (1 <= p)%nat -> size_ok minsize ->
  let A := ms_new p minsize [] sc in let B := ms_new p minsize (ms_slices A) sc in
  ms_slices A <> [] -> scaling_fits sc (length (ms_slices A)) -> length x = p -> length v = length (ms_slices A) -> ms_linear A x = ms_linear B x /\ ms_adjoint A v = ms_adjoint B v.
Proof.
  intros p minsize sc x v Hp Hm A B N Hc Lx Lv. assert (KA : ms_ok A) by (apply new_ok; auto).
  assert (EB : ms_slices B = ms_slices A /\ ms_p B = p /\ ms_scaling B = sc) by (unfold B, ms_new at 1 2 3; destruct (ms_slices A); [congruence|auto]). destruct EB as (E1 & E2 & E3).
  assert (KB : ms_ok B) by (apply new_ok; auto; [apply (ok_slices A KA)|fold B; rewrite E1; auto]).
  split; [rewrite !linear_doc by (auto; congruence); rewrite E1, E3; reflexivity|].
  destruct (multi_adjoint A v KA Lv) as (a & Ea & La & _ & Da). destruct (multi_adjoint B v KB ltac:(congruence)) as (b & Eb & Lb & _ & Db). rewrite Ea, Eb. f_equal. apply (dot_ext p); auto; [congruence|]. intros y Ly.
  rewrite <- Da, <- Db by (auto; congruence). rewrite E1, E3. reflexivity.
Qed.
(** Constants are sent to zero, and results of adjoint_map sum to zero. *)
Lemma center_const : forall n c, (1 <= n)%nat -> center (const_vec n c) = zeros n.
Proof.
  intros n c Hn. unfold const_vec, zeros. unfold M_affine.center. rewrite repeat_length. assert (S : vsum (repeat c n) = INR n * c). { clear Hn. induction n as [|n IH]; [unfold vsum; cbn; ring|]. cbn [repeat]. rewrite vsum_cons, IH, S_INR. ring. }
  rewrite S. replace (INR n * c / INR n) with c by (field; apply not_0_INR; lia). clear. induction n as [|n IH]; auto. cbn. rewrite IH. f_equal. ring.
Qed.
Theorem multi_constants : forall M c v, ms_ok M -> length v = length (ms_slices M) ->
  ms_linear M (const_vec (ms_p M) c) = Ok (zeros (length (ms_slices M))) /\ exists a, ms_adjoint M v = Ok a /\ vsum a = 0.
Proof.
  intros M c v H L. split.
  - rewrite linear_doc by (auto; apply repeat_length). f_equal. apply (nth_ext _ _ 0 0); [rewrite doc_length, zeros_length; auto|]. intros k Hk. rewrite doc_length in Hk. destruct H as [Hp Hs Hz Ho Hc Ha].
    rewrite (nth_doc (ms_p M)) by (auto; apply repeat_length). rewrite center_const by auto. unfold zeros at 2. rewrite nth_repeat.
    rewrite (sum_over_ext _ _ (fun _ => 0 * 0)); [rewrite sum_over_scal; unfold Rdiv; ring|]. intros l Hl. unfold zeros. rewrite nth_repeat. destruct hit; ring.
  - destruct (multi_adjoint M v H L) as (a & E & _ & Sa & _). exists a. auto.
Qed.
(** form_matrix: with the square roots of the sizes as scaling, linear_map multiplies by the transpose of the matrix. *)
Theorem multi_matrix : forall p slices cols len, (1 <= p)%nat -> slices <> [] -> Forall (slice_ok p) slices -> form_matrix p slices = Ok (cols, len) ->
  len = sizes_of slices /\ Forall (fun c => length c = p) cols /\
  forall minsize x, length x = p -> ms_linear (ms_new p minsize slices (FVec (map sqrt len))) x = Ok (map (fun c => dot c x) cols).
Proof.
  intros p slices cols len Hp N Hs E. unfold form_matrix in E. destruct existsb; [discriminate|]. inversion E; subst cols len. clear E.
  assert (El : map (fun ij : Z * Z => IZR (snd ij - fst ij)) slices = sizes_of slices). { unfold sizes_of. apply map_ext. intros [i j]. cbn. rewrite minus_IZR. ring. }
  split; auto. rewrite El. split.
  { apply Forall_forall. intros c Hc. apply in_map_iff in Hc. destruct Hc as (ij & <- & _). unfold form_column. rewrite map_length, center_len, map_length, seq_length. auto. }
  intros minsize x Lx. assert (Ls : length (sizes_of slices) = length slices) by (unfold sizes_of; apply map_length). assert (Fv : ms_slices (ms_new p minsize slices (FVec (map sqrt (sizes_of slices)))) = slices /\ ms_p (ms_new p minsize slices (FVec (map sqrt (sizes_of slices)))) = p) by (unfold ms_new; destruct slices; [congruence|auto]). destruct Fv as [Fv1 Fv2].
  assert (Fs : ms_scaling (ms_new p minsize slices (FVec (map sqrt (sizes_of slices)))) = FVec (map sqrt (sizes_of slices))) by (unfold ms_new; destruct slices; auto).
  assert (K : ms_ok (ms_new p minsize slices (FVec (map sqrt (sizes_of slices))))).
  { destruct slices as [|s0 sl]; [congruence|]. split; auto; [|discriminate]. cbn [ms_new ms_scaling ms_slices scaling_fits]. rewrite map_length. auto. }
  rewrite linear_doc by (auto; congruence). rewrite Fv1, Fs. f_equal. apply (nth_ext _ _ 0 0); [rewrite doc_length, !map_length; auto|]. intros k Hk. rewrite doc_length in Hk. rewrite (nth_doc p) by auto. cbn [factor].
  rewrite map_map. rewrite (nth_map_any (fun ij => dot (form_column p ij) x) slices k (0, 0)%Z) by auto. rewrite (nth_map_any sqrt (sizes_of slices) k 0) by congruence.
  assert (Hit : forall l, hit slices k l = inside (Z.to_nat (fst (nth k slices (0, 0)%Z))) (Z.to_nat (snd (nth k slices (0, 0)%Z))) l) by (intros; unfold hit; destruct (nth k slices (0, 0)%Z); auto).
  unfold sizes_of. rewrite !(nth_map_any (fun ij : Z * Z => IZR (snd ij) - IZR (fst ij) * 1) slices k (0, 0)%Z) by auto.
  rewrite (sum_over_ext p _ (fun l => if inside (Z.to_nat (fst (nth k slices (0, 0)%Z))) (Z.to_nat (snd (nth k slices (0, 0)%Z))) l then nth l (center x) 0 else 0)) by (intros; rewrite Hit; auto).
  pose proof (proj1 (Forall_forall _ _) Hs _ (nth_In _ (0, 0)%Z Hk)) as [A B]. destruct (nth k slices (0, 0)%Z) as [i j]. cbn [fst snd] in *. unfold form_column. cbn [fst snd]. rewrite !py_end_pos by lia.
  set (col := map (fun l => if ((Z.to_nat i <=? l) && (l <? Z.to_nat j))%nat%bool then 1 else 0) (seq 0 p)). assert (Lc : length col = p) by (unfold col; rewrite map_length, seq_length; auto).
  rewrite Rmult_1_r, <- minus_IZR. set (s := IZR (j - i)). assert (Sp : 0 < s) by (apply IZR_lt; lia). pose proof (sqrt_lt_R0 s Sp) as Rp.
  replace (map (fun a => a / sqrt s) (center col)) with (vscal (/ sqrt s) (center col)) by (unfold vscal; apply map_ext; intros; unfold Rdiv; ring).
  rewrite dot_scal_l, dot_center_sym by congruence. rewrite (dot_index p) by (rewrite ?center_len; auto).
  rewrite (sum_over_ext p (fun i0 => nth i0 col 0 * nth i0 (center x) 0) (fun l => if inside (Z.to_nat i) (Z.to_nat j) l then nth l (center x) 0 else 0)).
  - set (S := sum_over p _). rewrite <- (sqrt_sqrt s) at 2 by lra. field. lra.
  - intros l Hl. unfold col. rewrite (nth_map_seq (fun l => if ((Z.to_nat i <=? l) && (l <? Z.to_nat j))%nat%bool then 1 else 0)) by auto. fold (inside (Z.to_nat i) (Z.to_nat j) l). destruct inside; ring.
Qed.

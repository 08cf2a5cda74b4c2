(** Folds of cross-validation: proofs. *)
From Coq Require Import Reals ZArith List Lia Lra Permutation Arith Bool Sorted.
From Verif Require Import M_affine M_buffer P_buffer Vec Spec M_quad SpecConvex M_loss SpecLoss P_quad P_calc P_sep P_loss P_loss2 P_loss4 M_cv SpecCv.
Import ListNotations.

(** ** np.unique *)
Lemma insert_in : forall z l a, In a (insert z l) <-> a = z \/ In a l.
Proof.
  intros z l. induction l as [|b r IH]; intros a; cbn [insert]; [cbn; split; intros [H|H]; auto|].
  destruct (Z.ltb_spec z b); [cbn; split; intros [H1|H1]; auto|]. destruct (Z.eqb_spec z b); [subst b; cbn; split; [auto|intros [->|H1]; auto]|].
  cbn [In]. rewrite IH. tauto.
Qed.
Lemma insert_sorted : forall z l, StronglySorted Z.lt l -> StronglySorted Z.lt (insert z l).
Proof.
  intros z l S. induction S as [|b r S IH F]; cbn [insert]; [repeat constructor|].
  destruct (Z.ltb_spec z b); [constructor; [constructor; auto|]; constructor; auto; rewrite Forall_forall in *; intros a Ha; specialize (F a Ha); lia|].
  destruct (Z.eqb_spec z b); [constructor; auto|]. constructor; auto. rewrite Forall_forall in *. intros a Ha. apply insert_in in Ha. destruct Ha as [->|Ha]; [lia|auto].
Qed.
Lemma unique_in : forall l a, In a (unique l) <-> In a l.
Proof. intros l a. induction l as [|b r IH]; cbn; [tauto|]. fold (unique r). rewrite insert_in, IH. split; intros [H|H]; auto. Qed.
Lemma unique_sorted : forall l, StronglySorted Z.lt (unique l).
Proof. intros l. induction l; cbn; [constructor|]. apply insert_sorted. auto. Qed.
Lemma sorted_nodup : forall l, StronglySorted Z.lt l -> NoDup l.
Proof. intros l S. induction S as [|b r S IH F]; constructor; auto. intros I. rewrite Forall_forall in F. specialize (F b I). lia. Qed.
Lemma unique_nodup : forall l, NoDup (unique l).
Proof. intros. apply sorted_nodup, unique_sorted. Qed.

(** ** partition *)
Lemma mask_nth : forall (p : Z -> bool) l i, (i < length l)%nat -> nth i (map p l) false = p (nth i l 0%Z).
Proof. intros p l i H. rewrite (nth_indep _ false (p 0%Z)) by (rewrite map_length; auto). apply map_nth. Qed.
Theorem folds_partition : forall groups, partitions (length groups) (make_folds groups).
Proof.
  intros groups. split.
  - unfold make_folds. rewrite Forall_forall. intros f Hf. apply in_map_iff in Hf. destruct Hf as (g & <- & Hg). cbn [fst snd]. split; [apply map_length|]. split; [rewrite map_map; auto|].
    rewrite unique_in in Hg. destruct (In_nth _ _ 0%Z Hg) as (i & Hi & E). exists i. split; [exact Hi|]. rewrite mask_nth by auto. rewrite E. apply Z.eqb_refl.
  - intros i Hi. assert (U := unique_nodup groups). assert (I : In (nth i groups 0%Z) (unique groups)) by (apply unique_in, nth_In; auto). destruct (In_nth _ _ 0%Z I) as (k & Hk & E).
    assert (X : forall k, (k < length (unique groups))%nat -> nth i (snd (nth k (make_folds groups) ([], []))) false = Z.eqb (nth i groups 0%Z) (nth k (unique groups) 0%Z)).
    { intros j Hj. unfold make_folds. set (F := fun g : Z => (map (fun a : Z => negb (a =? g)%Z) groups, map (fun a : Z => (a =? g)%Z) groups)).
      rewrite (nth_indep _ ([], []) (F 0%Z)) by (rewrite map_length; auto). rewrite map_nth. unfold F. cbn [snd]. rewrite mask_nth by auto. auto. }
    assert (L : length (make_folds groups) = length (unique groups)) by apply map_length.
    exists k. split; [split; [lia|rewrite X by auto; rewrite E; apply Z.eqb_refl]|]. intros j (Hj & Ej). rewrite L in Hj. rewrite X in Ej by auto. apply Z.eqb_eq in Ej. rewrite <- E in Ej.
    apply (NoDup_nth (unique groups) 0%Z) in Ej; auto.
Qed.

(** ** sizes *)
Lemma size_mask : forall g l, size (map (fun a => Z.eqb a g) l) = count_occ Z.eq_dec l g.
Proof. intros g l. unfold size. induction l as [|a r IH]; auto. cbn [map count_occ]. rewrite IH. destruct (Z.eqb_spec a g); destruct (Z.eq_dec a g); try lia; destruct (bool_dec _ _); congruence. Qed.
Lemma size_perm : forall g l l', Permutation l l' -> count_occ Z.eq_dec l g = count_occ Z.eq_dec l' g.
Proof. intros g l l' P. apply (proj1 (Permutation_count_occ Z.eq_dec l l') P). Qed.
Lemma unique_perm_length : forall l l', Permutation l l' -> length (unique l) = length (unique l').
Proof.
  intros l l' P. apply Nat.le_antisymm; apply NoDup_incl_length; try apply unique_nodup; intros a; rewrite !unique_in; apply Permutation_in; auto using Permutation_sym.
Qed.
(** how many i < n have lo <= i < hi *)
Lemma count_between : forall (p : nat -> Z) (g : Z) n lo hi, (lo <= hi <= n)%nat -> (forall i, (i < n)%nat -> p i = g <-> (lo <= i < hi)%nat) -> count_occ Z.eq_dec (map p (seq 0 n)) g = (hi - lo)%nat.
Proof.
  intros p g n lo hi B H. replace n with (lo + ((hi - lo) + (n - hi)))%nat by lia. rewrite !seq_app, !map_app, !count_occ_app.
  assert (Out : forall s k, (forall i, (s <= i < s + k)%nat -> p i <> g) -> count_occ Z.eq_dec (map p (seq s k)) g = 0%nat).
  { intros s k. revert s. induction k as [|k IH]; intros s Hs; auto. cbn. destruct (Z.eq_dec (p s) g) as [E|E]; [exfalso; apply (Hs s); auto; lia|]. apply IH. intros. apply Hs. lia. }
  assert (Ins : forall s k, (forall i, (s <= i < s + k)%nat -> p i = g) -> count_occ Z.eq_dec (map p (seq s k)) g = k).
  { intros s k. revert s. induction k as [|k IH]; intros s Hs; auto. cbn. destruct (Z.eq_dec (p s) g) as [E|E]; [|exfalso; apply E, Hs; lia]. f_equal. apply IH. intros. apply Hs. lia. }
  rewrite (Out 0%nat) by (intros i Hi E; apply H in E; lia). rewrite (Ins (0 + lo)%nat) by (intros i Hi; apply H; lia). rewrite Out by (intros i Hi E; apply H in E; lia). lia.
Qed.
Definition zceil (a b : Z) : Z := ((a + b - 1) / b)%Z.
Lemma zceil_le : forall a b i, (0 < b)%Z -> (zceil a b <= i <-> a <= i * b)%Z.
Proof. intros a b i Hb. unfold zceil. assert (D := Z.div_mod (a + b - 1) b ltac:(lia)). assert (M := Z.mod_pos_bound (a + b - 1) b Hb). split; intros; nia. Qed.
Lemma exact_size : forall n cv g, (0 < cv)%Z -> (0 <= g < cv)%Z ->
  let q := (Z.of_nat n / cv)%Z in (q <= Z.of_nat (count_occ Z.eq_dec (labels exact_label n cv) g) <= q + 1)%Z.
Proof.
  intros n cv g Hc Hg q. set (N := Z.of_nat n). destruct (Nat.eq_dec n 0) as [->|Hn]; [cbn; unfold q; cbn; lia|].
  assert (HN : (0 < N)%Z) by lia. set (lo := zceil (g * N) cv). set (hi := zceil ((g + 1) * N) cv).
  assert (L0 : (0 <= lo)%Z). { unfold lo, zceil. apply Z.div_pos; nia. }
  assert (LH : (lo <= hi)%Z). { apply zceil_le; auto. assert (H := proj1 (zceil_le ((g + 1) * N) cv hi Hc) (Z.le_refl _)). nia. }
  assert (HH : (hi <= N)%Z). { apply zceil_le; auto. nia. }
  unfold labels. rewrite (count_between _ g n (Z.to_nat lo) (Z.to_nat hi)); [|lia|].
  - assert (A := proj1 (zceil_le (g * N) cv lo Hc) (Z.le_refl _)). assert (B := proj1 (zceil_le ((g + 1) * N) cv hi Hc) (Z.le_refl _)).
    assert (A' : ((lo - 1) * cv < g * N)%Z). { apply Z.nle_gt. intros X. rewrite <- (zceil_le (g * N) cv (lo - 1)) in X; auto. unfold lo in *. lia. }
    assert (B' : ((hi - 1) * cv < (g + 1) * N)%Z). { apply Z.nle_gt. intros X. rewrite <- (zceil_le ((g + 1) * N) cv (hi - 1)) in X; auto. unfold hi in *. lia. }
    assert (D := Z.div_mod N cv ltac:(lia)). assert (M := Z.mod_pos_bound N cv Hc). change (N / cv)%Z with q in D. rewrite Nat2Z.inj_sub, !Z2Nat.id by lia.
    assert (K1 : (N - cv < (hi - lo) * cv)%Z) by lia. assert (K2 : ((hi - lo) * cv < N + cv)%Z) by lia. clearbody q N. set (k := (hi - lo)%Z) in *. clearbody k. split; apply Z.lt_succ_r; apply (Z.mul_lt_mono_pos_r cv); lia.
  - intros i Hi. unfold exact_label. fold N. assert (D := Z.div_mod (Z.of_nat i * cv) N ltac:(lia)). assert (M := Z.mod_pos_bound (Z.of_nat i * cv) N HN).
    assert (L := zceil_le (g * N) cv (Z.of_nat i) Hc). assert (U := zceil_le ((g + 1) * N) cv (Z.of_nat i) Hc). fold lo in L. fold hi in U. split.
    + intros E. rewrite E in D. split; [apply Nat2Z.inj_le; rewrite Z2Nat.id by lia; apply L; nia|]. apply Nat2Z.inj_lt. rewrite Z2Nat.id by lia. apply Z.nle_gt. intros X. apply U in X. nia.
    + intros (H1 & H2). apply Nat2Z.inj_le in H1. apply Nat2Z.inj_lt in H2. rewrite Z2Nat.id in H1, H2 by lia. apply L in H1. assert (~ (hi <= Z.of_nat i)%Z) by lia. rewrite U in H. nia.
Qed.
Lemma exact_range : forall n cv i, (0 < cv)%Z -> (i < n)%nat -> (0 <= exact_label n cv i < cv)%Z.
Proof. intros n cv i Hc Hi. unfold exact_label. split; [apply Z.div_pos; nia|]. apply Z.div_lt_upper_bound; nia. Qed.
Lemma exact_labels_range : forall n cv g, (0 < cv)%Z -> In g (labels exact_label n cv) -> (0 <= g < cv)%Z.
Proof. intros n cv g Hc H. unfold labels in H. apply in_map_iff in H. destruct H as (i & <- & Hi). apply in_seq in Hi. apply exact_range; auto. lia. Qed.
Theorem exact_balanced : forall sh n cv fs, shuffles sh -> (0 < cv)%Z -> cv_folds exact_label sh (Some cv) n = Ok fs -> balanced fs /\ length fs = Nat.min n (Z.to_nat cv).
Proof.
  intros sh n cv fs Hs Hc E. cbn in E. apply Ok_inj in E. subst fs. assert (P := Hs (labels exact_label n cv)). split.
  - intros f g Hf Hg. unfold make_folds in *. apply in_map_iff in Hf, Hg. destruct Hf as (a & <- & Ha). destruct Hg as (b & <- & Hb). cbn [snd]. rewrite !size_mask, <- !(size_perm _ _ _ P).
    rewrite unique_in in Ha, Hb. apply (Permutation_in _ (Permutation_sym P)) in Ha, Hb. apply exact_labels_range in Ha, Hb; auto.
    assert (X := exact_size n cv a Hc Ha). assert (Y := exact_size n cv b Hc Hb). cbv zeta in X, Y. lia.
  - unfold make_folds. rewrite map_length, <- (unique_perm_length _ _ P). destruct (Z.le_gt_cases cv (Z.of_nat n)) as [Le|Gt].
    + replace (Nat.min n (Z.to_nat cv)) with (Z.to_nat cv) by lia.
      assert (S : forall a, In a (unique (labels exact_label n cv)) <-> In a (map Z.of_nat (seq 0 (Z.to_nat cv)))).
      { intros a. rewrite unique_in. split.
        - intros H. apply exact_labels_range in H; auto. apply in_map_iff. exists (Z.to_nat a). split; [lia|]. apply in_seq. lia.
        - intros H. apply in_map_iff in H. destruct H as (i & <- & Hi). apply in_seq in Hi. apply (count_occ_In Z.eq_dec). assert (X := exact_size n cv (Z.of_nat i) Hc ltac:(lia)). cbv zeta in X.
          assert (1 <= Z.of_nat n / cv)%Z by (apply Z.div_le_lower_bound; lia). lia. }
      assert (ND : NoDup (map Z.of_nat (seq 0 (Z.to_nat cv)))). { apply FinFun.Injective_map_NoDup; [intros x y; lia|apply seq_NoDup]. }
      rewrite <- (seq_length (Z.to_nat cv) 0), <- (map_length Z.of_nat). apply Nat.le_antisymm; apply NoDup_incl_length; auto using unique_nodup; intros a; apply S.
    + replace (Nat.min n (Z.to_nat cv)) with n by lia.
      assert (ND : NoDup (labels exact_label n cv)).
      { apply (NoDup_count_occ Z.eq_dec). intros g. destruct (in_dec Z.eq_dec g (labels exact_label n cv)) as [I|I].
        - apply exact_labels_range in I; auto. assert (X := exact_size n cv g Hc I). cbv zeta in X. rewrite Z.div_small in X by lia. lia.
        - apply (count_occ_not_In Z.eq_dec) in I. lia. }
      assert (L : length (labels exact_label n cv) = n) by (unfold labels; rewrite map_length, seq_length; auto). rewrite <- L at 2.
      apply Nat.le_antisymm; apply NoDup_incl_length; auto using unique_nodup; intros a; apply unique_in.
Qed.
Theorem cv_partition : forall label sh n cv fs, shuffles sh -> cv_folds label sh cv n = Ok fs -> partitions n fs.
Proof.
  intros label sh n cv fs Hs E. destruct cv as [k|]; [|discriminate]. cbn in E. apply Ok_inj in E. subst fs. assert (L : length (sh (labels label n k)) = n).
  { rewrite <- (Permutation_length (Hs (labels label n k))). unfold labels. rewrite map_length, seq_length. auto. }
  rewrite <- L at 1. apply folds_partition.
Qed.
(** 44 samples, 22 folds, in binary64: folds of 3 and of 1; 22 samples, 22 folds: 21 folds only *)
Theorem double_unbalanced : forall sh, shuffles sh -> exists fs, cv_folds double_label sh (Some 22%Z) 44 = Ok fs /\ ~ balanced fs /\
  (exists f g, In f fs /\ In g fs /\ size (snd f) = 3%nat /\ size (snd g) = 1%nat).
Proof.
  intros sh Hs. eexists. split; [reflexivity|]. set (G := sh (labels double_label 44 22)).
  assert (C : forall g, count_occ Z.eq_dec G g = count_occ Z.eq_dec (labels double_label 44 22) g) by (intros; symmetry; apply size_perm, Hs).
  assert (X : exists f g, In f (make_folds G) /\ In g (make_folds G) /\ size (snd f) = 3%nat /\ size (snd g) = 1%nat).
  { assert (M : forall g, (0 < count_occ Z.eq_dec (labels double_label 44 22) g)%nat -> exists f, In f (make_folds G) /\ size (snd f) = count_occ Z.eq_dec (labels double_label 44 22) g).
    { intros g Hg. eexists. split; [unfold make_folds; apply in_map; apply unique_in; apply (count_occ_In Z.eq_dec); rewrite C; exact Hg|]. cbn [snd]. rewrite size_mask. apply C. }
    destruct (M 14%Z) as (f & Hf & Sf); [vm_compute; lia|]. destruct (M 15%Z) as (g & Hg & Sg); [vm_compute; lia|]. exists f, g. split; [exact Hf|split; [exact Hg|split; [rewrite Sf|rewrite Sg]; vm_compute; reflexivity]]. }
  split; [|auto]. destruct X as (f & g & Hf & Hg & Sf & Sg). intros B. specialize (B f g Hf Hg). lia.
Qed.
Theorem double_missing : forall sh, shuffles sh -> exists fs, cv_folds double_label sh (Some 22%Z) 22 = Ok fs /\ length fs = 21%nat.
Proof.
  intros sh Hs. eexists. split; [reflexivity|]. unfold make_folds. rewrite map_length, <- (unique_perm_length _ _ (Hs (labels double_label 22 22))). vm_compute. auto.
Qed.

Local Open Scope R_scope.
(** ** the loss of a training fold *)
Lemma subsample_weights : forall h l idx, made h l -> copies_weights (l_fam l) = true \/ l_cw l = None -> Forall (fun i => (i < l_shape l)%nat) idx ->
  exists h' l', subsample_loss h l idx = (h', Ok l') /\ (forall r, (r < length h)%nat -> read h' r = read h r) /\ l_fam l' = l_fam l /\ l_shape l' = l_shape l /\ l_coef l' = l_coef l /\ l_offset l' = l_offset l /\
    exists w, l_cw l' = Some w /\ (w < length h')%nat /\ read h' w = restrict idx (own_weights h l) /\ length (read h' w) = l_shape l.
Proof.
  intros h l idx M C F. destruct (copy_works h l M C) as (h1 & l1 & E1 & (S1 & S2 & S3 & S4) & M1 & W & Lh & R & Fr & Nn & _). unfold subsample_loss. rewrite E1.
  replace (forallb (fun i => Nat.ltb i (l_shape l)) idx) with true by (symmetry; apply forallb_forall; rewrite Forall_forall in F; intros i Hi; apply Nat.ltb_lt; auto). cbn [negb].
  destruct (l_cw l1) as [w|] eqn:Ew.
  - destruct (made_weights h1 l1 w M1 Ew) as (Lw & Nw & Bw). eexists. eexists. split; [reflexivity|]. split.
    + intros r Hr. rewrite read_write_other; [auto|]. specialize (Fr w eq_refl). lia.
    + split; [auto|]. split; [auto|]. split; [auto|]. split; [auto|]. exists w. split; [auto|]. split; [rewrite write_length; auto|]. rewrite read_write_same by auto. rewrite indicator_restrict, restrict_length. split; [|congruence].
      unfold own_weights in W at 1. rewrite Ew in W. rewrite W. auto.
  - eexists. eexists. split; [reflexivity|]. split.
    + intros r Hr. rewrite read_app by lia. auto.
    + split; [auto|]. split; [auto|]. split; [auto|]. split; [auto|]. exists (length h1). split; [auto|]. split; [rewrite app_length; cbn; lia|]. rewrite read_new.
      assert (X := indicator_restrict idx (ones (l_shape l))). rewrite ones_length in X. rewrite X, restrict_length, ones_length. split; [|auto]. unfold own_weights. replace (l_cw l) with (@None ref) by (symmetry; apply Nn; auto). auto.
Qed.
Lemma picked_in : forall mask i, In i (picked mask) <-> (i < length mask)%nat /\ nth i mask false = true.
Proof. intros mask i. unfold picked. rewrite filter_In, in_seq. split; intros (A & B); split; auto; lia. Qed.
Lemma picked_size : forall mask, length (picked mask) = size mask.
Proof.
  intros mask. unfold picked, size. assert (G : forall k f, (forall i, (i < length mask)%nat -> f (k + i)%nat = nth i mask false) -> length (filter f (seq k (length mask))) = count_occ bool_dec mask true).
  { induction mask as [|b r IH]; intros k f Hf; auto. cbn [length seq filter count_occ]. assert (H0 := Hf 0%nat ltac:(cbn; lia)). rewrite Nat.add_0_r in H0. cbn in H0. rewrite H0.
    assert (X : length (filter f (seq (S k) (length r))) = count_occ bool_dec r true). { apply IH. intros i Hi. specialize (Hf (S i) ltac:(cbn; lia)). rewrite Nat.add_succ_r in Hf. exact Hf. }
    destruct b; cbn [length]; rewrite X; auto. }
  apply (G 0%nat). auto.
Qed.
Theorem fold_loss_value : forall h l train, made h l -> copies_weights (l_fam l) = true \/ l_cw l = None -> length train = l_shape l -> (0 < size train)%nat ->
  exists h' l', fold_loss h l train = (h', Ok l') /\ (forall r, (r < length h)%nat -> read h' r = read h r) /\
    forall x, length x = l_shape l -> Forall (exact_case (l_fam l)) (predictor (l_fam l) (l_offset l) x) ->
      snd (loss_eval h' l' None x EvFunc) = Ok (VFunc (l_coef l * (INR (l_shape l) / INR (size train)) *
        sum_over (l_shape l) (fun i => if nth i train false then nth i (own_weights h l) 0 * doc_case (l_fam l) i (nth i (predictor (l_fam l) (l_offset l) x) 0) else 0))).
Proof.
  intros h l train M C Lt Hs. assert (F : Forall (fun i => (i < l_shape l)%nat) (picked train)). { rewrite Forall_forall. intros i Hi. apply picked_in in Hi. lia. }
  destruct (subsample_weights h l (picked train) M C F) as (h' & l' & E & R & S1 & S2 & S3 & S4 & w & Ew & Bw & Vw & Lw). unfold fold_loss. rewrite E. cbn [rbind]. rewrite picked_size.
  destruct (Nat.eqb_spec (size train) 0) as [Z|NZ]; [lia|]. eexists. eexists. split; [reflexivity|]. split; [auto|]. intros x Lx EC. unfold loss_eval.
  match goal with |- context [weigh ?h ?l None ?n] => destruct (weigh h l None n) as [h2 c] eqn:Ec end. destruct (weigh_own _ _ _ _ _ Ec) as (V & _ & _).
  { cbn. intros w' Hw'. rewrite Ew in Hw'. injection Hw' as <-. auto. }
  { cbn. intros w' Hw'. rewrite Ew in Hw'. injection Hw' as <-. lia. }
  cbn in V. rewrite Ew in V. cbn [snd l_fam l_coef l_offset]. rewrite V, Vw, S1, S3, S4. unfold smooth_value. f_equal. f_equal.
  destruct M as (off & q & En & Bm & Fm & Om). assert (Oo : off_fits (l_shape l) (l_offset l)).
  { destruct (new_loss_fields _ _ _ _ _ _ _ _ En) as (_ & _ & _ & _ & -> & _). destruct off as [v|]; cbn; auto. destruct (all_zero v); cbn; auto. }
  assert (Lr : length (restrict (picked train) (own_weights h l)) = l_shape l) by (rewrite <- Vw; auto).
  rewrite (loss_value (l_fam l) (l_shape l)) by auto. unfold doc_loss. rewrite Lt. f_equal. apply sum_over_ext. intros i Hi. unfold restrict. rewrite restrict_length in Lr.
  rewrite (nth_indep _ 0 ((fun i => if in_dec Nat.eq_dec i (picked train) then nth i (own_weights h l) 0 else 0) 0%nat)) by (rewrite map_length, seq_length; lia).
  rewrite (map_nth (fun i => if in_dec Nat.eq_dec i (picked train) then nth i (own_weights h l) 0 else 0)), seq_nth by lia. cbn [plus]. destruct (in_dec Nat.eq_dec i (picked train)) as [I|I].
  - apply picked_in in I. destruct I as (_ & ->). auto.
  - destruct (nth i train false) eqn:Et; [|ring]. exfalso. apply I, picked_in. split; auto. lia.
Qed.
(** One fold: no training sample is left *)
Theorem one_fold : forall h l, made h l -> copies_weights (l_fam l) = true \/ l_cw l = None -> snd (fold_loss h l (repeat false (l_shape l))) = Err NaNResult.
Proof.
  intros h l M C. assert (P : picked (repeat false (l_shape l)) = []). { destruct (picked (repeat false (l_shape l))) as [|i r] eqn:E; auto. exfalso. assert (I : In i (picked (repeat false (l_shape l)))) by (rewrite E; cbn; auto). apply picked_in in I. destruct I as (Hi & Ei). rewrite repeat_length in Hi. rewrite nth_repeat in Ei. discriminate. }
  unfold fold_loss. rewrite P. destruct (subsample_weights h l [] M C (Forall_nil _)) as (h' & l' & E & _). rewrite E. auto.
Qed.
(** ** the average score *)
Lemma filter_sum : forall (F : nat -> R) p k n, vsum (map F (filter p (seq k n))) = vsum (map (fun i => if p i then F i else 0) (seq k n)).
Proof. intros F p k n. revert k. induction n as [|n IH]; intros k; [reflexivity|]. cbn [seq filter map]. destruct (p k); cbn [map]; rewrite ?vsum_cons, ?IH; auto. ring. Qed.
Lemma picked_sum : forall mask n F, length mask = n -> vsum (map F (picked mask)) = sum_over n (fun i => if nth i mask false then F i else 0).
Proof. intros mask n F <-. unfold picked, sum_over. apply filter_sum. Qed.
Lemma sqn_rows : forall mask n x y, length mask = n -> sqn (vsub (rows_of mask x) (rows_of mask y)) = sum_over n (fun i => if nth i mask false then (nth i x 0 - nth i y 0) * (nth i x 0 - nth i y 0) else 0).
Proof.
  intros mask n x y L. rewrite <- (picked_sum mask n (fun i => (nth i x 0 - nth i y 0) * (nth i x 0 - nth i y 0)) L). unfold rows_of, gather. generalize (picked mask) as l.
  induction l as [|i r IH]; [reflexivity|]. cbn [map]. rewrite vsum_cons, <- IH. unfold vsub, sqn, dot, vmul. cbn [vzip map]. rewrite vsum_cons. auto.
Qed.
Lemma sum_over_single : forall K k F, (k < K)%nat -> (forall m, (m < K)%nat -> m <> k -> F m = 0) -> sum_over K F = F k.
Proof.
  induction K as [|K IH]; intros k F Hk H; [lia|]. rewrite P_sep.sum_over_S. destruct (Nat.eq_dec k K) as [->|N].
  - rewrite (sum_over_ext K F (fun _ => 0 * 0)) by (intros i Hi; rewrite (H i) by lia; ring). rewrite (sum_over_scal K 0 (fun _ => 0)). ring.
  - rewrite (H K) by lia. rewrite (IH k) by (auto; lia). ring.
Qed.
Lemma vsum_map_index : forall {A} (G : A -> R) (d : A) l, vsum (map G l) = sum_over (length l) (fun k => G (nth k l d)).
Proof. intros A G d l. rewrite (vsum_index (length l)) by apply map_length. apply sum_over_ext. intros i Hi. rewrite (nth_indep _ 0 (G d)) by (rewrite map_length; auto). apply map_nth. Qed.
Lemma sum_over_swap : forall n m (F : nat -> nat -> R), sum_over n (fun i => sum_over m (fun j => F i j)) = sum_over m (fun j => sum_over n (fun i => F i j)).
Proof.
  induction n as [|n IH]; intros m F.
  - change (0 = sum_over m (fun _ => 0)). rewrite (sum_over_ext m (fun _ => 0) (fun _ => 0 * 0)) by (intros; ring). rewrite (sum_over_scal m 0 (fun _ => 0)). ring.
  - rewrite P_sep.sum_over_S, IH, <- sum_over_plus. apply sum_over_ext. intros j _. rewrite P_sep.sum_over_S. auto.
Qed.
Section Scores.
Variable n : nat.
Variable fs : list (list bool * list bool).
Hypothesis HP : partitions n fs.
Variable k : nat -> nat.
Hypothesis HK : forall i, (i < n)%nat -> (k i < length fs)%nat /\ nth i (snd (nth (k i) fs ([], []))) false = true.
Lemma by_fold : forall G : nat -> nat -> R, sum_over (length fs) (fun m => sum_over n (fun i => if nth i (snd (nth m fs ([], []))) false then G m i else 0)) = sum_over n (fun i => G (k i) i).
Proof.
  intros G. rewrite sum_over_swap. apply sum_over_ext. intros i Hi. destruct (HK i Hi) as (K1 & K2). rewrite (sum_over_single _ (k i)); auto; [rewrite K2; auto|].
  intros m Hm N. destruct (nth i (snd (nth m fs ([], []))) false) eqn:E; auto. exfalso. apply N. destruct HP as (_ & U). destruct (U i Hi) as (u & _ & Hu). rewrite <- (Hu m) by auto. apply Hu. auto.
Qed.
Lemma mask_length : forall m, (m < length fs)%nat -> length (snd (nth m fs ([], []))) = n.
Proof. intros m Hm. destruct HP as (F & _). rewrite Forall_forall in F. apply (F (nth m fs ([], []))). apply nth_In. auto. Qed.
Lemma sizes_add : sum_over (length fs) (fun m => INR (size (snd (nth m fs ([], []))))) = INR n.
Proof.
  rewrite (sum_over_ext _ _ (fun m => sum_over n (fun i => if nth i (snd (nth m fs ([], []))) false then 1 else 0))).
  - rewrite (by_fold (fun _ _ => 1)). unfold sum_over. clear. generalize 0%nat as s. induction n as [|j IH]; intros s; [reflexivity|]. cbn [seq map]. rewrite vsum_cons, IH, S_INR. ring.
  - intros m Hm. rewrite <- picked_size, <- (picked_sum _ n (fun _ => 1)) by (apply mask_length; auto). generalize (picked (snd (nth m fs ([], [])))) as l. induction l; [reflexivity|]. cbn [length map]. rewrite vsum_cons, S_INR, IHl. ring.
Qed.
(** Equal folds: the average of the default scores is the mean squared error with each sample predicted by the fold that holds it out. *)
Theorem mean_held_out : forall X y nl fitted s j, (forall f, In f fs -> size (snd f) = s) -> length y = n -> (0 < n)%nat -> (forall f, In f fs -> length (fitted (fst f)) = nl) -> (j < nl)%nat ->
  nth j (cv_means squared_score X y fs nl fitted) 0 =
  / INR n * sum_over n (fun i => (nth i (X (nth j (fitted (fst (nth (k i) fs ([], [])))) [])) 0 - nth i y 0) * (nth i (X (nth j (fitted (fst (nth (k i) fs ([], [])))) [])) 0 - nth i y 0)).
Proof.
  intros X y nl fitted s j Hs Ly Hn Hf Hj. unfold cv_means, mean_scores. rewrite (nth_indep _ 0 ((fun i => vsum (map (fun s => nth i s 0) (map (fun f => fold_scores squared_score X y (snd f) (fitted (fst f))) fs)) / INR (length (map (fun f => fold_scores squared_score X y (snd f) (fitted (fst f))) fs))) 0%nat)) by (rewrite map_length, seq_length; auto).
  match goal with |- nth j (map ?F _) _ = _ => rewrite (map_nth F) end. rewrite seq_nth by auto. cbn [plus]. rewrite map_length, map_map, (vsum_map_index _ ([], [])).
  assert (S := sizes_add). rewrite (sum_over_ext _ _ (fun _ => INR s * 1)) in S by (intros m Hm; rewrite (Hs (nth m fs ([], []))) by (apply nth_In; auto); ring). rewrite (sum_over_scal _ (INR s) (fun _ => 1)) in S.
  assert (O : forall a b, vsum (map (fun _ : nat => 1) (seq a b)) = INR b). { intros a b. revert a. induction b as [|b IH]; intros a; [reflexivity|]. cbn [seq map]. rewrite vsum_cons, IH, S_INR. ring. }
  unfold sum_over in S at 1. rewrite O in S. assert (Pn : 0 < INR n) by (apply lt_0_INR; auto). assert (Ps : 0 < INR s). { destruct (Rle_lt_or_eq_dec _ _ (pos_INR s)) as [?|E]; auto. rewrite <- E in S. lra. }
  assert (Pl : 0 < INR (length fs)). { destruct (Rle_lt_or_eq_dec _ _ (pos_INR (length fs))) as [?|E]; auto. rewrite <- E in S. lra. }
  rewrite (sum_over_ext _ _ (fun m => / INR s * sum_over n (fun i => if nth i (snd (nth m fs ([], []))) false then (nth i (X (nth j (fitted (fst (nth m fs ([], [])))) [])) 0 - nth i y 0) * (nth i (X (nth j (fitted (fst (nth m fs ([], [])))) [])) 0 - nth i y 0) else 0))).
  - rewrite sum_over_scal, by_fold. rewrite <- S. field. lra.
  - intros m Hm. unfold fold_scores. assert (I := nth_In fs ([], []) Hm). rewrite (nth_indep _ 0 ((fun b => squared_score (rows_of (snd (nth m fs ([], []))) (X b)) (rows_of (snd (nth m fs ([], []))) y)) [])) by (rewrite map_length, Hf; auto).
    match goal with |- nth j (map ?F _) _ = _ => rewrite (map_nth F) end. unfold squared_score. rewrite (sqn_rows _ n) by (apply mask_length; auto). unfold rows_of at 1, gather. rewrite map_length, picked_size, Hs by auto. unfold Rdiv. ring.
Qed.
End Scores.

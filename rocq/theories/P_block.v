(** Block norms: rows, polarity, values. *)
From Coq Require Import Reals List Lra Lia Psatz Bool Arith.
From Verif Require Import Vec Spec SpecAtom M_quad M_prox M_semi M_shift M_mode SpecBase SpecMode SpecModed SpecWeighted SpecPart SpecBlock M_block SpecBatom
  P_pl P_quad P_prox P_feas P_gauge P_part P_slope P_mixed P_group.
Import ListNotations.
Local Open Scope R_scope.

(** ** Rows *)
Lemma rows_length : forall r c x, length (rows r c x) = r.
Proof. induction r as [|r IH]; intros c x; simpl; auto. Qed.
Lemma rows_lengths : forall r c x, length x = (r * c)%nat -> Forall (fun row => length row = c) (rows r c x).
Proof.
  induction r as [|r IH]; intros c x H; cbn [rows]; constructor.
  - rewrite firstn_length. simpl in H. lia.
  - apply IH. rewrite skipn_length. simpl in H. lia.
Qed.
Lemma concat_rows : forall r c x, length x = (r * c)%nat -> concat (rows r c x) = x.
Proof.
  induction r as [|r IH]; intros c x H; cbn [rows concat].
  - destruct x; auto; discriminate.
  - rewrite IH by (rewrite skipn_length; simpl in H; lia). apply firstn_skipn.
Qed.
Lemma rows_concat : forall c (ps : list vec), Forall (fun p => length p = c) ps -> rows (length ps) c (concat ps) = ps.
Proof.
  induction ps as [|p ps IH]; intros H; auto. inversion H as [|? ? E F]; subst. cbn [length rows concat].
  rewrite firstn_app, Nat.sub_diag, firstn_all, skipn_app, Nat.sub_diag, skipn_all. cbn [firstn skipn app]. rewrite app_nil_r, IH; auto.
Qed.
Lemma concat_length : forall c (ps : list vec), Forall (fun p => length p = c) ps -> length (concat ps) = (length ps * c)%nat.
Proof. induction ps as [|p ps IH]; intros H; auto. inversion H; subst. cbn [concat length]. rewrite app_length, IH by auto. simpl. auto. Qed.

Fixpoint ids_from (s r c : nat) : list nat := match r with O => [] | S k => repeat s c ++ ids_from (S s) k c end.
Lemma ids_length : forall r s c, length (ids_from s r c) = (r * c)%nat.
Proof. induction r as [|r IH]; intros s c; simpl; auto. rewrite app_length, repeat_length, IH. auto. Qed.
Lemma ids_range : forall r s c, Forall (fun k => (s <= k < s + r)%nat) (ids_from s r c).
Proof.
  induction r as [|r IH]; intros s c; simpl; auto. apply Forall_app. split.
  - apply Forall_forall. intros k H. apply repeat_spec in H. lia.
  - eapply Forall_impl; [|apply IH]. simpl. intros; lia.
Qed.
Lemma pick_app : forall (f : nat -> bool) l1 l2 x1 x2, length x1 = length l1 -> pick f (l1 ++ l2) (x1 ++ x2) = pick f l1 x1 ++ pick f l2 x2.
Proof.
  intros f l1 l2. induction l1 as [|a l1 IH]; intros [|b x1] x2 H; try discriminate; auto. cbn [app pick]. simpl in H. rewrite IH by lia. destruct (f a); auto.
Qed.
Lemma pick_all : forall (f : nat -> bool) l x, length x = length l -> (forall k, In k l -> f k = true) -> pick f l x = x.
Proof. intros f l. induction l as [|a l IH]; intros [|b x] H K; try discriminate; auto. cbn [pick]. rewrite K by (left; auto). rewrite IH; auto. intros; apply K; right; auto. Qed.
Lemma cls_ids : forall r s c x k, length x = (r * c)%nat -> (s <= k < s + r)%nat -> cls (ids_from s r c) k x = nth (k - s) (rows r c x) [].
Proof.
  induction r as [|r IH]; intros s c x k H Hk; [lia|]. cbn [ids_from rows]. rewrite <- (firstn_skipn c x) at 1. simpl in H.
  unfold cls. rewrite pick_app by (rewrite firstn_length, repeat_length; lia). destruct (Nat.eq_dec k s) as [->|N].
  - rewrite Nat.sub_diag. cbn [nth]. rewrite pick_all.
    + rewrite pick_none, app_nil_r; auto. intros j Hj. pose proof (ids_range r (S s) c) as R0. rewrite Forall_forall in R0. apply R0 in Hj. apply Nat.eqb_neq. lia.
    + rewrite firstn_length, repeat_length. lia.
    + intros j Hj. apply repeat_spec in Hj. subst. apply Nat.eqb_refl.
  - rewrite pick_none by (intros j Hj; apply repeat_spec in Hj; subst; apply Nat.eqb_neq; auto). cbn [app].
    replace (k - s)%nat with (S (k - S s)) by lia. cbn [nth]. apply IH; [rewrite skipn_length; lia|lia].
Qed.
Lemma csize_ids : forall r c k, (k < r)%nat -> csize (ids_from 0 r c) k = c.
Proof.
  intros r c k Hk. rewrite <- (cls_length (ids_from 0 r c) k (zeros (r * c))) by (rewrite zeros_length, ids_length; auto).
  rewrite cls_ids by (rewrite ?zeros_length; lia). rewrite Nat.sub_0_r. pose proof (rows_lengths r c (zeros (r * c)) (zeros_length _)) as F.
  rewrite Forall_forall in F. apply F. apply nth_In. rewrite rows_length. auto.
Qed.
Lemma esum_ext_sum : forall (l : list ext) F, (forall k, (k < length l)%nat -> F k = nth k l (Fin 0)) -> esum (length l) F = ext_sum l.
Proof.
  intros l. induction l as [|e l IH] using rev_ind; intros F H; auto. rewrite app_length. cbn [length]. rewrite Nat.add_1_r. cbn [esum].
  rewrite ext_sum_app, IH. 2:{ intros k Hk. rewrite H by (rewrite app_length; simpl; lia). apply app_nth1; auto. }
  rewrite H by (rewrite app_length; simpl; lia). rewrite nth_middle. simpl. destruct e; simpl; auto. rewrite Rplus_0_r. auto.
Qed.
Lemma emax_ext_max : forall (l : list ext) F, (forall k, (k < length l)%nat -> F k = nth k l (Fin 0)) -> Forall pos_ext l -> emax (length l) F = ext_maximum l.
Proof.
  intros l. induction l as [|e l IH] using rev_ind; intros F H P; auto. rewrite app_length. cbn [length]. rewrite Nat.add_1_r. cbn [emax].
  apply Forall_app in P. destruct P as [P1 P2].
  rewrite ext_max_app, IH; auto. 2:{ intros k Hk. rewrite H by (rewrite app_length; simpl; lia). apply app_nth1; auto. }
  rewrite H by (rewrite app_length; simpl; lia). rewrite nth_middle. simpl. apply Forall_inv in P2. destruct e; simpl in *; auto. rewrite (Rmax_left _ 0) by auto. auto.
Qed.
Section Rows.
Variables (r c : nat).
Let a := ids_from 0 r c.
Let n := (r * c)%nat.
Lemma ids_lt : Forall (fun k => (k < r)%nat) a.
Proof. eapply Forall_impl; [|apply ids_range]. simpl. intros; lia. Qed.
Lemma hsum_rows : forall h x, length x = n -> hsum r a (fun _ => h) x = row_sum h r c x.
Proof.
  intros h x H. unfold hsum, row_sum. rewrite <- (rows_length r c x) at 1. rewrite <- (map_length h). apply esum_ext_sum.
  intros k Hk. rewrite map_length, rows_length in Hk. unfold a. rewrite cls_ids by (auto; lia). rewrite Nat.sub_0_r.
  rewrite nth_indep with (d' := h []) by (rewrite map_length, rows_length; auto). rewrite map_nth. auto.
Qed.
Lemma hmax_rows : forall h x, (forall y, length y = c -> pos_ext (h y)) -> length x = n -> hmax r a (fun _ => h) x = row_max h r c x.
Proof.
  intros h x P H. unfold hmax, row_max. rewrite <- (rows_length r c x) at 1. rewrite <- (map_length h). apply emax_ext_max.
  - intros k Hk. rewrite map_length, rows_length in Hk. unfold a. rewrite cls_ids by (auto; lia). rewrite Nat.sub_0_r.
    rewrite nth_indep with (d' := h []) by (rewrite map_length, rows_length; auto). rewrite map_nth. auto.
  - apply Forall_map. eapply Forall_impl; [|apply rows_lengths; auto]. auto.
Qed.
Lemma polar_pos : forall h h', polar_pair c h h' -> forall y, length y = c -> pos_ext (h y).
Proof. intros h h' P y L. destruct (h y) eqn:E; simpl; auto. apply (ga_nonneg _ _ (po_gauge _ _ _ P) y); auto. Qed.
Theorem rows_polar : forall h h', polar_pair c h h' -> polar_pair c h' h -> polar_pair n (row_sum h r c) (row_max h' r c) /\ polar_pair n (row_max h' r c) (row_sum h r c).
Proof.
  intros h h' P P'. assert (La : length a = n) by apply ids_length.
  assert (K : forall k, (k < r)%nat -> polar_pair (csize a k) h h') by (intros k Hk; unfold a; rewrite csize_ids; auto).
  assert (K' : forall k, (k < r)%nat -> polar_pair (csize a k) h' h) by (intros k Hk; unfold a; rewrite csize_ids; auto).
  split.
  - eapply polar_ext; [| |apply (part_polar r a n ids_lt La (fun _ => h) (fun _ => h') K)]; intros x Lx; [apply hsum_rows|apply hmax_rows]; auto. apply (polar_pos h' h P').
  - eapply polar_ext; [| |apply (part_polar_rev r a n ids_lt La (fun _ => h) (fun _ => h') K K')]; intros x Lx; [apply hmax_rows|apply hsum_rows]; auto. apply (polar_pos h' h P').
Qed.
Lemma pcert_ext : forall m h h' t x p, (forall v, length v = m -> h v = h' v) -> pcert m h t x p -> pcert m h' t x p.
Proof.
  intros m h h' t x p E (Lx & Lp & s & Es & H1 & H2). split; auto. split; auto. exists s. rewrite <- E by auto. split; auto. split; auto.
  intros v q Lv Ev. rewrite <- E in Ev by auto. apply H1; auto.
Qed.
Lemma Forall2_nth : forall {A B} (P : A -> B -> Prop) l l' d d' k, Forall2 P l l' -> (k < length l)%nat -> P (nth k l d) (nth k l' d').
Proof. intros A B P l l' d d' k F. revert k. induction F as [|u v l l' Huv F IHF]; intros k H; simpl in *; [lia|]. destruct k; auto. apply IHF. lia. Qed.
Lemma Forall2_len : forall {A B} (P : A -> B -> Prop) l l', Forall2 P l l' -> length l = length l'.
Proof. intros A B P l l' F. induction F; simpl; auto. Qed.
Lemma cls_concat : forall (ps : list vec) k, length ps = r -> Forall (fun p => length p = c) ps -> (k < r)%nat -> cls a k (concat ps) = nth k ps [].
Proof.
  intros ps k L F Hk. unfold a. rewrite cls_ids; [|rewrite (concat_length c), L; auto|lia]. rewrite Nat.sub_0_r, <- L, rows_concat by auto. auto.
Qed.
Lemma cls_rows : forall x k, length x = n -> (k < r)%nat -> cls a k x = nth k (rows r c x) [].
Proof. intros x k H Hk. unfold a. rewrite cls_ids by (auto; lia). rewrite Nat.sub_0_r. auto. Qed.
Lemma rows_pcert : forall h t x (ps : list vec), length x = n -> Forall2 (pcert c h t) (rows r c x) ps -> pcert n (row_sum h r c) t x (concat ps).
Proof.
  intros h t x ps Lx F. assert (Lps : length ps = r) by (apply Forall2_len in F; rewrite rows_length in F; auto).
  assert (F1 : Forall (fun p => length p = c) ps). { clear -F. induction F; constructor; auto. apply H. }
  assert (Lp : length (concat ps) = n) by (rewrite (concat_length c), Lps; auto).
  apply pcert_ext with (h := hsum r a (fun _ => h)); [intros v Lv; apply hsum_rows; auto|].
  apply (part_pcert r a n ids_lt (ids_length r 0 c)); auto. intros k Hk. rewrite cls_rows, cls_concat by auto. unfold a. rewrite csize_ids by auto.
  apply Forall2_nth; auto. rewrite rows_length. auto.
Qed.
Lemma rows_proj : forall h b x (ps : list vec), (forall y, length y = c -> pos_ext (h y)) -> 0 <= b -> length x = n -> Forall2 (is_proj c (gball h b)) (rows r c x) ps -> is_proj n (gball (row_max h r c) b) x (concat ps).
Proof.
  intros h b x ps P Hb Lx F. assert (Lps : length ps = r) by (apply Forall2_len in F; rewrite rows_length in F; auto).
  assert (F1 : Forall (fun p => length p = c) ps). { clear -F. induction F; constructor; auto. apply H. }
  assert (Lp : length (concat ps) = n) by (rewrite (concat_length c), Lps; auto).
  assert (J : is_proj n (gball (hmax r a (fun _ => h)) b) x (concat ps)).
  { apply (part_proj r a n ids_lt (ids_length r 0 c)); auto. intros k Hk. rewrite cls_rows, cls_concat by auto. unfold a. rewrite csize_ids by auto.
    apply Forall2_nth; auto. rewrite rows_length. auto. }
  destruct J as (J1 & J2 & J3). split; auto. split; [unfold gball in *; rewrite <- hmax_rows; auto|].
  intros v Lv Hv. apply J3; auto. unfold gball in *. rewrite hmax_rows; auto.
Qed.
End Rows.
Lemma pair_class_invol : forall s, pair_class (pair_class s) = s.
Proof. destruct s; auto. Qed.
Lemma bpair_invol : forall k, bpair (bpair k) = k.
Proof. destruct k; simpl; rewrite ?pair_class_invol; auto. Qed.
Theorem bfun_polar : forall k r c, polar_pair (r * c) (bfun k r c) (bfun (bpair k) r c).
Proof.
  intros k r c. assert (D : forall s, polar_pair c (doc_seminorm s) (doc_seminorm (pair_class s)) /\ polar_pair c (doc_seminorm (pair_class s)) (doc_seminorm s)).
  { intros s. split; [apply doc_polar|]. pose proof (doc_polar c (pair_class s)) as P. rewrite pair_class_invol in P. auto. }
  destruct k as [| | | |s|s]; cbn [bfun bpair].
  - apply (rows_polar r c (doc_seminorm CL2) (doc_seminorm CL2)); apply (D CL2).
  - apply (rows_polar r c (doc_seminorm CL2) (doc_seminorm CL2)); apply (D CL2).
  - apply (rows_polar r c (doc_seminorm CL1) (doc_seminorm CSup)); apply (D CL1).
  - apply (rows_polar r c (doc_seminorm CL1) (doc_seminorm CSup)); apply (D CL1).
  - apply (rows_polar r c (doc_seminorm s) (doc_seminorm (pair_class s))); apply (D s).
  - apply (rows_polar r c (doc_seminorm (pair_class s)) (doc_seminorm s)); apply (D s).
Qed.
Lemma doc_pos : forall s y, pos_ext (doc_seminorm s y).
Proof. intros s y. apply (polar_pos (length y) _ _ (doc_polar (length y) s)). auto. Qed.

(** ** Values *)
Lemma ext_sum_fin : forall {A} (f : A -> R) l, ext_sum (map (fun a => Fin (f a)) l) = Fin (vsum (map f l)).
Proof. intros A f l. induction l as [|a l IH]; auto. cbn [map ext_sum fold_right vsum] in *. unfold ext_sum in IH. rewrite IH. auto. Qed.
Fixpoint rmaxl (l : vec) : R := match l with [] => 0 | a :: t => Rmax a (rmaxl t) end.
Lemma ext_max_fin : forall {A} (f : A -> R) l, ext_maximum (map (fun a => Fin (f a)) l) = Fin (rmaxl (map f l)).
Proof. intros A f l. induction l as [|a l IH]; auto. cbn [map ext_maximum fold_right rmaxl] in *. unfold ext_maximum in IH. rewrite IH. auto. Qed.
Lemma rmaxl_le : forall l k, 0 <= k -> (rmaxl l <= k <-> Forall (fun a => a <= k) l).
Proof.
  induction l as [|a l IH]; intros k Hk; simpl; [split; auto|]. rewrite Forall_cons_iff, <- IH by auto. split.
  - intros H. pose proof (Rmax_l a (rmaxl l)). pose proof (Rmax_r a (rmaxl l)). lra.
  - intros [H1 H2]. apply Rmax_lub; auto.
Qed.
Lemma rmaxl_nonneg : forall l, 0 <= rmaxl l.
Proof. induction l as [|a l IH]; simpl; [lra|]. pose proof (Rmax_r a (rmaxl l)). lra. Qed.
Lemma np_max_rmaxl : forall l, l <> [] -> Forall (fun a => 0 <= a) l -> np_max l = Ok (rmaxl l).
Proof.
  intros l H F. destruct (np_max_spec l H) as (m & E & Hm & HI). rewrite E. f_equal. apply Rle_antisym.
  - apply Hm. apply rmaxl_le; [apply rmaxl_nonneg|lra].
  - apply rmaxl_le. { rewrite Forall_forall in F. auto. } apply Hm. lra.
Qed.

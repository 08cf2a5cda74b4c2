(** Proofs: the mixed lasso kernels act class by class. *)
From Coq Require Import Reals List Lra Lia Psatz Bool Permutation ZArith.
From Verif Require Import Vec Spec M_quad M_prox M_semi SpecAtom M_shift SpecBase SpecMode M_mode SpecModed SpecWeighted SpecPart SpecGroup M_slope M_mixed
  P_quad P_pl P_prox P_feas P_semi P_conj P_shift P_gauge P_part P_mixed.
Import ListNotations.
Local Open Scope R_scope.

Definition kidx (q : nat) (k : kind) : nat := match k with MGroup j => j | ML1 => q | MUnpen => q + 1 | MPos => q + 2 | MNonneg => q + 3 end.
Definition kvalid (q : nat) (k : kind) : Prop := match k with MGroup j => (j < q)%nat | _ => True end.
Definition kof (q k : nat) : kind := if Nat.ltb k q then MGroup k else match (k - q)%nat with 0%nat => ML1 | 1%nat => MUnpen | 2%nat => MPos | _ => MNonneg end.
Definition hk (q : nat) (w : vec) (k : nat) : vec -> ext :=
  match kof q k with MGroup j => group_term (nth j w 0) | ML1 => doc_seminorm CL1 | MUnpen => free | MPos => doc_seminorm CConPosPart | MNonneg => nn_ind end.
Definition hk' (q : nat) (w : vec) (k : nat) : vec -> ext :=
  match kof q k with MGroup j => group_dual_term (nth j w 0) | ML1 => doc_seminorm CSup | MUnpen => zero_ind | MPos => doc_seminorm CMaxPos | MNonneg => np_ind end.
Lemma kof_kidx : forall q k, kvalid q k -> kof q (kidx q k) = k.
Proof.
  intros q k V. unfold kof. destruct k as [j| | | |]; simpl in V; cbn [kidx].
  - destruct (Nat.ltb_spec j q); [auto|lia].
  - destruct (Nat.ltb_spec (q + 1) q); [lia|]. replace (q + 1 - q)%nat with 1%nat by lia. auto.
  - destruct (Nat.ltb_spec q q); [lia|]. replace (q - q)%nat with 0%nat by lia. auto.
  - destruct (Nat.ltb_spec (q + 2) q); [lia|]. replace (q + 2 - q)%nat with 2%nat by lia. auto.
  - destruct (Nat.ltb_spec (q + 3) q); [lia|]. replace (q + 3 - q)%nat with 3%nat by lia. auto.
Qed.
Lemma kidx_lt : forall q k, kvalid q k -> (kidx q k < q + 4)%nat.
Proof. intros q [j| | | |] V; simpl in *; lia. Qed.
Lemma kidx_all : forall q kinds, Forall (kvalid q) kinds -> Forall (fun k => (k < q + 4)%nat) (map (kidx q) kinds).
Proof. intros q kinds H. apply Forall_forall. intros k Hk. apply in_map_iff in Hk. destruct Hk as (kd & <- & Hi). apply kidx_lt. rewrite Forall_forall in H. auto. Qed.

(** ** Group norms *)
Lemma upd_length : forall j (v : R) l, length (upd j v l) = length l.
Proof. induction j as [|j IH]; intros v [|a l]; simpl; auto. Qed.
Lemma nth_upd : forall (l : vec) i j v d, (j < length l)%nat -> nth i (upd j v l) d = if Nat.eqb i j then v else nth i l d.
Proof.
  induction l as [|a l IH]; intros i j v d Hj; [simpl in Hj; lia|]. destruct j as [|j]; destruct i as [|i]; simpl; auto. apply IH. simpl in Hj. lia.
Qed.
Lemma add_norms_length : forall kinds x nr, length (add_norms kinds x nr) = length nr.
Proof. induction kinds as [|k kinds IH]; intros [|a x] nr; try destruct k; simpl; auto. rewrite IH. apply upd_length. Qed.
Lemma add_norms_nth : forall q kinds x nr j, Forall (kvalid q) kinds -> length nr = q -> (j < q)%nat -> length x = length kinds ->
  nth j (add_norms kinds x nr) 0 = nth j nr 0 + sqn (cls (map (kidx q) kinds) j x).
Proof.
  intros q. induction kinds as [|k kinds IH]; intros [|a x] nr j V Ln Hj Lx; try discriminate.
  - cbn. unfold sqn, dot, cls. cbn. lra.
  - pose proof (Forall_inv V) as V1. pose proof (Forall_inv_tail V) as V2. simpl in Lx. unfold cls in *. cbn [map pick].
    destruct k as [i| | | |]; cbn [add_norms kidx].
    + simpl in V1. rewrite IH by (auto; try lia; rewrite upd_length; auto). rewrite nth_upd by lia. destruct (Nat.eqb_spec j i) as [E|E]; [subst i; rewrite sqn_cons; lra|auto].
    + destruct (Nat.eqb_spec j (q + 1)); [lia|]. apply IH; auto.
    + destruct (Nat.eqb_spec j q); [lia|]. apply IH; auto.
    + destruct (Nat.eqb_spec j (q + 2)); [lia|]. apply IH; auto.
    + destruct (Nat.eqb_spec j (q + 3)); [lia|]. apply IH; auto.
Qed.
Lemma group_norms_length : forall kinds q x, length (group_norms kinds q x) = q.
Proof. intros. unfold group_norms. rewrite map_length, add_norms_length. apply zeros_length. Qed.
Lemma nth_zeros : forall j q, nth j (zeros q) 0 = 0.
Proof. intros j q. revert j. induction q as [|q IH]; intros [|j]; simpl; auto. Qed.
Lemma group_norms_nth : forall q kinds x j, Forall (kvalid q) kinds -> (j < q)%nat -> length x = length kinds ->
  nth j (group_norms kinds q x) 0 = norm (cls (map (kidx q) kinds) j x).
Proof.
  intros q kinds x j V Hj Lx. unfold group_norms. rewrite (nth_map_R sqrt _ j 0 0) by (rewrite add_norms_length, zeros_length; auto).
  rewrite (add_norms_nth q) by (auto; apply zeros_length). rewrite nth_zeros. unfold norm. f_equal. lra.
Qed.
Lemma group_norms_nonneg : forall kinds q x, Forall (fun a => 0 <= a) (group_norms kinds q x).
Proof. intros. unfold group_norms. apply Forall_forall. intros b Hb. apply in_map_iff in Hb. destruct Hb as (a & <- & _). apply sqrt_pos. Qed.

(** ** The clipping step *)
Definition tclip (cut : R) (factors : vec) (k : kind) (a : R) : R :=
  match k with MGroup j => a * nth j factors 0 | ML1 => l1clip cut a | MUnpen => 0 | MPos => Rmin cut a | MNonneg => Rmin a 0 end.
Fixpoint tclips (cut : R) (factors : vec) (kinds : list kind) (x : vec) : vec :=
  match kinds, x with k :: kinds', a :: x' => tclip cut factors k a :: tclips cut factors kinds' x' | _, _ => [] end.
Lemma tclips_length : forall cut f kinds x, length x = length kinds -> length (tclips cut f kinds x) = length kinds.
Proof. intros cut f. induction kinds as [|k kinds IH]; intros [|a x] H; try discriminate; simpl; auto. Qed.
(** No 0/0: either the cut is positive or no l1 entry is zero. *)
Definition no_nan (cut : R) (kinds : list kind) (x : vec) : Prop := 0 < cut \/ Forall (fun a => a <> 0) (kpick is_l1 kinds x).
Lemma clip_entries_total : forall cut f kinds x, length x = length kinds -> no_nan cut kinds x -> clip_entries cut f kinds x = Ok (tclips cut f kinds x).
Proof.
  intros cut f. induction kinds as [|k kinds IH]; intros [|a x] H N; try discriminate; auto. simpl in H. cbn [clip_entries tclips].
  assert (E : clip_entry cut f k a = Some (tclip cut f k a)).
  { destruct k; cbn [clip_entry tclip]; auto. unfold l1clip. destruct (Req_EM_T a 0) as [Z|Z]; auto. destruct (Rlt_dec 0 cut) as [P|P]; auto.
    destruct N as [N|N]; [tauto|]. cbn [kpick is_l1] in N. exfalso. exact (Forall_inv N Z). }
  rewrite E. cbn [rmap rbind]. rewrite IH; auto. destruct N as [N|N]; [left; auto|right]. cbn [kpick] in N. destruct (is_l1 k); auto. eapply Forall_inv_tail; eauto.
Qed.
Lemma clip_entries_nan : forall cut f kinds x, length x = length kinds -> cut <= 0 -> Exists (fun a => a = 0) (kpick is_l1 kinds x) -> clip_entries cut f kinds x = Err NaNResult.
Proof.
  intros cut f. induction kinds as [|k kinds IH]; intros [|a x] H Hc E; try discriminate; [inversion E|]. simpl in H. cbn [clip_entries]. cbn [kpick] in E.
  destruct (clip_entry cut f k a) as [b|] eqn:Eb; auto. rewrite IH; auto. destruct k; cbn [is_l1] in E; auto.
  inversion E as [? ? Z|? ? T]; subst; auto. cbn [clip_entry] in Eb. destruct (Req_EM_T 0 0); [|lra]. destruct (Rlt_dec 0 cut); [lra|discriminate].
Qed.
Lemma tclips_cls : forall q cut f kinds x k, Forall (kvalid q) kinds -> length x = length kinds ->
  cls (map (kidx q) kinds) k (tclips cut f kinds x) = map (tclip cut f (kof q k)) (cls (map (kidx q) kinds) k x).
Proof.
  intros q cut f. induction kinds as [|kd kinds IH]; intros [|a x] k V H; try discriminate; auto. simpl in H. unfold cls in *. cbn [map pick tclips].
  destruct (Nat.eqb_spec k (kidx q kd)) as [E|E].
  - cbn [map]. rewrite IH by (eauto using Forall_inv_tail). subst k. rewrite kof_kidx by (apply (Forall_inv V)). auto.
  - apply IH; eauto using Forall_inv_tail.
Qed.
Lemma factors_nth : forall cut w nr j, length w = length nr -> (j < length w)%nat -> nth j (group_factors cut w nr) 0 = gfac cut (nth j w 0) (nth j nr 0).
Proof. intros cut w nr j L Hj. unfold group_factors. rewrite (nth_vzip _ w nr j 0 0 0) by auto. auto. Qed.

Section Kernel.
Variables (kinds : list kind) (w : vec).
Let q := length w.
Let a := map (kidx q) kinds.
Let n := length kinds.
Let K := (q + 4)%nat.
Hypothesis V : Forall (kvalid q) kinds.
Hypothesis Hw : Forall (fun r => 0 <= r) w.

Definition mix : vec -> ext := hsum (q + 4) a (hk q w).
Definition mix' : vec -> ext := hmax (q + 4) a (hk' q w).
Definition tclip_all (c : R) (x : vec) : vec := tclips c (group_factors c w (group_norms kinds q x)) kinds x.

Lemma nth_w_nonneg : forall j, 0 <= nth j w 0.
Proof. intros j. destruct (Nat.lt_ge_cases j (length w)) as [L|L]; [rewrite Forall_forall in Hw; apply Hw, nth_In; auto|rewrite nth_overflow by auto; lra]. Qed.
Lemma hk_polar : forall k, polar_pair (csize a k) (hk q w k) (hk' q w k).
Proof.
  intros k. unfold hk, hk'. destruct (kof q k).
  - apply group_polar. apply nth_w_nonneg.
  - apply free_polar.
  - apply (doc_polar _ CL1).
  - apply (doc_polar _ CConPosPart).
  - apply nn_polar.
Qed.
Lemma hk_polar_rev : forall k, polar_pair (csize a k) (hk' q w k) (hk q w k).
Proof.
  intros k. unfold hk, hk'. destruct (kof q k).
  - apply group_polar_rev. apply nth_w_nonneg.
  - apply free_polar_rev.
  - apply (doc_polar _ CSup).
  - apply (doc_polar _ CMaxPos).
  - apply nn_polar_rev.
Qed.
Lemma a_ok : Forall (fun k => (k < q + 4)%nat) a. Proof. apply kidx_all. exact V. Qed.
Lemma a_len : length a = n. Proof. apply map_length. Qed.
Lemma mix_polar : polar_pair n mix mix'.
Proof. apply (part_polar (q + 4) a n a_ok a_len). intros. apply hk_polar. Qed.
Lemma mix_polar_rev : polar_pair n mix' mix.
Proof. apply (part_polar_rev (q + 4) a n a_ok a_len); intros; [apply hk_polar|apply hk_polar_rev]. Qed.

Lemma kof_group : forall k j, kof q k = MGroup j -> k = j /\ (j < q)%nat.
Proof. intros k j. unfold kof. destruct (Nat.ltb_spec k q); [intros E; injection E as ->; auto|]. destruct (k - q)%nat as [|[|[|]]]; discriminate. Qed.
Lemma tclip_all_length : forall c x, length x = n -> length (tclip_all c x) = n.
Proof. intros. apply tclips_length. auto. Qed.
Lemma tclip_group : forall c x j, length x = n -> (j < q)%nat -> cls a j (tclip_all c x) = vscal (gfac c (nth j w 0) (norm (cls a j x))) (cls a j x).
Proof.
  intros c x j Lx Hj. unfold tclip_all, a. rewrite tclips_cls by auto. assert (E : kof q j = MGroup j) by (unfold kof; destruct (Nat.ltb_spec j q); [auto|lia]).
  rewrite E. unfold vscal. apply map_ext. intros r. cbn [tclip]. rewrite factors_nth by (auto; rewrite group_norms_length; auto).
  rewrite (group_norms_nth q) by auto. ring.
Qed.
Lemma mix_pcert : forall c x, length x = n -> 0 <= c -> pcert n mix c x (vsub x (tclip_all c x)).
Proof.
  intros c x Lx Hc. pose proof (tclip_all_length c x Lx) as Lt. apply (part_pcert (q + 4) a n a_ok a_len); auto; [vlen|].
  intros k Hk. assert (Lk : length (cls a k x) = csize a k) by (apply cls_length; rewrite a_len; auto).
  unfold cls. rewrite vsub_pick by (rewrite a_len; auto). fold (cls a k x). fold (cls a k (tclip_all c x)).
  unfold hk. destruct (kof q k) as [j| | | |] eqn:Ek.
  - destruct (kof_group _ _ Ek) as [-> Hj]. rewrite tclip_group by auto. apply group_pcert; auto. apply nth_w_nonneg.
  - unfold tclip_all, a. rewrite tclips_cls, Ek by auto. cbn [tclip]. apply free_pcert. auto.
  - unfold tclip_all, a. rewrite tclips_cls, Ek by auto. cbn [tclip]. apply l1_pcert; auto.
  - unfold tclip_all, a. rewrite tclips_cls, Ek by auto. cbn [tclip]. apply pos_pcert; auto.
  - unfold tclip_all, a. rewrite tclips_cls, Ek by auto. cbn [tclip]. apply nn_pcert; auto.
Qed.
Lemma mixed_clip_total : forall c x, length x = n -> no_nan c kinds x -> mixed_clip kinds w x c = Ok (tclip_all c x).
Proof. intros. unfold mixed_clip. apply clip_entries_total; auto. Qed.

Theorem mixed_lagrange_correct : forall x L lam, length x = n -> 0 < L -> 0 <= lam -> no_nan lam kinds x ->
  exists p, mixed_lagrange_prox kinds w x lam L = Ok p /\ is_unique_argmin n (prox_objective L x (gmode mix (Lagrange lam))) p.
Proof.
  intros x L lam Lx HL Hlam N. exists (vsub x (tclip_all (lam / L) x)). split.
  - unfold mixed_lagrange_prox. rewrite mixed_clip_total; auto. destruct N as [N|N]; [left; apply Rdiv_lt_0_compat; auto|right; auto].
  - apply pcert_prox; auto. apply mix_pcert; auto. apply Rmult_le_pos; auto. apply Rlt_le, Rinv_0_lt_compat; auto.
Qed.
Theorem mixed_dual_bound_correct : forall x b, length x = n -> 0 <= b -> no_nan b kinds x ->
  exists p, mixed_dual_bound_prox kinds w x b = Ok p /\ is_proj n (gball mix' b) x p.
Proof.
  intros x b Lx Hb N. exists (tclip_all b x). split; [apply mixed_clip_total; auto|].
  pose proof (pcert_moreau n mix mix' b x _ mix_polar Hb (mix_pcert b x Lx Hb)) as M. rewrite (vsub_vsub n) in M by (auto; apply tclip_all_length; auto). auto.
Qed.

(** ** Group-only kinds *)
Hypothesis Gr : forall k, In k kinds -> exists j, k = MGroup j.
Lemma kpick_none : forall sel x, (forall j, sel (MGroup j) = false) -> kpick sel kinds x = [].
Proof.
  clear V. intros sel x Hs. revert x. induction kinds as [|k kd IH]; intros [|b x]; auto. cbn [kpick].
  destruct (Gr k) as (j & ->); [left; auto|]. rewrite Hs. apply IH. intros; apply Gr; right; auto.
Qed.
Lemma group_no_nan : forall c x, no_nan c kinds x.
Proof. intros. right. rewrite kpick_none by auto. constructor. Qed.
Lemma group_cut : forall x b s, mixed_cut kinds w x b s = find_solution_piecewise_linear b s (group_norms kinds q x) w.
Proof. intros. unfold mixed_cut. rewrite !kpick_none by auto. cbn [filter app map]. rewrite !app_nil_r. auto. Qed.
Lemma cls_group_empty : forall k x, (q <= k)%nat -> cls a k x = [].
Proof.
  intros k x Hk. unfold cls. apply pick_none. intros c Hc. unfold a in Hc. apply in_map_iff in Hc. destruct Hc as (kd & <- & Hi). destruct (Gr kd Hi) as (j & ->).
  rewrite Forall_forall in V. specialize (V _ Hi). simpl in V. cbn [kidx]. destruct (Nat.eqb_spec k j); [lia|auto].
Qed.
Lemma mix_group_value : forall x, length x = n -> mix x = Fin (rsum q (fun j => nth j w 0 * norm (cls a j x))).
Proof.
  intros x Lx. unfold mix, hsum. rewrite (esum_fin _ _ (fun j => if Nat.ltb j q then nth j w 0 * norm (cls a j x) else 0)).
  - f_equal. replace (q + 4)%nat with (S (S (S (S q)))) by lia. cbn [rsum]. repeat (match goal with |- context [Nat.ltb ?u q] => destruct (Nat.ltb_spec u q); [lia|] end).
    rewrite !Rplus_0_r. apply rsum_ext. intros k Hk. destruct (Nat.ltb_spec k q); [auto|lia].
  - intros k Hk. unfold hk, kof. destruct (Nat.ltb_spec k q) as [L|L]; [unfold group_term; rewrite ell2_norm; auto|]. rewrite cls_group_empty by auto.
    destruct (k - q)%nat as [|[|[|m]]]; unfold free, nn_ind; cbn.
    + unfold ell1. cbn. auto.
    + auto.
    + destruct (nonneg_dec []) as [|N]; [unfold ell1; cbn; auto|destruct N; constructor].
    + destruct (nonneg_dec []) as [|N]; [auto|destruct N; constructor].
Qed.
Lemma rsum_nth : forall (m : nat) F, rsum m F = vsum (map F (seq 0 m)).
Proof. induction m as [|m IH]; intros F; auto. cbn [rsum]. rewrite seq_S, map_app, vsum_app, <- IH. cbn. unfold vsum. cbn. lra. Qed.
Lemma vsum_nth : forall (v : vec) m, length v = m -> vsum v = rsum m (fun j => nth j v 0).
Proof.
  intros v. induction v as [|b v IH] using rev_ind; intros m H; [subst; auto|]. rewrite app_length in H. cbn in H. destruct m as [|m]; [lia|]. cbn [rsum].
  rewrite vsum_app, (IH m) by lia. f_equal.
  - apply rsum_ext. intros k Hk. rewrite app_nth1; auto. lia.
  - rewrite app_nth2 by lia. replace (m - length v)%nat with 0%nat by lia. unfold vsum. cbn. lra.
Qed.
Lemma cut_sum_rsum : forall x c, length x = n -> vsum (vzip (fun s w0 => w0 * pos (s - w0 * c)) (group_norms kinds q x) w) = rsum q (fun j => nth j w 0 * pos (norm (cls a j x) - nth j w 0 * c)).
Proof.
  intros x c Lx. assert (Lg := group_norms_length kinds q x). rewrite (vsum_nth _ q) by (rewrite vzip_length; auto). apply rsum_ext. intros k Hk.
  rewrite (nth_vzip _ _ _ k 0 0 0) by (try lia; congruence). rewrite (group_norms_nth q) by auto. auto.
Qed.
Lemma vmul_norms_rsum : forall x, length x = n -> vsum (vmul w (group_norms kinds q x)) = rsum q (fun j => nth j w 0 * norm (cls a j x)).
Proof.
  intros x Lx. assert (Lg := group_norms_length kinds q x). rewrite (vsum_nth _ q) by (unfold vmul; rewrite vzip_length; auto). apply rsum_ext. intros k Hk.
  unfold vmul. rewrite (nth_vzip _ _ _ k 0 0 0) by (try lia; auto). rewrite (group_norms_nth q) by auto. auto.
Qed.
Lemma mix_cut_value : forall c x, length x = n -> 0 <= c -> mix (vsub x (tclip_all c x)) = Fin (rsum q (fun j => nth j w 0 * pos (norm (cls a j x) - nth j w 0 * c))).
Proof.
  intros c x Lx Hc. pose proof (tclip_all_length c x Lx) as Lt. rewrite mix_group_value by vlen. f_equal. apply rsum_ext. intros j Hj.
  unfold cls. rewrite vsub_pick by (rewrite a_len; auto). fold (cls a j x). fold (cls a j (tclip_all c x)). rewrite tclip_group by auto.
  assert (Lk : length (cls a j x) = csize a j) by (apply cls_length; rewrite a_len; auto).
  destruct (group_pcert _ c (nth j w 0) (cls a j x) Lk Hc (nth_w_nonneg j)) as [_ ->]. auto.
Qed.
Lemma tclip_zero : forall x, length x = n -> vsub x (tclip_all 0 x) = x.
Proof.
  intros x Lx. pose proof (tclip_all_length 0 x Lx) as Lt. destruct (mix_pcert 0 x Lx ltac:(lra)) as (_ & Lp & r & Er & H1 & H2). symmetry. apply vsub_eq_zero; [congruence|].
  unfold sqn. assert (Lr : length (vsub x (vsub x (tclip_all 0 x))) = n) by vlen. specialize (H1 _ _ Lr (mix_group_value _ Lr)). rewrite Rmult_0_l in H1. auto.
Qed.
Hypothesis q_pos : (0 < q)%nat.
Hypothesis Wok : Forall wok w.
Lemma norms_ne : forall x, group_norms kinds q x <> [].
Proof. intros x H. pose proof (group_norms_length kinds q x) as L. rewrite H in L. simpl in L. lia. Qed.
(** The level found by the root finder: the point is inside, or the cut point is on the sphere. *)
Lemma group_level : forall x b, length x = n -> 0 <= b -> (0 < b \/ exists r, In r w /\ r <> 0) ->
  exists c, mixed_cut kinds w x b 0 = Ok c /\ 0 <= c /\
    mixed_bound_prox kinds w x b = Ok (vsub x (tclip_all c x)) /\
    ((vsub x (tclip_all c x) = x /\ exists r, mix x = Fin r /\ r < b) \/ mix (vsub x (tclip_all c x)) = Fin b).
Proof.
  intros x b Lx Hb Hp. destruct (find_w0 b (group_norms kinds q x) w) as (c & Ec & Hc & D); auto using norms_ne, group_norms_length, group_norms_nonneg.
  exists c. rewrite group_cut. split; auto. split; auto. split.
  - unfold mixed_bound_prox. rewrite group_cut, Ec. cbn [rbind]. rewrite mixed_clip_total by (auto using group_no_nan). auto.
  - destruct D as [(D1 & ->)|(D1 & D2)].
    + left. split; [apply tclip_zero; auto|]. exists (rsum q (fun j => nth j w 0 * norm (cls a j x))). split; [apply mix_group_value; auto|]. rewrite <- vmul_norms_rsum; auto.
    + right. rewrite mix_cut_value by auto. f_equal. rewrite <- cut_sum_rsum; auto.
Qed.
Theorem group_bound_correct : forall x b, length x = n -> 0 <= b -> (0 < b \/ exists r, In r w /\ r <> 0) ->
  exists p, mixed_bound_prox kinds w x b = Ok p /\ is_proj n (gball mix b) x p.
Proof.
  intros x b Lx Hb Hp. destruct (group_level x b Lx Hb Hp) as (c & _ & Hc & E & D). eexists. split; [exact E|]. destruct D as [(D1 & r & Er & Hr)|D].
  - rewrite D1. apply proj_inside; auto. unfold gball. rewrite Er. simpl. lra.
  - apply pcert_ball with (c := c); auto. apply mix_pcert; auto.
Qed.
Theorem group_dual_lagrange_correct : forall x L lam, length x = n -> 0 < L -> 0 <= lam -> (0 < lam \/ exists r, In r w /\ r <> 0) ->
  exists p, rmap (vsub x) (mixed_bound_prox kinds w x (lam / L)) = Ok p /\ is_unique_argmin n (prox_objective L x (gmode mix' (Lagrange lam))) p.
Proof.
  intros x L lam Lx HL Hl Hp. assert (Hb : 0 <= lam / L) by (apply Rmult_le_pos; auto; apply Rlt_le, Rinv_0_lt_compat; auto).
  destruct (group_level x (lam / L) Lx Hb) as (c & _ & Hc & E & D).
  { destruct Hp; auto. left. apply Rdiv_lt_0_compat; auto. }
  rewrite E. cbn [rmap]. eexists. split; [reflexivity|]. destruct D as [(D1 & r & Er & Hr)|D].
  - rewrite D1. apply inside_polar_prox with (h := mix) (r := r); auto using mix_polar_rev. lra.
  - apply pcert_polar_prox with (h := mix) (c := c); auto using mix_polar, mix_polar_rev, mix_pcert.
Qed.
Hypothesis W20 : Forall (fun r => / 10 ^ 20 <= r) w.
Lemma mix'_group_le : forall x b, length x = n -> 0 <= b -> (forall j, (j < q)%nat -> norm (cls a j x) / nth j w 0 <= b) -> ext_le (mix' x) (Fin b).
Proof.
  intros x b Lx Hb H. apply emax_le; auto. intros k Hk. unfold hk', kof. destruct (Nat.ltb_spec k q) as [L|L].
  - unfold group_dual_term. rewrite ell2_norm. assert (0 < nth k w 0). { pose proof e20. rewrite Forall_forall in W20. assert (/ 10 ^ 20 <= nth k w 0) by (apply W20, nth_In; auto). lra. }
    destruct (Rlt_dec 0 (nth k w 0)); [|lra]. simpl. apply H. auto.
  - rewrite cls_group_empty by auto. destruct (k - q)%nat as [|[|[|m]]]; unfold zero_ind, np_ind; cbn; unfold ellinf, max_pos; cbn; auto.
Qed.
Theorem group_epigraph_correct : forall x, length x = S n -> exists p, mixed_epigraph kinds w x = Ok p /\ ccert (S n) (epi mix) x p.
Proof.
  intros x Lx. destruct (split_app1 n x Lx) as (v & t & -> & Lv). unfold mixed_epigraph.
  rewrite removelast_app1, last_app1. destruct (v ++ [t]) as [|z0 z] eqn:Ez; [discriminate|]. rewrite <- Ez in *. clear z0 z Ez.
  assert (BAL : forall c, mixed_clip kinds w v c = Ok (tclip_all c v)) by (intros; apply mixed_clip_total; auto using group_no_nan).
  rewrite group_cut. destruct (find_w1 t (group_norms kinds q v) w) as (c & Ec & D); auto using norms_ne, group_norms_length, group_norms_nonneg. rewrite Ec. cbn [rbind].
  destruct D as [(D1 & ->)|[(D1 & D2 & D3 & D4)|(D1 & D2)]].
  - rewrite BAL. assert (0 <= t). { rewrite vmul_norms_rsum in D1 by auto. apply Rle_trans with (rsum q (fun j => nth j w 0 * norm (cls a j v))); [|lra]. apply rsum_nonneg. intros k _. pose proof (nth_w_nonneg k). pose proof (norm_nonneg (cls a k v)). nra. }
    destruct (Rle_dec 0 (t + 0)); [|lra]. cbn [rmap]. eexists. split; [reflexivity|]. rewrite tclip_zero, Rplus_0_r by auto. apply ccert_inside; auto.
    apply epi_app. rewrite mix_group_value by auto. simpl. rewrite <- vmul_norms_rsum by auto. lra.
  - rewrite BAL. destruct (Rle_dec 0 (t + c)); [|lra]. cbn [rmap]. eexists. split; [reflexivity|]. apply epi_cert; auto using mix_pcert.
    rewrite mix_cut_value by auto. f_equal. rewrite <- cut_sum_rsum by auto. lra.
  - destruct (Rle_dec 0 (t + c)); [lra|]. eexists. split; [reflexivity|]. rewrite Lx.
    assert (Hj : forall j, (j < q)%nat -> norm (cls a j v) / nth j w 0 < - t).
    { intros j Hj. specialize (D2 j). rewrite group_norms_length in D2. specialize (D2 Hj). rewrite (group_norms_nth q) in D2 by auto. auto. }
    assert (Ht : 0 <= - t). { specialize (Hj 0%nat q_pos). assert (0 <= norm (cls a 0 v) / nth 0 w 0); [|lra]. apply Rmult_le_pos; [apply norm_nonneg|].
      pose proof e20. rewrite Forall_forall in W20. assert (/ 10 ^ 20 <= nth 0 w 0) by (apply W20, nth_In; auto). apply Rlt_le, Rinv_0_lt_compat. lra. }
    assert (LE : ext_le (mix' v) (Fin (- t))) by (apply mix'_group_le; auto; intros; left; auto).
    destruct (mix' v) as [s|] eqn:Es; simpl in LE; [|tauto]. apply epi_zero with (h' := mix') (s := s); auto using mix_polar.
Qed.
End Kernel.

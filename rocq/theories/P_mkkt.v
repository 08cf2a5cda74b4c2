(** Proofs about the optimality check and the strong rule of the mixed lasso. *)
From Coq Require Import Reals List Lra Lia Psatz Bool Permutation ZArith.
From Verif Require Import M_loss Vec Spec SpecConvex SpecFista M_quad M_prox M_semi SpecAtom M_shift SpecBase SpecMode M_mode SpecModed SpecWeighted SpecPart SpecGroup M_slope M_mixed M_group M_mixed_atom SpecGatom M_mkkt SpecMkkt
  P_quad P_pl P_prox P_feas P_semi P_conj P_shift P_gauge P_part P_mixed P_kinds P_group P_group2 P_calc P_problem P_fista.
Import ListNotations.
Local Open Scope R_scope.

(** s is optimal for <g, .> + c h *)
Definition stat (n : nat) (h : vec -> ext) (c : R) (g s : vec) : Prop :=
  length g = n /\ length s = n /\ exists r, h s = Fin r /\ (forall v t, length v = n -> h v = Fin t -> 0 <= dot g v + c * t) /\ dot g s + c * r = 0.

Lemma lin_stat : forall n h c g s r, gauge n h -> length g = n -> length s = n -> h s = Fin r ->
  (forall v t, length v = n -> h v = Fin t -> dot g s + c * r <= dot g v + c * t) -> stat n h c g s.
Proof.
  intros n h c g s r G Lg Ls Er M. assert (Z : dot g s + c * r = 0).
  { pose proof (M (zeros n) 0 (zeros_length n) (ga_zero _ _ G)) as A. rewrite dot_zeros_r in A.
    pose proof (M (vscal 2 s) (2 * r) ltac:(rewrite vscal_length; auto) (ga_scal _ _ G 2 s r Ls ltac:(lra) Er)) as B. rewrite dot_scal_r in B. lra. }
  split; auto. split; auto. exists r. split; auto. split; auto. intros v t Lv Et. specialize (M v t Lv Et). lra.
Qed.
Lemma mfun_convex : forall labels given lam, weights_ok labels given -> 0 <= lam -> convex_ext (length labels) (mfun false labels given lam).
Proof.
  intros labels given lam Hw Hl. destruct (mfun_polar labels given Hw) as [P1 P2]. apply (fenchel_convex _ (mfun true labels given lam)).
  intros u Lu. apply (gauge_fenchel _ _ _ (Bound lam) u P2 Lu). exact Hl.
Qed.
(** A minimizer of f + lam P satisfies the first order condition *)
Lemma minimizer_stat : forall labels given f g lam s, weights_ok labels given -> 0 < lam -> is_gradient (length labels) f s g -> mixed_minimizer labels given f lam s ->
  stat (length labels) (mixed_pen labels (group_weight given labels)) lam g s.
Proof.
  intros labels given f g lam s Hw Hl Hg (Ls & (r0 & Er0) & M). destruct (mfun_polar labels given Hw) as [P1 _]. set (P := mixed_pen labels (group_weight given labels)) in *.
  assert (C := mfun_convex labels given lam Hw ltac:(lra)). unfold objective, mfun in *. cbn [gmode] in *. fold P in M, C, Er0. destruct (P s) as [r|] eqn:Er; [|discriminate].
  apply (lin_stat _ P lam g s r); auto. exact (po_gauge _ _ _ P1). apply Hg. intros v t Lv Et.
  set (hh := fun y => match P y with Fin a => lam * a | PInf => 0 end). set (d := vsub v s). assert (Ld : length d = length labels) by (unfold d; vlen).
  assert (Sd : vadd s d = v) by (unfold d; rewrite vadd_comm; apply vadd_vsub; congruence).
  assert (F : 0 <= dot g d + hh (vadd s d) - hh s).
  { apply (first_order (length labels) f hh s g d Hg Ld); auto.
    - intros u Hu. specialize (C s v u (lam * r) (lam * t) Ls Lv Hu). unfold between in C. fold d in C. cbn [gmode] in C. rewrite Er, Et in C. specialize (C eq_refl eq_refl).
      rewrite Sd. unfold hh. rewrite Er, Et. destruct (P (vadd s (vscal u d))) as [b|]; cbn in C; [lra|contradiction].
    - intros u Hu. specialize (M (vadd s (vscal u d)) ltac:(vlen)). specialize (C s v u (lam * r) (lam * t) Ls Lv ltac:(lra)). unfold between in C. fold d in C. cbn [gmode] in C. rewrite Er, Et in C. specialize (C eq_refl eq_refl).
      unfold hh. rewrite Er in *. destruct (P (vadd s (vscal u d))) as [b|]; cbn in C, M; [lra|contradiction]. }
  rewrite Sd in F. unfold hh in F. rewrite Er, Et in F. unfold d in F. rewrite dot_sub_r in F by (destruct Hg; vlen). lra.
Qed.

(** ** Class by class *)
Lemma rsum_zeros : forall K F, (forall k, (k < K)%nat -> 0 <= F k) -> rsum K F = 0 -> forall k, (k < K)%nat -> F k = 0.
Proof.
  induction K as [|m IH]; intros F T S0 k Hk; [lia|]. cbn [rsum] in S0.
  assert (0 <= rsum m F) by (apply rsum_nonneg; intros; apply T; lia). assert (0 <= F m) by (apply T; lia).
  destruct (Nat.eq_dec k m) as [->|N]; [lra|]. apply IH; [intros; apply T; lia|lra|lia].
Qed.
Section Classes.
Variables (K : nat) (a : list nat).
Hypothesis Ha : Forall (fun k => (k < K)%nat) a.
Lemma esum_one : forall k F r, (k < K)%nat -> F k = Fin r -> (forall j, (j < K)%nat -> j <> k -> F j = Fin 0) -> esum K F = Fin r.
Proof.
  intros k F r Hk Ek H. rewrite (esum_fin K F (fun j => if Nat.eqb j k then r else 0)).
  - f_equal. rewrite (rsum_single K _ k); auto; [rewrite Nat.eqb_refl; auto|]. intros j _ N. destruct (Nat.eqb_spec j k); congruence.
  - intros j Hj. destruct (Nat.eqb_spec j k) as [->|N]; auto.
Qed.
Lemma stat_classes : forall h c g s, (forall k, (k < K)%nat -> gauge (csize a k) (h k)) -> stat (length a) (hsum K a h) c g s ->
  forall k, (k < K)%nat -> stat (csize a k) (h k) c (cls a k g) (cls a k s).
Proof.
  intros h c g s G (Lg & Ls & r & Er & H1 & H2).
  assert (Low : forall k v t, (k < K)%nat -> length v = csize a k -> h k v = Fin t -> 0 <= dot (cls a k g) v + c * t).
  { intros k v t Hk Lv Et. destruct (cls_spike a k v Lv) as (x & Lx & Ex & Ox). specialize (H1 x t Lx).
    rewrite (dot_cls K a) in H1 by auto. rewrite (rsum_single K _ k) in H1; auto; [|intros j Hj N; rewrite Ox by auto; apply dot_zeros_r]. rewrite Ex in H1. apply H1.
    unfold hsum. apply (esum_one k); auto; [rewrite Ex; auto|]. intros j Hj N. rewrite Ox by auto. apply ga_zero. auto. }
  unfold hsum in Er. destruct (esum_inv _ _ _ Er) as (R & ER & Rr).
  assert (T : forall k, (k < K)%nat -> 0 <= dot (cls a k g) (cls a k s) + c * R k) by (intros k Hk; apply Low; auto; apply cls_length; auto).
  assert (S0 : rsum K (fun k => dot (cls a k g) (cls a k s) + c * R k) = 0) by (rewrite rsum_plus, rsum_scal, <- Rr, <- (dot_cls K a) by auto; auto).
  assert (Z : forall k, (k < K)%nat -> dot (cls a k g) (cls a k s) + c * R k = 0).
  { exact (rsum_zeros K (fun k => dot (cls a k g) (cls a k s) + c * R k) T S0). }
  intros k Hk. split; [apply cls_length; auto|]. split; [apply cls_length; auto|]. exists (R k). auto.
Qed.
End Classes.
Lemma stat_ext : forall n h h' c g s, (forall x, length x = n -> h x = h' x) -> stat n h c g s -> stat n h' c g s.
Proof. intros n h h' c g s E (Lg & Ls & r & Er & H1 & H2). split; auto. split; auto. exists r. rewrite <- E by auto. split; auto. split; auto. intros v t Lv Et. apply H1; auto. rewrite E; auto. Qed.
(** a position and the entry of its class *)
Lemma cls_at : forall a g s i k, (i < length a)%nat -> length g = length a -> length s = length a -> nth i a 0%nat = k -> exists p, (p < csize a k)%nat /\ nth p (cls a k g) 0 = nth i g 0 /\ nth p (cls a k s) 0 = nth i s 0.
Proof.
  induction a as [|c a IH]; intros [|x g] [|y s] i k Hi Lg Ls Hk; simpl in Hi, Lg, Ls; try lia; try discriminate. unfold csize, count, cls. cbn [filter pick]. destruct i as [|i].
  - simpl in Hk. subst k. rewrite Nat.eqb_refl. exists 0%nat. simpl. split; [lia|auto].
  - cbn [nth] in *. destruct (IH g s i k) as (p & Hp & E1 & E2); auto; try lia. unfold csize, count, cls in *. destruct (Nat.eqb k c).
    + exists (S p). cbn [length nth]. split; [lia|auto].
    + exists p. auto.
Qed.

(** ** Each kind *)
Lemma sep_zero : forall (k : R -> R -> R) (g s : vec), length g = length s -> (forall p, (p < length g)%nat -> 0 <= k (nth p g 0) (nth p s 0)) ->
  0 <= vsum (vzip k g s) /\ (vsum (vzip k g s) = 0 -> forall p, (p < length g)%nat -> k (nth p g 0) (nth p s 0) = 0).
Proof.
  induction g as [|a g IH]; intros [|b s] L H; try discriminate.
  - cbn. split; [lra|]. intros _ p Hp. lia.
  - simpl in L. destruct (IH s) as (I1 & I2); [lia| |]. { intros p Hp. apply (H (S p)). simpl. lia. } assert (H0 := H 0%nat ltac:(simpl; lia)). cbn [nth] in H0. cbn [vzip]. rewrite vsum_cons. split; [lra|].
    intros Z p Hp. destruct p as [|p]; cbn [nth]; [lra|]. apply I2; [lra|simpl in Hp; lia].
Qed.
Lemma sep_sum : forall (k : R -> R) c g s, length g = length s -> dot g s + c * vsum (map k s) = vsum (vzip (fun a b => a * b + c * k b) g s).
Proof. intros k c. induction g as [|a g IH]; intros [|b s] L; try discriminate; [cbn; unfold dot; cbn; lra|]. cbn [vzip map]. rewrite dot_cons, !vsum_cons, <- IH by (simpl in L; lia). ring. Qed.
Lemma unit_test : forall (g : vec) p k, (p < length g)%nat -> exists v, length v = length g /\ dot g v = nth p g 0 * k /\ ell1 v = Rabs k /\ (0 <= k -> all_nonneg v).
Proof. intros g p k Hp. destruct (spike g (nth p g 0) k (nth_In _ _ Hp)) as (v & A & B & C & _ & _ & D & _). exists v. auto. Qed.
Lemma stat_l1 : forall n c g s p, 0 < c -> stat n (doc_seminorm CL1) c g s -> (p < n)%nat -> Rabs (nth p g 0) <= c /\ (nth p s 0 <> 0 -> nth p g 0 = - c * np_sign (nth p s 0)).
Proof.
  intros n c g s p Hc (Lg & Ls & r & Er & H1 & H2) Hp. cbn [doc_seminorm] in *. injection Er as <-.
  assert (B : forall j, (j < n)%nat -> Rabs (nth j g 0) <= c).
  { intros j Hj. assert (forall k, 0 <= nth j g 0 * k + c * Rabs k) as T.
    { intros k. destruct (unit_test g j k ltac:(lia)) as (v & Lv & D & E & _). specialize (H1 v (ell1 v) ltac:(lia) eq_refl). rewrite D, E in H1. auto. }
    assert (T1 := T 1). assert (T2 := T (-1)). rewrite Rabs_R1 in T1. rewrite (Rabs_left (-1)) in T2 by lra. apply Rabs_le. lra. }
  split; auto. unfold ell1 in H2. rewrite (sep_sum Rabs) in H2 by lia. destruct (sep_zero (fun a b => a * b + c * Rabs b) g s ltac:(lia)) as (_ & Z).
  { intros j Hj. specialize (B j ltac:(lia)). assert (- (Rabs (nth j g 0) * Rabs (nth j s 0)) <= nth j g 0 * nth j s 0). { rewrite <- Rabs_mult. destruct (Rle_dec 0 (nth j g 0 * nth j s 0)); [rewrite Rabs_right|rewrite Rabs_left]; lra. }
    assert (P := Rabs_pos (nth j s 0)). nra. }
  specialize (Z H2 p ltac:(lia)). cbv beta in Z. intros N. unfold np_sign. destruct (Rlt_dec (nth p s 0) 0) as [Q|Q].
  - rewrite Rabs_left in Z by auto. nra.
  - destruct (Rlt_dec 0 (nth p s 0)) as [Q'|Q']; [|lra]. rewrite Rabs_right in Z by lra. nra.
Qed.
Lemma nonneg_entry : forall (v : vec) p, all_nonneg v -> 0 <= nth p v 0.
Proof. intros v p H. destruct (Nat.lt_ge_cases p (length v)) as [L|L]; [unfold all_nonneg in H; rewrite Forall_forall in H; apply H, nth_In; auto|rewrite nth_overflow by auto; lra]. Qed.
Lemma stat_pos : forall n c g s p, 0 < c -> stat n (doc_seminorm CConPosPart) c g s -> (p < n)%nat -> - nth p g 0 <= c /\ 0 <= nth p s 0 /\ (nth p s 0 <> 0 -> nth p g 0 = - c).
Proof.
  intros n c g s p Hc (Lg & Ls & r & Er & H1 & H2) Hp. cbn [doc_seminorm] in *. destruct (nonneg_dec s) as [Ns|]; [|discriminate]. injection Er as <-.
  assert (B : forall j, (j < n)%nat -> - nth j g 0 <= c).
  { intros j Hj. destruct (unit_test g j 1 ltac:(lia)) as (v & Lv & D & E & N). specialize (H1 v (ell1 v) ltac:(lia)). destruct (nonneg_dec v) as [|Q]; [|destruct Q; apply N; lra]. specialize (H1 eq_refl). rewrite D, E, Rabs_R1 in H1. lra. }
  split; auto. split; [apply nonneg_entry; auto|]. rewrite (ell1_of_nonneg s Ns) in H2. rewrite <- (map_id s) in H2 at 2. rewrite (sep_sum (fun b => b)) in H2 by lia.
  destruct (sep_zero (fun a b => a * b + c * b) g s ltac:(lia)) as (_ & Z).
  { intros j Hj. specialize (B j ltac:(lia)). assert (0 <= nth j s 0) by (apply nonneg_entry; auto). nra. }
  specialize (Z H2 p ltac:(lia)). cbv beta in Z. intros N. assert ((nth p g 0 + c) * nth p s 0 = 0) by lra. apply Rmult_integral in H. lra.
Qed.
Lemma stat_nn : forall n c g s p, 0 < c -> stat n nn_ind c g s -> (p < n)%nat -> 0 <= nth p g 0 /\ 0 <= nth p s 0 /\ (nth p s 0 <> 0 -> nth p g 0 = 0).
Proof.
  intros n c g s p Hc (Lg & Ls & r & Er & H1 & H2) Hp. unfold nn_ind in *. destruct (nonneg_dec s) as [Ns|]; [|discriminate]. injection Er as <-.
  assert (B : forall j, (j < n)%nat -> 0 <= nth j g 0).
  { intros j Hj. destruct (unit_test g j 1 ltac:(lia)) as (v & Lv & D & E & N). specialize (H1 v 0 ltac:(lia)). destruct (nonneg_dec v) as [|Q]; [|destruct Q; apply N; lra]. specialize (H1 eq_refl). rewrite D in H1. lra. }
  split; auto. split; [apply nonneg_entry; auto|]. assert (E : dot g s + c * vsum (map (fun _ : R => 0) s) = 0). { replace (vsum (map (fun _ : R => 0) s)) with 0; [lra|]. clear. induction s as [|b s IH]; [reflexivity|]. cbn [map]. rewrite vsum_cons, <- IH. lra. }
  rewrite (sep_sum (fun _ => 0)) in E by lia. destruct (sep_zero (fun a b => a * b + c * 0) g s ltac:(lia)) as (_ & Z).
  { intros j Hj. specialize (B j ltac:(lia)). assert (0 <= nth j s 0) by (apply nonneg_entry; auto). nra. }
  specialize (Z E p ltac:(lia)). cbv beta in Z. intros N. assert (nth p g 0 * nth p s 0 = 0) by lra. apply Rmult_integral in H. lra.
Qed.
Lemma stat_free : forall n c g s, stat n free c g s -> norm g = 0.
Proof.
  intros n c g s (Lg & Ls & r & Er & H1 & H2). unfold free in *. injection Er as <-. specialize (H1 (vopp g) 0 ltac:(rewrite vopp_length; auto) eq_refl). rewrite dot_opp_r in H1. fold (sqn g) in H1. rewrite <- norm_sq in H1. assert (N := norm_nonneg g). nra.
Qed.
Lemma stat_group : forall n c w g s, 0 < c -> 0 <= w -> stat n (group_term w) c g s -> norm g <= c * w /\ (norm s <> 0 -> norm g = c * w /\ dot g s = - (c * w * norm s)).
Proof.
  intros n c w g s Hc Hw (Lg & Ls & r & Er & H1 & H2). unfold group_term in *. injection Er as <-. rewrite ell2_norm in H2.
  assert (B : norm g <= c * w). { specialize (H1 (vopp g) (w * ell2 (vopp g)) ltac:(rewrite vopp_length; auto) eq_refl). rewrite dot_opp_r, ell2_norm, norm_opp in H1. fold (sqn g) in H1. rewrite <- norm_sq in H1. assert (N := norm_nonneg g). destruct (Req_dec (norm g) 0) as [E|E]; [nra|]. nra. }
  split; auto. intros N. assert (Ns := norm_nonneg s). assert (CS := cauchy_schwarz (vopp g) s ltac:(rewrite vopp_length; congruence)). rewrite dot_opp_l, norm_opp in CS. split; [|lra]. apply Rle_antisym; auto. apply Rmult_le_reg_r with (norm s); lra.
Qed.

(** ** Positions *)
Lemma pick_at : forall {A} (f : A -> bool) l (g s : vec) i d, (i < length l)%nat -> length g = length l -> length s = length l -> f (nth i l d) = true ->
  exists p, (p < length (pick f l g))%nat /\ nth p (pick f l g) 0 = nth i g 0 /\ nth p (pick f l s) 0 = nth i s 0.
Proof.
  induction l as [|c l IH]; intros [|x g] [|y s] i d Hi Lg Ls Hf; simpl in Hi, Lg, Ls; try lia; try discriminate. cbn [pick]. destruct i as [|i].
  - simpl in Hf. rewrite Hf. exists 0%nat. simpl. split; [lia|auto].
  - cbn [nth] in *. destruct (IH g s i d) as (p & Hp & E1 & E2); auto; try lia. destruct (f c).
    + exists (S p). cbn [length nth]. split; [lia|auto].
    + exists p. auto.
Qed.
Lemma block_at : forall labels l (g s : vec) i, (i < length labels)%nat -> length g = length labels -> length s = length labels -> nth i labels 0%Z = l ->
  exists p, (p < length (block labels l g))%nat /\ nth p (block labels l g) 0 = nth i g 0 /\ nth p (block labels l s) 0 = nth i s 0.
Proof. intros labels l g s i Hi Lg Ls E. apply (pick_at (Z.eqb l) labels g s i 0%Z); auto. rewrite E. apply Z.eqb_refl. Qed.

Section Labels.
Variables (labels ids : list Z) (given : Z -> option R).
Hypothesis En : enumerates ids labels.
Hypothesis Hw : weights_ok labels given.
Let w := group_weight given labels.
Let n := length labels.
Let kinds := ml_kinds labels ids.
Let warr := ml_warr labels ids given.
Let q := length warr.
Let Eq : q = length ids. Proof. unfold q, warr, ml_warr. apply map_length. Qed.
Lemma group_index : forall l, In l labels -> reserved l = false -> (index_of l ids < q)%nat /\ nth (index_of l ids) ids 0%Z = l.
Proof. intros l Hl Hr. rewrite Eq. apply index_of_in. apply (en_in labels ids En); auto. Qed.
Lemma group_in : forall l, In l labels -> reserved l = false -> In l (mixed_groups labels).
Proof. intros l Hl Hr. apply nodup_In, filter_In. rewrite Hr. auto. Qed.
Lemma warr_at : forall l, In l labels -> reserved l = false -> nth (index_of l ids) warr 0 = w l.
Proof. intros l Hl Hr. destruct (group_index l Hl Hr) as (A & B). unfold warr, ml_warr. rewrite (nth_map_R' _ _ _ 0%Z 0) by (rewrite <- Eq; auto). rewrite B. reflexivity. Qed.
Lemma gnorm_at : forall l x, In l labels -> reserved l = false -> length x = n -> nth (index_of l ids) (group_norms kinds q x) 0 = norm (block labels l x).
Proof.
  intros l x Hl Hr Lx. destruct (group_index l Hl Hr) as (A & B). rewrite (group_norms_nth q); auto; [|apply ml_valid; auto; apply Eq|unfold kinds; rewrite ml_kinds_length; auto].
  unfold kinds. rewrite (ml_cls_group labels ids En q) by (auto; apply Eq). rewrite B. reflexivity.
Qed.
Lemma snorm_at : forall l x, In l labels -> reserved l = false -> length x = n -> nonzero (nth (index_of l ids) (add_norms kinds x (zeros q)) 0) = nonzero (norm (block labels l x)).
Proof.
  intros l x Hl Hr Lx. destruct (group_index l Hl Hr) as (A & B). assert (N := gnorm_at l x Hl Hr Lx). unfold group_norms in N. rewrite (nth_map_R sqrt _ _ 0 0) in N by (rewrite add_norms_length, zeros_length; auto). rewrite <- N.
  rewrite (add_norms_nth q); auto; [|apply ml_valid; auto; apply Eq|apply zeros_length|unfold kinds; rewrite ml_kinds_length; auto]. rewrite nth_zeros.
  set (v := sqn (cls (map (kidx q) kinds) (index_of l ids) x)). assert (0 <= v) by apply sqn_nonneg. rewrite Rplus_0_l. unfold nonzero. destruct (Req_EM_T v 0) as [Z|Z].
  - rewrite Z, sqrt_0. destruct (Req_EM_T 0 0); auto; lra.
  - destruct (Req_EM_T (sqrt v) 0) as [Z'|]; auto. apply sqrt_eq_0 in Z'; auto. contradiction.
Qed.
Lemma label_cases : forall i, (i < n)%nat -> let l := nth i labels 0%Z in In l labels /\
  ((l = (-1)%Z /\ nth i kinds MUnpen = MUnpen) \/ (l = (-2)%Z /\ nth i kinds MUnpen = ML1) \/ (l = (-3)%Z /\ nth i kinds MUnpen = MPos) \/ (l = (-4)%Z /\ nth i kinds MUnpen = MNonneg) \/
   (reserved l = false /\ nth i kinds MUnpen = MGroup (index_of l ids))).
Proof.
  intros i Hi l. split; [apply nth_In; auto|]. assert (E : nth i kinds MUnpen = kind_of ids l). { unfold kinds, ml_kinds. rewrite (nth_indep _ MUnpen (kind_of ids 0%Z)) by (rewrite map_length; auto). apply map_nth. }
  rewrite E. destruct (reserved l) eqn:Er; [destruct (kind_reserved ids l Er) as [[? ?]|[[? ?]|[[? ?]|[? ?]]]]; auto 8|]. right. right. right. right. split; auto. apply kind_group; auto.
Qed.
Lemma ltb_iff : forall a b, ltb a b = true <-> a < b.
Proof. intros. unfold ltb. destruct (Rlt_dec a b); split; auto; discriminate. Qed.
Lemma leb_iff : forall a b, leb a b = true <-> a <= b.
Proof. intros. unfold leb. destruct (Rle_dec a b); split; auto; discriminate. Qed.
Lemma nonzero_iff : forall a, nonzero a = true <-> a <> 0.
Proof. intros. unfold nonzero. destruct (Req_EM_T a 0); split; intros; auto; try discriminate; contradiction. Qed.
Lemma nth_combine3 : forall (k : list kind) (g s : vec) i, (i < length k)%nat -> length g = length k -> length s = length k -> nth i (combine (combine k g) s) ((MUnpen, 0), 0) = ((nth i k MUnpen, nth i g 0), nth i s 0).
Proof. induction k as [|a k IH]; intros [|b g] [|c s] i Hi Lg Ls; simpl in *; try lia; try discriminate. destruct i; auto. apply IH; lia. Qed.
Lemma check_meaning : forall g s lam tol i, length g = n -> length s = n -> (i < n)%nat ->
  nth i (kkt_mixed kinds warr g s lam tol nn_tol) false = true <-> reported labels w g s lam tol i.
Proof.
  intros g s lam tol i Lg Ls Hi. assert (Lk : length kinds = n) by apply ml_kinds_length. unfold kkt_mixed. set (F := fun p : kind * R * R => _).
  rewrite (nth_indep _ false (F ((MUnpen, 0), 0))) by (rewrite map_length, !combine_length; lia). rewrite map_nth, nth_combine3 by lia. unfold F. cbn [fst snd]. clear F.
  destruct (label_cases i Hi) as (Il & C). unfold reported. set (l := nth i labels 0%Z) in *. fold q. unfold nn_tol.
  assert (D : forall x y : R, - x / lam - y = - (x / lam + y)) by (intros; unfold Rdiv; ring).
  destruct C as [[E ->]|[[E ->]|[[E ->]|[[E ->]|[E ->]]]]]; cbn [kkt_entry].
  - rewrite E. split; [discriminate|]. cbn. intros [[C _]|[[C _]|[[C _]|[C _]]]]; discriminate.
  - rewrite E. cbn. rewrite orb_true_iff, andb_true_iff, !ltb_iff, nonzero_iff, leb_iff, D, Rabs_Ropp. change (np_sign (nth i s 0)) with (sign (nth i s 0)). split; [auto|]. intros [[_ C]|[[C _]|[[C _]|[C _]]]]; auto; discriminate.
  - rewrite E. cbn. rewrite orb_true_iff, andb_true_iff, !ltb_iff, nonzero_iff, leb_iff, D, Rabs_Ropp. split; [auto|]. intros [[C _]|[[_ C]|[[C _]|[C _]]]]; auto; discriminate.
  - rewrite E. cbn. rewrite orb_true_iff, andb_true_iff, !ltb_iff, nonzero_iff. split; [intros [C|[C1 C2]]; [auto 6|right; right; left; split; auto; right; split; auto; lra]|]. intros [[C _]|[[C _]|[[_ C]|[C _]]]]; try discriminate. destruct C as [C|[C1 C2]]; [left; auto|]. right. split; [auto|lra].
  - rewrite orb_true_iff, andb_true_iff, !ltb_iff, snorm_at, nonzero_iff, warr_at, gnorm_at by auto. split; [auto 8|]. intros [[C _]|[[C _]|[[C _]|[_ C]]]]; auto; rewrite C in E; discriminate.
Qed.
Lemma strong_meaning_mixed : forall g cur new slope i, length g = n -> (i < n)%nat -> nth i (strong_mixed kinds warr g new cur slope) false = true <-> kept_by_rule labels w g cur new slope i.
Proof.
  intros g cur new slope i Lg Hi. assert (Lk : length kinds = n) by apply ml_kinds_length. unfold strong_mixed. set (F := fun p : kind * R => _).
  rewrite (nth_indep _ false (F (MUnpen, 0))) by (rewrite map_length, !combine_length; lia). rewrite map_nth, combine_nth by lia. unfold F. cbn [fst snd]. clear F.
  destruct (label_cases i Hi) as (Il & C). unfold kept_by_rule. set (l := nth i labels 0%Z) in *. fold q.
  assert (NL : forall a b, negb (ltb a b) = true <-> b <= a). { intros a b. unfold ltb. destruct (Rlt_dec a b); cbn; split; try discriminate; intros; auto; lra. }
  destruct C as [[E ->]|[[E ->]|[[E ->]|[[E ->]|[E ->]]]]]; cbn [discarded].
  - rewrite E. cbn. tauto.
  - rewrite E. cbn. rewrite NL. split; [intros C; right; left; split; auto; lra|]. intros [C|[[_ C]|[[C _]|[[C _]|[C _]]]]]; try discriminate. lra.
  - rewrite E. cbn. rewrite NL. split; [intros C; right; right; left; split; auto; lra|]. intros [C|[[C _]|[[_ C]|[[C _]|[C _]]]]]; try discriminate. lra.
  - rewrite E. cbn. rewrite NL, (Rabs_minus_sym new cur). split; [intros C; right; right; right; left; split; auto; lra|]. intros [C|[[C _]|[[C _]|[[_ C]|[C _]]]]]; try discriminate. lra.
  - rewrite NL, warr_at, gnorm_at by auto. split; [auto 8|]. intros [C|[[C _]|[[C _]|[[C _]|[_ C]]]]]; auto; rewrite C in E; discriminate.
Qed.
(** ** The first order condition, label by label *)
Lemma stat_labels : forall lam g s, stat n (mixed_pen labels w) lam g s -> norm (block labels (-1) g) = 0 /\
  stat (length (block labels (-2) g)) (doc_seminorm CL1) lam (block labels (-2) g) (block labels (-2) s) /\
  stat (length (block labels (-3) g)) (doc_seminorm CConPosPart) lam (block labels (-3) g) (block labels (-3) s) /\
  stat (length (block labels (-4) g)) nn_ind lam (block labels (-4) g) (block labels (-4) s) /\
  forall l, In l labels -> reserved l = false -> stat (length (block labels l g)) (group_term (w l)) lam (block labels l g) (block labels l s).
Proof.
  intros lam g s St. destruct (mfun_ok labels ids given En Hw) as [E1 _]. fold w in E1. unfold w in St. fold w in St. rewrite <- E1 in St. unfold mix in St. fold warr kinds q in St.
  assert (V : Forall (kvalid q) kinds) by (apply ml_valid; auto; apply Eq). set (a := map (kidx q) kinds) in *. assert (La : length a = n) by (unfold a, kinds; rewrite map_length, ml_kinds_length; auto). rewrite <- La in St.
  assert (W := ml_weights_ok labels ids given En Hw). fold warr in W.
  assert (C := stat_classes (q + 4) a (kidx_all q kinds V) (hk q warr) lam g s (fun k _ => po_gauge _ _ _ (hk_polar kinds warr W k)) St).
  destruct (ml_cls_special labels ids En q g Eq) as (G0 & G1 & G2 & G3). destruct (ml_cls_special labels ids En q s Eq) as (S0 & S1 & S2 & S3). fold kinds in G0, G1, G2, G3, S0, S1, S2, S3. fold a in G0, G1, G2, G3, S0, S1, S2, S3.
  assert (T : forall k l, (k < q + 4)%nat -> cls a k g = block labels l g -> cls a k s = block labels l s -> stat (length (block labels l g)) (hk q warr k) lam (block labels l g) (block labels l s)).
  { intros k l Hk A B. specialize (C k Hk). rewrite A, B in C. destruct C as (D1 & D). rewrite D1 in *. split; auto. }
  assert (K0 : hk q warr q = doc_seminorm CL1) by (unfold hk; change q with (kidx q ML1) at 2; rewrite kof_kidx; simpl; auto).
  assert (K1 : hk q warr (q + 1) = free) by (unfold hk; change (q + 1)%nat with (kidx q MUnpen); rewrite kof_kidx; simpl; auto).
  assert (K2 : hk q warr (q + 2) = doc_seminorm CConPosPart) by (unfold hk; change (q + 2)%nat with (kidx q MPos); rewrite kof_kidx; simpl; auto).
  assert (K3 : hk q warr (q + 3) = nn_ind) by (unfold hk; change (q + 3)%nat with (kidx q MNonneg); rewrite kof_kidx; simpl; auto).
  split; [|split; [|split; [|split]]].
  - specialize (T (q + 1)%nat (-1)%Z ltac:(lia) G1 S1). rewrite K1 in T. exact (stat_free _ _ _ _ T).
  - specialize (T q (-2)%Z ltac:(lia) G0 S0). rewrite K0 in T. exact T.
  - specialize (T (q + 2)%nat (-3)%Z ltac:(lia) G2 S2). rewrite K2 in T. exact T.
  - specialize (T (q + 3)%nat (-4)%Z ltac:(lia) G3 S3). rewrite K3 in T. exact T.
  - intros l Hl Hr. destruct (group_index l Hl Hr) as (A & B). specialize (T (index_of l ids) l ltac:(lia)). rewrite !(ml_cls_group labels ids En q) in T by (auto; apply Eq). rewrite B in T. specialize (T eq_refl eq_refl).
    unfold hk in T. change (index_of l ids) with (kidx q (MGroup (index_of l ids))) in T at 1. rewrite kof_kidx in T by (simpl; auto). rewrite warr_at in T by auto. exact T.
Qed.
Lemma stat_not_reported : forall lam tol g s i, 0 < lam -> 0 < tol -> stat n (mixed_pen labels w) lam g s -> (i < n)%nat -> ~ reported labels w g s lam tol i.
Proof.
  intros lam tol g s i Hl Ht St Hi. assert (Lg : length g = n) by apply St. assert (Ls : length s = n) by apply St. destruct (stat_labels lam g s St) as (_ & S2 & S3 & S4 & SG).
  unfold reported. set (l := nth i labels 0%Z). intros [[E C]|[[E C]|[[E C]|[E C]]]].
  - destruct (block_at labels (-2) g s i Hi Lg Ls E) as (p & Hp & P1 & P2). destruct (stat_l1 _ lam _ _ p Hl S2 Hp) as (A & B). rewrite P1, P2 in *. destruct C as [C|[C1 C2]]; [nra|]. rewrite (B C1) in C2.
    change (sign (nth i s 0)) with (np_sign (nth i s 0)) in C2. replace (- lam * np_sign (nth i s 0) / lam + np_sign (nth i s 0)) with 0 in C2 by (field; lra). rewrite Rabs_R0 in C2. lra.
  - destruct (block_at labels (-3) g s i Hi Lg Ls E) as (p & Hp & P1 & P2). destruct (stat_pos _ lam _ _ p Hl S3 Hp) as (A & _ & B). rewrite P1, P2 in *. destruct C as [C|[C1 C2]]; [nra|]. rewrite (B C1) in C2.
    replace (- lam / lam + 1) with 0 in C2 by (field; lra). rewrite Rabs_R0 in C2. lra.
  - destruct (block_at labels (-4) g s i Hi Lg Ls E) as (p & Hp & P1 & P2). destruct (stat_nn _ lam _ _ p Hl S4 Hp) as (A & _ & B). rewrite P1, P2 in *. destruct C as [C|[C1 C2]]; [nra|]. rewrite (B C1) in C2. lra.
  - assert (Il : In l labels) by (apply nth_In; auto). assert (W := Hw l (group_in l Il E)). fold w in W. destruct (stat_group _ lam (w l) _ _ Hl W (SG l Il E)) as (A & B). assert (0 <= w l * lam) by nra. destruct C as [C|[C1 C2]]; [nra|]. destruct (B C1) as (B1 & _). nra.
Qed.
(** ** The strong rule *)
Lemma stat_discard : forall new cur slope g gn s i, 0 < new -> new <= cur -> 0 <= slope -> length g = n -> stat n (mixed_pen labels w) new gn s -> (i < n)%nat ->
  (reserved (nth i labels 0%Z) = true -> Rabs (nth i gn 0 - nth i g 0) <= slope * (cur - new)) ->
  (reserved (nth i labels 0%Z) = false -> norm (block labels (nth i labels 0%Z) (vsub gn g)) <= slope * (cur - new) /\ w (nth i labels 0%Z) <= 1) ->
  ~ kept_by_rule labels w g cur new slope i -> nth i s 0 = 0.
Proof.
  intros new cur slope g gn s i Hn Hc Hsl Lg St Hi D1 D2 K. assert (Ln : length gn = n) by apply St. assert (Ls : length s = n) by apply St. destruct (stat_labels new gn s St) as (_ & S2 & S3 & S4 & SG).
  destruct (label_cases i Hi) as (Il & C). unfold kept_by_rule in K. set (l := nth i labels 0%Z) in *. destruct (Req_EM_T (nth i s 0) 0) as [|N]; auto. exfalso. apply K. clear K.
  destruct C as [[E _]|[[E _]|[[E _]|[[E _]|[E _]]]]].
  - auto.
  - right. left. split; auto. specialize (D1 ltac:(rewrite E; auto)). destruct (block_at labels (-2) gn s i Hi Ln Ls E) as (p & Hp & P1 & P2). destruct (stat_l1 _ new _ _ p Hn S2 Hp) as (_ & B). rewrite P1, P2 in B. specialize (B N).
    assert (A : Rabs (nth i gn 0) = new). { rewrite B. unfold np_sign. destruct (Rlt_dec (nth i s 0) 0); [rewrite Rabs_right; lra|]. destruct (Rlt_dec 0 (nth i s 0)); [rewrite Rabs_left; lra|lra]. }
    assert (T := Rabs_triang (nth i gn 0 - nth i g 0) (nth i g 0)). replace (nth i gn 0 - nth i g 0 + nth i g 0) with (nth i gn 0) in T by ring. lra.
  - right. right. left. split; auto. specialize (D1 ltac:(rewrite E; auto)). destruct (block_at labels (-3) gn s i Hi Ln Ls E) as (p & Hp & P1 & P2). destruct (stat_pos _ new _ _ p Hn S3 Hp) as (_ & _ & B). rewrite P1, P2 in B. specialize (B N).
    assert (T := Rle_abs (- (nth i gn 0 - nth i g 0))). rewrite Rabs_Ropp in T. assert (T' := Rle_abs (nth i gn 0 - nth i g 0)). lra.
  - right. right. right. left. split; auto. specialize (D1 ltac:(rewrite E; auto)). destruct (block_at labels (-4) gn s i Hi Ln Ls E) as (p & Hp & P1 & P2). destruct (stat_nn _ new _ _ p Hn S4 Hp) as (_ & _ & B). rewrite P1, P2 in B. specialize (B N).
    assert (T := Rle_abs (- (nth i gn 0 - nth i g 0))). rewrite Rabs_Ropp in T. rewrite (Rabs_right (cur - new)) by lra. lra.
  - right. right. right. right. split; auto. specialize (D2 E). destruct D2 as (D2 & W1). assert (W := Hw l (group_in l Il E)). fold w in W. destruct (stat_group _ new (w l) _ _ Hn W (SG l Il E)) as (_ & B).
    destruct (block_at labels l gn s i Hi Ln Ls eq_refl) as (p & Hp & P1 & P2). assert (Nz : norm (block labels l s) <> 0).
    { intros Z. apply N. rewrite <- P2. assert (Z' : sqn (block labels l s) = 0) by (rewrite <- norm_sq, Z; ring). apply sqn_eq_zero in Z'. rewrite Z'. apply nth_zeros. }
    destruct (B Nz) as (B1 & _). assert (Lb : length (block labels l gn) = length (block labels l g)) by (unfold block; rewrite !pick_length; auto).
    assert (Eb : block labels l gn = vadd (block labels l (vsub gn g)) (block labels l g)). { unfold block at 2. rewrite vsub_pick by auto. symmetry. apply vadd_vsub. exact Lb. }
    assert (T : norm (block labels l gn) <= norm (block labels l g) + norm (block labels l (vsub gn g))). { rewrite Eb at 1. rewrite Rplus_comm. apply norm_triangle. unfold block. rewrite vsub_pick, vsub_length by auto. exact Lb. }
    assert (0 <= slope * new) by nra. nra.
Qed.
End Labels.

(** Separable gauges: proximal certificates, polarity and epigraphs, class by class. *)
From Coq Require Import Reals List Lra Lia Psatz Bool Arith.
From Verif Require Import Vec Spec M_quad M_prox M_semi SpecAtom M_shift SpecBase SpecMode M_mode SpecModed SpecWeighted SpecPart P_quad P_pl P_prox P_feas P_semi P_conj P_shift P_gauge P_cones P_weighted.
Import ListNotations.
Local Open Scope R_scope.

(** ** pick *)
Section Pick.
Context {A : Type}.
Implicit Types (f : A -> bool) (l : list A) (x y : vec).
Definition count f l : nat := length (filter f l).
Lemma pick_length : forall f l x, length x = length l -> length (pick f l x) = count f l.
Proof.
  intros f l. unfold count. induction l as [|c l IH]; intros [|a x] H; try discriminate; auto.
  cbn [pick filter]. destruct (f c); cbn [length]; auto.
Qed.
Lemma pick_vzip : forall g f l x y, length x = length l -> length y = length l -> pick f l (vzip g x y) = vzip g (pick f l x) (pick f l y).
Proof.
  intros g f l. induction l as [|c l IH]; intros [|a x] [|b y] H1 H2; try discriminate; auto.
  cbn [pick vzip]. simpl in H1, H2. destruct (f c); cbn [vzip]; rewrite IH by lia; auto.
Qed.
Lemma pick_map : forall g f l x, pick f l (map g x) = map g (pick f l x).
Proof.
  intros g f l. induction l as [|c l IH]; intros [|a x]; auto. cbn [pick map]. destruct (f c); cbn [map]; rewrite IH; auto.
Qed.
Lemma pick_ext_f : forall f f' l x, (forall c, In c l -> f c = f' c) -> pick f l x = pick f' l x.
Proof.
  intros f f' l. induction l as [|c l IH]; intros [|a x] H; auto. cbn [pick]. rewrite H by (left; auto). rewrite IH; auto. intros; apply H; right; auto.
Qed.
Lemma pick_zeros : forall f l n, length l = n -> pick f l (zeros n) = zeros (count f l).
Proof.
  intros f l. unfold count. induction l as [|c l IH]; intros n H; subst n; auto. cbn [length zeros repeat pick filter]. fold (zeros (length l)). rewrite IH by auto.
  destruct (f c); auto.
Qed.
Lemma pick_none : forall f l x, (forall c, In c l -> f c = false) -> pick f l x = [].
Proof. intros f l. induction l as [|c l IH]; intros [|a x] H; auto. cbn [pick]. rewrite H by (left; auto). apply IH. intros; apply H; right; auto. Qed.
End Pick.
Lemma pick_labels : forall {A B} (g : A -> B) f l x, pick f (map g l) x = pick (fun c => f (g c)) l x.
Proof. intros A B g f l. induction l as [|c l IH]; intros [|a x]; auto. cbn [pick map]. rewrite IH. auto. Qed.
Lemma vscal_pick : forall {A} (f : A -> bool) l t x, pick f l (vscal t x) = vscal t (pick f l x).
Proof. intros. apply pick_map. Qed.
Lemma vsub_pick : forall {A} (f : A -> bool) l x y, length x = length l -> length y = length l -> pick f l (vsub x y) = vsub (pick f l x) (pick f l y).
Proof. intros. apply pick_vzip; auto. Qed.

(** ** Finite sums over classes 0..K-1 *)
Fixpoint rsum (K : nat) (F : nat -> R) : R := match K with O => 0 | S k => rsum k F + F k end.
Fixpoint esum (K : nat) (F : nat -> ext) : ext := match K with O => Fin 0 | S k => ext_add (esum k F) (F k) end.
Fixpoint emax (K : nat) (F : nat -> ext) : ext := match K with O => Fin 0 | S k => ext_max (emax k F) (F k) end.
Lemma rsum_ext : forall K F G, (forall k, (k < K)%nat -> F k = G k) -> rsum K F = rsum K G.
Proof. induction K as [|K IH]; intros F G H; simpl; auto. rewrite (IH F G), H by (intros; auto; try apply H; lia). auto. Qed.
Lemma esum_ext : forall K F G, (forall k, (k < K)%nat -> F k = G k) -> esum K F = esum K G.
Proof. induction K as [|K IH]; intros F G H; simpl; auto. rewrite (IH F G), H by (intros; auto; try apply H; lia). auto. Qed.
Lemma emax_ext : forall K F G, (forall k, (k < K)%nat -> F k = G k) -> emax K F = emax K G.
Proof. induction K as [|K IH]; intros F G H; simpl; auto. rewrite (IH F G), H by (intros; auto; try apply H; lia). auto. Qed.
Lemma rsum_le : forall K F G, (forall k, (k < K)%nat -> F k <= G k) -> rsum K F <= rsum K G.
Proof. induction K as [|K IH]; intros F G H; simpl; [lra|]. assert (rsum K F <= rsum K G) by (apply IH; intros; apply H; lia). specialize (H K ltac:(lia)). lra. Qed.
Lemma rsum_scal : forall K c F, rsum K (fun k => c * F k) = c * rsum K F.
Proof. induction K as [|K IH]; intros c F; simpl; [lra|]. rewrite IH. lra. Qed.
Lemma rsum_plus : forall K F G, rsum K (fun k => F k + G k) = rsum K F + rsum K G.
Proof. induction K as [|K IH]; intros F G; simpl; [lra|]. rewrite IH. lra. Qed.
Lemma rsum_zero : forall K F, (forall k, (k < K)%nat -> F k = 0) -> rsum K F = 0.
Proof. induction K as [|K IH]; intros F H; simpl; auto. rewrite IH, H by (intros; try apply H; lia). lra. Qed.
Lemma rsum_nonneg : forall K F, (forall k, (k < K)%nat -> 0 <= F k) -> 0 <= rsum K F.
Proof. induction K as [|K IH]; intros F H; simpl; [lra|]. assert (0 <= rsum K F) by (apply IH; intros; apply H; lia). specialize (H K ltac:(lia)). lra. Qed.
Lemma rsum_single : forall K F j, (j < K)%nat -> (forall k, (k < K)%nat -> k <> j -> F k = 0) -> rsum K F = F j.
Proof.
  induction K as [|K IH]; intros F j Hj H; [lia|]. simpl. destruct (Nat.eq_dec j K) as [->|N].
  - rewrite rsum_zero; [lra|]. intros k Hk. apply H; lia.
  - rewrite (IH F j) by (try lia; intros; apply H; lia). rewrite (H K) by lia. lra.
Qed.
Lemma esum_fin : forall K F G, (forall k, (k < K)%nat -> F k = Fin (G k)) -> esum K F = Fin (rsum K G).
Proof. induction K as [|K IH]; intros F G H; simpl; auto. rewrite (IH F G), H by (intros; try apply H; lia). auto. Qed.
Lemma esum_inv : forall K F r, esum K F = Fin r -> exists G, (forall k, (k < K)%nat -> F k = Fin (G k)) /\ r = rsum K G.
Proof.
  induction K as [|K IH]; intros F r H; simpl in H.
  - injection H as <-. exists (fun _ => 0). split; [lia|auto].
  - destruct (esum K F) as [s|] eqn:E; [|discriminate]. destruct (F K) as [t|] eqn:E'; [|discriminate]. simpl in H. injection H as <-.
    destruct (IH F s E) as (G & HG & Hs). exists (fun k => if Nat.eq_dec k K then t else G k). split.
    + intros k Hk. destruct (Nat.eq_dec k K) as [->|]; auto. apply HG. lia.
    + simpl. destruct (Nat.eq_dec K K); [|congruence]. f_equal. rewrite Hs. apply rsum_ext. intros k Hk. destruct (Nat.eq_dec k K); [lia|auto].
Qed.
Lemma esum_pinf : forall K F, esum K F = PInf -> exists k, (k < K)%nat /\ F k = PInf.
Proof.
  induction K as [|K IH]; intros F H; simpl in H; [discriminate|]. destruct (F K) as [t|] eqn:E'.
  - destruct (esum K F) as [s|] eqn:E; [discriminate|]. destruct (IH F E) as (k & Hk & Ek). exists k. split; auto.
  - exists K. split; auto.
Qed.
Lemma esum_inf : forall K F k, (k < K)%nat -> F k = PInf -> esum K F = PInf.
Proof.
  induction K as [|K IH]; intros F k Hk E; [lia|]. simpl. destruct (Nat.eq_dec k K) as [->|N].
  - rewrite E. destruct (esum K F); auto.
  - rewrite (IH F k) by (auto; lia). auto.
Qed.
Lemma emax_inv : forall K F r, emax K F = Fin r -> 0 <= r /\ forall k, (k < K)%nat -> exists s, F k = Fin s /\ s <= r.
Proof.
  induction K as [|K IH]; intros F r H; simpl in H.
  - injection H as <-. split; [lra|lia].
  - destruct (emax K F) as [s|] eqn:E; [|discriminate]. destruct (F K) as [t|] eqn:E'; [|discriminate]. simpl in H. injection H as <-.
    destruct (IH F s E) as [H0 H]. split; [apply Rle_trans with s; auto; apply Rmax_l|]. intros k Hk. destruct (Nat.eq_dec k K) as [->|N].
    + exists t. split; auto. apply Rmax_r.
    + destruct (H k) as (u & Eu & Hu); [lia|]. exists u. split; auto. apply Rle_trans with s; auto. apply Rmax_l.
Qed.
Lemma emax_attained : forall K F r, emax K F = Fin r -> r = 0 \/ exists k, (k < K)%nat /\ F k = Fin r.
Proof.
  induction K as [|K IH]; intros F r H; simpl in H.
  - injection H as <-. auto.
  - destruct (emax K F) as [s|] eqn:E; [|discriminate]. destruct (F K) as [t|] eqn:E'; [|discriminate]. simpl in H. injection H as <-.
    unfold Rmax. destruct (Rle_dec s t).
    + right. exists K. auto.
    + destruct (IH F s E) as [|(k & Hk & Ek)]; auto. right. exists k. auto.
Qed.
Lemma emax_pinf : forall K F, emax K F = PInf -> exists k, (k < K)%nat /\ F k = PInf.
Proof.
  induction K as [|K IH]; intros F H; simpl in H; [discriminate|]. destruct (F K) as [t|] eqn:E'.
  - destruct (emax K F) as [s|] eqn:E; [discriminate|]. destruct (IH F E) as (k & Hk & Ek). exists k. split; auto.
  - exists K. split; auto.
Qed.
Lemma emax_le : forall K F b, 0 <= b -> (ext_le (emax K F) (Fin b) <-> forall k, (k < K)%nat -> ext_le (F k) (Fin b)).
Proof.
  intros K F b Hb. split.
  - intros H k Hk. destruct (emax K F) as [r|] eqn:E; simpl in H; [|tauto]. destruct (emax_inv _ _ _ E) as [_ K0]. destruct (K0 k Hk) as (s & Es & Hs). rewrite Es. simpl. lra.
  - intros H. destruct (emax K F) as [r|] eqn:E; simpl.
    + destruct (emax_attained _ _ _ E) as [->|(k & Hk & Ek)]; auto. specialize (H k Hk). rewrite Ek in H. auto.
    + destruct (emax_pinf _ _ E) as (k & Hk & Ek). specialize (H k Hk). rewrite Ek in H. auto.
Qed.

(** ** The partition given by an index list *)
Definition cls (a : list nat) (k : nat) (x : vec) : vec := pick (Nat.eqb k) a x.
Definition csize (a : list nat) (k : nat) : nat := count (Nat.eqb k) a.
Lemma cls_length : forall a k x, length x = length a -> length (cls a k x) = csize a k.
Proof. intros. apply pick_length. auto. Qed.
Lemma dot_cls : forall K a x y, Forall (fun k => (k < K)%nat) a -> length x = length a -> length y = length a ->
  dot x y = rsum K (fun k => dot (cls a k x) (cls a k y)).
Proof.
  intros K a. induction a as [|c a IH]; intros [|b x] [|d y] H H1 H2; try discriminate.
  - symmetry. apply rsum_zero. intros. unfold cls. cbn [pick]. apply dot_nil_l.
  - pose proof (Forall_inv H) as Hc. pose proof (Forall_inv_tail H) as Ht. cbv beta in Hc. rewrite dot_cons, (IH x y) by (auto; simpl in *; lia).
    transitivity (rsum K (fun k => (if Nat.eqb k c then b * d else 0) + dot (cls a k x) (cls a k y))).
    + rewrite rsum_plus. f_equal. rewrite (rsum_single K _ c); auto.
      * rewrite Nat.eqb_refl. auto.
      * intros k Hk N. destruct (Nat.eqb_spec k c); congruence.
    + apply rsum_ext. intros k Hk. unfold cls. cbn [pick]. destruct (Nat.eqb k c); [rewrite dot_cons|]; lra.
Qed.
Lemma cls_inj : forall K a x y, Forall (fun k => (k < K)%nat) a -> length x = length a -> length y = length a ->
  (forall k, (k < K)%nat -> cls a k x = cls a k y) -> x = y.
Proof.
  intros K a. induction a as [|c a IH]; intros [|b x] [|d y] H H1 H2 Hk; try discriminate; auto.
  pose proof (Forall_inv H) as Hc. pose proof (Forall_inv_tail H) as Ht. cbv beta in Hc.
  pose proof (Hk c Hc) as E. unfold cls in E. cbn [pick] in E. rewrite Nat.eqb_refl in E. injection E as E1 E2.
  f_equal; auto. apply IH; auto. intros k Hk'. specialize (Hk k Hk'). unfold cls in Hk. cbn [pick] in Hk. destruct (Nat.eqb k c); auto. injection Hk; auto.
Qed.
Lemma cls_build : forall a (f : nat -> vec), (forall k, length (f k) = csize a k) -> exists x, length x = length a /\ forall k, cls a k x = f k.
Proof.
  induction a as [|c a IH]; intros f Hf.
  - exists []. split; auto. intros k. unfold cls. cbn [pick]. specialize (Hf k). destruct (f k); auto. discriminate.
  - assert (Hc := Hf c). unfold csize, count in Hc. cbn [filter] in Hc. rewrite Nat.eqb_refl in Hc. destruct (f c) as [|b fc] eqn:Ec; [discriminate|]. simpl in Hc.
    destruct (IH (fun k => if Nat.eqb k c then fc else f k)) as (x & Lx & Hx).
    + intros k. destruct (Nat.eqb_spec k c) as [->|N].
      * unfold csize, count. lia.
      * rewrite Hf. unfold csize, count. cbn [filter]. destruct (Nat.eqb_spec k c); [congruence|auto].
    + exists (b :: x). split; [simpl; lia|]. intros k. specialize (Hx k). unfold cls in *. cbn [pick]. destruct (Nat.eqb_spec k c) as [E|N]; rewrite Hx; auto. subst k. auto.
Qed.
Lemma cls_spike : forall a j (v : vec), length v = csize a j -> exists x, length x = length a /\ cls a j x = v /\ forall k, k <> j -> cls a k x = zeros (csize a k).
Proof.
  intros a j v Hv. destruct (cls_build a (fun k => if Nat.eqb k j then v else zeros (csize a k))) as (x & Lx & Hx).
  - intros k. destruct (Nat.eqb_spec k j) as [->|]; auto. apply zeros_length.
  - exists x. split; auto. split.
    + rewrite Hx, Nat.eqb_refl. auto.
    + intros k N. rewrite Hx. destruct (Nat.eqb_spec k j); congruence.
Qed.

(** ** Certificates *)
(** p is the prox of c*h at x: the residual is in c times the polar ball, and aligned with p *)
Definition pcert (n : nat) (h : vec -> ext) (c : R) (x p : vec) : Prop :=
  length x = n /\ length p = n /\ exists r, h p = Fin r /\
  (forall v s, length v = n -> h v = Fin s -> dot (vsub x p) v <= c * s) /\ dot (vsub x p) p = c * r.

Lemma pcert_prox : forall n h L lam x p, 0 < L -> pcert n h (lam / L) x p -> is_unique_argmin n (prox_objective L x (gmode h (Lagrange lam))) p.
Proof. intros n h L lam x p HL (Lx & Lp & r & Er & H1 & H2). apply gauge_prox_cert with (r := r); auto. Qed.
Lemma pcert_ball : forall n h c x p b, 0 <= c -> pcert n h c x p -> h p = Fin b -> is_proj n (gball h b) x p.
Proof.
  intros n h c x p b Hc (Lx & Lp & r & Er & H1 & H2) Eb. assert (r = b) by congruence. subst r. apply proj_certificate; auto.
  - unfold gball. rewrite Eb. simpl. lra.
  - intros v Lv Bv. unfold gball in Bv. destruct (h v) as [s|] eqn:Es; simpl in Bv; [|tauto]. rewrite dot_sub_r by vlen. rewrite H2.
    specialize (H1 v s Lv Es). assert (c * s <= c * b) by (apply Rmult_le_compat_l; auto). lra.
Qed.
Lemma proj_inside : forall n (S : vec -> Prop) x, length x = n -> S x -> is_proj n S x x.
Proof.
  intros n S x Hx HS. apply proj_certificate; auto. intros v Lv _. rewrite vsub_self, dot_zeros_l. lra.
Qed.
Lemma pcert_moreau : forall n h h' c x p, polar_pair n h h' -> 0 <= c -> pcert n h c x p -> is_proj n (gball h' c) x (vsub x p).
Proof. intros n h h' c x p P Hc (Lx & Lp & r & Er & H1 & H2). eapply gauge_moreau; eauto. Qed.
Lemma vsub_vsub : forall n (x p : vec), length x = n -> length p = n -> vsub x (vsub x p) = p.
Proof. intros n x p Hx Hp. subst n. unfold vsub. pattern x, p. apply vec_ind2; auto. intros a c X Y HL IH. cbn [vzip]. rewrite IH. f_equal. lra. Qed.
(** The residual of a projection onto the ball {h <= b}, at level c. *)
Lemma pcert_polar_prox : forall n h h' L lam c x p, polar_pair n h' h -> polar_pair n h h' -> 0 < L -> 0 <= c -> pcert n h c x p -> h p = Fin (lam / L) ->
  is_unique_argmin n (prox_objective L x (gmode h' (Lagrange lam))) (vsub x p).
Proof.
  intros n h h' L lam c x p P P' HL Hc (Lx & Lp & r & Er & H1 & H2) Eb. assert (r = lam / L) by congruence. subst r.
  assert (Lr : length (vsub x p) = n) by vlen.
  pose proof (po_attain _ _ _ P' (vsub x p) Lr) as At. destruct (h' (vsub x p)) as [s|] eqn:Es.
  - destruct At as (v & r & Lv & Ev & Hr & Hd). pose proof (H1 v r Lv Ev) as Hv. pose proof (ga_nonneg _ _ (po_gauge _ _ _ P') _ _ Lv Ev).
    apply gauge_moreau_rev with (h' := h) (t := c) (r := lam / L) (s := s); auto; try lra.
    + rewrite <- Hd. nra.
    + rewrite dot_comm. auto.
  - destruct At as (v & Lv & Ev & Hd). pose proof (H1 v 0 Lv Ev). lra.
Qed.
(** ... and when x is already inside the ball *)
Lemma inside_polar_prox : forall n h h' L lam x r, polar_pair n h' h -> 0 < L -> length x = n -> h x = Fin r -> r <= lam / L ->
  is_unique_argmin n (prox_objective L x (gmode h' (Lagrange lam))) (vsub x x).
Proof.
  intros n h h' L lam x r P HL Lx Ex Hr. rewrite vsub_self, Lx.
  apply gauge_prox_cert with (r := 0); auto; try vlen.
  - apply (ga_zero _ _ (po_gauge _ _ _ P)).
  - intros v s Lv Ev. rewrite vsub_zeros_r by auto. pose proof (po_holder _ _ _ P v x s r Lv Lx Ev Ex). pose proof (ga_nonneg _ _ (po_gauge _ _ _ P) _ _ Lv Ev). nra.
  - rewrite dot_zeros_r. lra.
Qed.

(** ** Separable sums *)
Section Part.
Variables (K : nat) (a : list nat) (n : nat).
Hypothesis Ha : Forall (fun k => (k < K)%nat) a.
Hypothesis Hn : length a = n.
Definition hsum (h : nat -> vec -> ext) (x : vec) : ext := esum K (fun k => h k (cls a k x)).
Definition hmax (h : nat -> vec -> ext) (x : vec) : ext := emax K (fun k => h k (cls a k x)).

Lemma part_pcert : forall h c x p, length x = n -> length p = n ->
  (forall k, (k < K)%nat -> pcert (csize a k) (h k) c (cls a k x) (cls a k p)) -> pcert n (hsum h) c x p.
Proof.
  intros h c x p Lx Lp H. split; auto. split; auto.
  assert (E : exists r, hsum h p = Fin r).
  { destruct (hsum h p) as [r|] eqn:E; eauto. destruct (esum_pinf _ _ E) as (k & Hk & Ek). destruct (H k Hk) as (_ & _ & r & Er & _). congruence. }
  destruct E as (r & Er). exists r. split; auto. destruct (esum_inv _ _ _ Er) as (G & HG & ->). split.
  - intros v s Lv Ev. destruct (esum_inv _ _ _ Ev) as (V & HV & ->). rewrite (dot_cls K a) by (auto; try congruence; rewrite vsub_length; congruence).
    rewrite <- rsum_scal. apply rsum_le. intros k Hk. destruct (H k Hk) as (_ & _ & r' & Er' & H1 & H2).
    unfold cls. rewrite vsub_pick by congruence. apply H1; [apply cls_length; congruence|]. rewrite HV by auto. auto.
  - rewrite (dot_cls K a) by (auto; try congruence; rewrite vsub_length; congruence). rewrite <- rsum_scal. apply rsum_ext. intros k Hk.
    destruct (H k Hk) as (_ & _ & r' & Er' & H1 & H2). unfold cls. rewrite vsub_pick by congruence. rewrite HG in Er' by auto. injection Er' as <-. apply H2.
Qed.

Lemma part_gauge : forall h, (forall k, (k < K)%nat -> gauge (csize a k) (h k)) -> gauge n (hsum h) /\ gauge n (hmax h).
Proof.
  intros h H. assert (Lc : forall k x, length x = n -> length (cls a k x) = csize a k) by (intros; apply cls_length; congruence).
  split; constructor.
  - intros x r Lx E. destruct (esum_inv _ _ _ E) as (G & HG & ->). apply rsum_nonneg. intros k Hk. apply (ga_nonneg _ _ (H k Hk) (cls a k x)); auto.
  - intros t x r Lx Ht E. destruct (esum_inv _ _ _ E) as (G & HG & ->). rewrite <- rsum_scal. apply esum_fin. intros k Hk. unfold cls. rewrite vscal_pick.
    apply (ga_scal _ _ (H k Hk)); auto; [apply Lc; auto|apply HG; auto].
  - unfold hsum. rewrite (esum_fin K _ (fun _ => 0)); [rewrite rsum_zero; auto|]. intros k Hk. unfold cls. rewrite pick_zeros by auto. apply (ga_zero _ _ (H k Hk)).
  - intros x r Lx E. apply (emax_inv _ _ _ E).
  - intros t x r Lx Ht E. unfold hmax in *. clear Ha Hn. revert r E. induction K as [|k IH]; intros r E; simpl in *.
    + injection E as <-. f_equal. lra.
    + destruct (emax k _) as [s|] eqn:Es; [|discriminate]. destruct (h k (cls a k x)) as [u|] eqn:Eu; [|discriminate]. simpl in E. injection E as <-.
      rewrite (IH (fun j Hj => H j (Nat.lt_lt_succ_r _ _ Hj)) s) by auto. unfold cls at 1. rewrite vscal_pick. fold (cls a k x).
      rewrite (ga_scal _ _ (H k (Nat.lt_succ_diag_r k)) t _ u) by auto. simpl. f_equal. rewrite RmaxRmult by auto. auto.
  - unfold hmax. assert (Z : forall k, (k < K)%nat -> h k (cls a k (zeros n)) = Fin 0).
    { intros k Hk. unfold cls. rewrite pick_zeros by auto. apply (ga_zero _ _ (H k Hk)). }
    clear - Z. induction K as [|k IH]; simpl; auto. rewrite IH by (intros; apply Z; lia). rewrite Z by lia. simpl. f_equal. apply Rmax_left. lra.
Qed.

Theorem part_polar : forall h h', (forall k, (k < K)%nat -> polar_pair (csize a k) (h k) (h' k)) -> polar_pair n (hsum h) (hmax h').
Proof.
  intros h h' H. assert (Lc : forall k x, length x = n -> length (cls a k x) = csize a k) by (intros; apply cls_length; congruence).
  constructor.
  - apply part_gauge. intros k Hk. apply (po_gauge _ _ _ (H k Hk)).
  - apply part_gauge. intros k Hk. apply (po_gauge' _ _ _ (H k Hk)).
  - intros x u r s Lx Lu Ex Eu. destruct (esum_inv _ _ _ Ex) as (G & HG & ->). destruct (emax_inv _ _ _ Eu) as [Hs HU].
    rewrite (dot_cls K a) by congruence. rewrite Rmult_comm, <- rsum_scal. apply rsum_le. intros k Hk. destruct (HU k Hk) as (t & Et & Ht).
    pose proof (po_holder _ _ _ (H k Hk) _ _ _ _ (Lc k x Lx) (Lc k u Lu) (HG k Hk) Et).
    pose proof (ga_nonneg _ _ (po_gauge _ _ _ (H k Hk)) _ _ (Lc k x Lx) (HG k Hk)). nra.
  - intros u Lu.
    assert (Z : forall k, (k < K)%nat -> h k (zeros (csize a k)) = Fin 0) by (intros k Hk; apply (ga_zero _ _ (po_gauge _ _ _ (H k Hk)))).
    assert (SP : forall j v r, (j < K)%nat -> length v = csize a j -> h j v = Fin r -> exists x, length x = n /\ hsum h x = Fin r /\ dot u x = dot (cls a j u) v).
    { intros j v r Hj Lv Ev. destruct (cls_spike a j v Lv) as (x & Lx & Xj & Xk). exists x. split; [congruence|]. split.
      - unfold hsum. rewrite (esum_fin K _ (fun k => if Nat.eqb k j then r else 0)).
        + rewrite (rsum_single K _ j); auto; [rewrite Nat.eqb_refl; auto|]. intros k Hk N. destruct (Nat.eqb_spec k j); congruence.
        + intros k Hk. destruct (Nat.eqb_spec k j) as [->|N]; [rewrite Xj; auto|]. rewrite Xk by auto. auto.
      - rewrite (dot_cls K a) by congruence. rewrite (rsum_single K _ j); auto; [rewrite Xj; auto|]. intros k Hk N. rewrite Xk by auto. apply dot_zeros_r. }
    destruct (hmax h' u) as [s|] eqn:Es.
    + destruct (emax_attained _ _ _ Es) as [->|(k & Hk & Ek)].
      * exists (zeros n), 0. split; [vlen|]. split; [|split; [lra|apply dot_zeros_r]].
        apply part_gauge. intros k Hk. apply (po_gauge _ _ _ (H k Hk)).
      * pose proof (po_attain _ _ _ (H k Hk) (cls a k u) (Lc k u Lu)) as At. rewrite Ek in At. destruct At as (v & r & Lv & Ev & Hr & Hd).
        destruct (SP k v r Hk Lv Ev) as (x & Lx & Ex & Dx). exists x, r. repeat (split; auto). congruence.
    + destruct (emax_pinf _ _ Es) as (k & Hk & Ek). pose proof (po_attain _ _ _ (H k Hk) (cls a k u) (Lc k u Lu)) as At. rewrite Ek in At.
      destruct At as (v & Lv & Ev & Hd). destruct (SP k v 0 Hk Lv Ev) as (x & Lx & Ex & Dx). exists x. repeat (split; auto). congruence.
Qed.

Lemma part_choose : forall (P : nat -> vec -> Prop), (forall k, (k < K)%nat -> exists u, length u = csize a k /\ P k u) ->
  exists x, length x = n /\ forall k, (k < K)%nat -> P k (cls a k x).
Proof.
  intros P H. assert (C : exists f : nat -> vec, forall k, (k < K)%nat -> length (f k) = csize a k /\ P k (f k)).
  { clear Ha Hn. induction K as [|k IH]; [exists (fun _ => []); lia|]. destruct IH as (f & Hf); [intros; apply H; lia|].
    destruct (H k) as (u & Lu & Pu); [lia|]. exists (fun j => if Nat.eqb j k then u else f j). intros j Hj. destruct (Nat.eqb_spec j k) as [->|N]; auto. apply Hf. lia. }
  destruct C as (f & Hf). destruct (cls_build a (fun k => if lt_dec k K then f k else zeros (csize a k))) as (x & Lx & Hx).
  - intros k. destruct (lt_dec k K); [apply Hf; auto|apply zeros_length].
  - exists x. split; [congruence|]. intros k Hk. rewrite Hx. destruct (lt_dec k K); [apply Hf; auto|lia].
Qed.

Theorem part_polar_rev : forall h h', (forall k, (k < K)%nat -> polar_pair (csize a k) (h k) (h' k)) -> (forall k, (k < K)%nat -> polar_pair (csize a k) (h' k) (h k)) ->
  polar_pair n (hmax h') (hsum h).
Proof.
  intros h h' H H'. assert (Lc : forall k x, length x = n -> length (cls a k x) = csize a k) by (intros; apply cls_length; congruence).
  pose proof (part_polar h h' H) as PP.
  apply polar_swap; auto.
  intros x Lx. destruct (hsum h x) as [r|] eqn:Er.
  - destruct (esum_inv _ _ _ Er) as (G & HG & ->).
    destruct (part_choose (fun k u => exists s, h' k u = Fin s /\ s <= 1 /\ dot (cls a k x) u = G k)) as (u & Lu & Hu).
    { intros k Hk. pose proof (po_attain _ _ _ (H' k Hk) (cls a k x) (Lc k x Lx)) as At. rewrite HG in At by auto.
      destruct At as (u & s & Lu & Eu & Hs & Hd). exists u. split; auto. exists s. auto. }
    assert (B : ext_le (hmax h' u) (Fin 1)).
    { apply emax_le; [lra|]. intros k Hk. destruct (Hu k Hk) as (s & Es & Hs & _). rewrite Es. simpl. auto. }
    destruct (hmax h' u) as [s|] eqn:Es; simpl in B; [|tauto]. exists u, s. split; auto. split; auto. split; auto.
    rewrite (dot_cls K a) by congruence. apply rsum_ext. intros k Hk. destruct (Hu k Hk) as (_ & _ & _ & D). auto.
  - destruct (esum_pinf _ _ Er) as (j & Hj & Ej). pose proof (po_attain _ _ _ (H' j Hj) (cls a j x) (Lc j x Lx)) as At. rewrite Ej in At.
    destruct At as (v & Lv & Ev & Hd). destruct (cls_spike a j v Lv) as (u & Lu & Uj & Uk). exists u. split; [congruence|]. split.
    + unfold hmax. assert (Z : forall k, (k < K)%nat -> h' k (cls a k u) = Fin 0).
      { intros k Hk. destruct (Nat.eq_dec k j) as [->|N]; [rewrite Uj; auto|]. rewrite Uk by auto. apply (ga_zero _ _ (po_gauge' _ _ _ (H k Hk))). }
      clear - Z. induction K as [|k IH]; simpl; auto. rewrite IH by (intros; apply Z; lia). rewrite Z by lia. simpl. f_equal. apply Rmax_left. lra.
    + rewrite (dot_cls K a) by congruence. rewrite (rsum_single K _ j); auto; [rewrite Uj; auto|]. intros k Hk N. rewrite Uk by auto. apply dot_zeros_r.
Qed.

Lemma part_ball : forall h b x, 0 <= b -> gball (hmax h) b x <-> forall k, (k < K)%nat -> gball (h k) b (cls a k x).
Proof. intros h b x Hb. apply emax_le. auto. Qed.
(** Projection on a product of balls. *)
Theorem part_proj : forall h b x p, 0 <= b -> length x = n -> length p = n ->
  (forall k, (k < K)%nat -> is_proj (csize a k) (gball (h k) b) (cls a k x) (cls a k p)) -> is_proj n (gball (hmax h) b) x p.
Proof.
  intros h b x p Hb Lx Lp H.
  assert (SQ : forall v, length v = n -> sqn (vsub x v) = rsum K (fun k => sqn (vsub (cls a k x) (cls a k v)))).
  { intros v Lv. unfold sqn. rewrite (dot_cls K a) by (auto; rewrite vsub_length; congruence). apply rsum_ext. intros k Hk. unfold cls. rewrite vsub_pick by congruence. auto. }
  assert (Lc : forall k x, length x = n -> length (cls a k x) = csize a k) by (intros; apply cls_length; congruence).
  split; auto. split.
  - apply part_ball; auto. intros k Hk. apply (H k Hk).
  - intros v Lv Bv. rewrite part_ball in Bv by auto. rewrite !SQ by auto.
    assert (LE : forall k, (k < K)%nat -> sqn (vsub (cls a k x) (cls a k p)) <= sqn (vsub (cls a k x) (cls a k v))).
    { intros k Hk. destruct (H k Hk) as (_ & _ & M). apply M; auto. }
    split; [apply rsum_le; auto|]. intros E. apply (cls_inj K a); auto; try congruence. intros k Hk. destruct (H k Hk) as (_ & _ & M). apply M; auto.
    assert (EQ : forall k, (k < K)%nat -> sqn (vsub (cls a k x) (cls a k v)) = sqn (vsub (cls a k x) (cls a k p))).
    { clear - LE E. induction K as [|j IH]; intros k Hk; [lia|]. simpl in E.
      assert (S1 : rsum j (fun k => sqn (vsub (cls a k x) (cls a k p))) <= rsum j (fun k => sqn (vsub (cls a k x) (cls a k v)))) by (apply rsum_le; intros; apply LE; lia).
      pose proof (LE j ltac:(lia)). destruct (Nat.eq_dec k j) as [->|N]; [lra|]. apply IH; try lia; try lra; intros; apply LE; lia. }
    apply EQ. auto.
Qed.
(** Separable proximal problems. *)
Theorem part_argmin : forall (F : nat -> vec -> ext) p, length p = n ->
  (forall k, (k < K)%nat -> is_unique_argmin (csize a k) (F k) (cls a k p)) -> is_unique_argmin n (hsum F) p.
Proof.
  intros F p Lp H. assert (Lc : forall k x, length x = n -> length (cls a k x) = csize a k) by (intros; apply cls_length; congruence).
  assert (E : exists r, hsum F p = Fin r).
  { destruct (hsum F p) as [r|] eqn:E; eauto. destruct (esum_pinf _ _ E) as (k & Hk & Ek). destruct (H k Hk) as ((_ & (r & Er) & _) & _). congruence. }
  destruct E as (r & Er). destruct (esum_inv _ _ _ Er) as (G & HG & Hr). split; [split; auto; split; eauto|].
  - intros v Lv. rewrite Er. destruct (hsum F v) as [s|] eqn:Es; simpl; auto. destruct (esum_inv _ _ _ Es) as (V & HV & ->). rewrite Hr. apply rsum_le. intros k Hk.
    destruct (H k Hk) as ((_ & _ & M) & _). specialize (M (cls a k v) (Lc k v Lv)). rewrite HG, HV in M by auto. auto.
  - intros v Lv Hle. rewrite Er in Hle. destruct (hsum F v) as [s|] eqn:Es; simpl in Hle; [|tauto]. destruct (esum_inv _ _ _ Es) as (V & HV & ->). rewrite Hr in Hle.
    assert (LE : forall k, (k < K)%nat -> G k <= V k).
    { intros k Hk. destruct (H k Hk) as ((_ & _ & M) & _). specialize (M (cls a k v) (Lc k v Lv)). rewrite HG, HV in M by auto. auto. }
    assert (EQ : forall k, (k < K)%nat -> V k = G k).
    { clear - LE Hle. induction K as [|j IH]; intros k Hk; [lia|]. simpl in Hle.
      assert (S1 : rsum j G <= rsum j V) by (apply rsum_le; intros; apply LE; lia).
      pose proof (LE j ltac:(lia)). destruct (Nat.eq_dec k j) as [->|N]; [lra|]. apply IH; try lia; try lra; intros; apply LE; lia. }
    apply (cls_inj K a); auto; try congruence. intros k Hk. destruct (H k Hk) as (_ & U). apply U; auto. rewrite HV, HG by auto. rewrite EQ by auto. simpl. lra.
Qed.
End Part.

(** ** Epigraphs of gauges *)
Lemma epi_fun_cases : forall h x, epi_fun h x = Fin 0 /\ epi h x \/ epi_fun h x = PInf /\ ~ epi h x.
Proof. intros h x. unfold epi_fun, epi. destruct (h (removelast x)) as [r|]; simpl; auto. destruct (Rle_dec r (last x 0)); auto. Qed.
Lemma epi_neg_fun_cases : forall h x, epi_neg_fun h x = Fin 0 /\ epi_neg h x \/ epi_neg_fun h x = PInf /\ ~ epi_neg h x.
Proof. intros h x. unfold epi_neg_fun, epi_neg. destruct (h (removelast x)) as [r|]; simpl; auto. destruct (Rle_dec r (- last x 0)); auto. Qed.
Lemma indicator_argmin : forall n L x (g : vec -> ext) (S : vec -> Prop) p, (forall v, g v = Fin 0 /\ S v \/ g v = PInf /\ ~ S v) ->
  0 < L -> length x = n -> is_proj n S x p -> is_unique_argmin n (prox_objective L x g) p.
Proof.
  intros n L x g S p Hg HL Hx (Hp & HS & H). unfold prox_objective.
  assert (Ep : g p = Fin 0) by (destruct (Hg p) as [[? _]|[_ ?]]; tauto).
  split; [split; [auto|split]|].
  - rewrite Ep. simpl. eauto.
  - intros v Hv. rewrite Ep. destruct (Hg v) as [[E I]|[E I]]; rewrite E; simpl; auto. destruct (H v Hv I) as [H1 _]. nra.
  - intros v Hv. rewrite Ep. destruct (Hg v) as [[E I]|[E I]]; rewrite E; simpl; [|tauto]. intros Hle. destruct (H v Hv I) as [H1 H2]. apply H2. nra.
Qed.
Lemma last_app1 : forall (v : vec) t, last (v ++ [t]) 0 = t.
Proof. intros. apply last_last. Qed.
Lemma removelast_app1 : forall (v : vec) t, removelast (v ++ [t]) = v.
Proof. intros. apply removelast_last. Qed.
Lemma epi_app : forall h v t, epi h (v ++ [t]) <-> ext_le (h v) (Fin t).
Proof. intros. unfold epi. rewrite removelast_app1, last_app1. tauto. Qed.
Lemma epi_neg_app : forall h v t, epi_neg h (v ++ [t]) <-> ext_le (h v) (Fin (- t)).
Proof. intros. unfold epi_neg. rewrite removelast_app1, last_app1. tauto. Qed.
Lemma split_app1 : forall n (x : vec), length x = S n -> exists v t, x = v ++ [t] /\ length v = n.
Proof. intros n x H. destruct (split_last (S n) x H) as (v & t & E & L); [lia|]. exists v, t. split; auto. rewrite L. lia. Qed.

(** Conic certificates. *)
Definition ccert (n : nat) (C : vec -> Prop) (x p : vec) : Prop :=
  length x = n /\ length p = n /\ C p /\ dot (vsub x p) p = 0 /\ forall v, length v = n -> C v -> dot (vsub x p) v <= 0.
Lemma ccert_proj : forall n C x p, ccert n C x p -> is_proj n C x p.
Proof.
  intros n C x p (Lx & Lp & Cp & H1 & H2). apply proj_certificate; auto. intros v Lv Cv. rewrite dot_sub_r by vlen. rewrite H1. specialize (H2 v Lv Cv). lra.
Qed.
Lemma vsub_app1 : forall n (v p : vec) s t, length v = n -> length p = n -> vsub (v ++ [s]) (p ++ [t]) = vsub v p ++ [s - t].
Proof. intros n v p s t Hv Hp. unfold vsub. rewrite vzip_app by congruence. auto. Qed.
Lemma dot_app1 : forall n (v p : vec) s t, length v = n -> length p = n -> dot (v ++ [s]) (p ++ [t]) = dot v p + s * t.
Proof. intros. apply dot_last. congruence. Qed.
Lemma len_app1 : forall n (v : vec) t, length v = n -> length (v ++ [t]) = S n.
Proof. intros n v t H. rewrite app_length, H. simpl. lia. Qed.
(** Cut at level c: the point lies outside both the epigraph and its polar. *)
Lemma epi_cert : forall n h c v t p, 0 <= c -> pcert n h c v p -> h p = Fin (t + c) -> ccert (S n) (epi h) (v ++ [t]) (p ++ [t + c]).
Proof.
  intros n h c v t p Hc (Lv & Lp & r & Er & H1 & H2) Eb. assert (r = t + c) by congruence. subst r.
  split; [apply len_app1; auto|]. split; [apply len_app1; auto|]. split; [apply epi_app; rewrite Er; simpl; lra|].
  rewrite (vsub_app1 n) by auto. assert (Lr : length (vsub v p) = n) by vlen. split.
  - rewrite (dot_app1 n) by auto. rewrite H2. lra.
  - intros w Lw Cw. destruct (split_app1 n w Lw) as (u & s & -> & Lu). apply -> epi_app in Cw. destruct (h u) as [q|] eqn:Eu; simpl in Cw; [|tauto].
    rewrite (dot_app1 n) by auto. specialize (H1 u q Lu Eu). assert (c * q <= c * s) by (apply Rmult_le_compat_l; auto). lra.
Qed.
Lemma epi_zero : forall n h h' v t s, polar_pair n h h' -> length v = n -> h' v = Fin s -> s <= - t -> ccert (S n) (epi h) (v ++ [t]) (zeros (S n)).
Proof.
  intros n h h' v t s P Lv Es Hs. split; [apply len_app1; auto|]. split; [apply zeros_length|].
  assert (Z : zeros (S n) = zeros n ++ [0]) by (apply repeat_cons).
  split; [rewrite Z; apply epi_app; rewrite (ga_zero _ _ (po_gauge _ _ _ P)); simpl; lra|].
  split; [apply dot_zeros_r|]. intros w Lw Cw. rewrite vsub_zeros_r by (apply len_app1; auto). destruct (split_app1 n w Lw) as (u & q & -> & Lu). apply -> epi_app in Cw.
  destruct (h u) as [r|] eqn:Eu; simpl in Cw; [|tauto]. rewrite (dot_app1 n) by auto.
  pose proof (po_holder _ _ _ P u v r s Lu Lv Eu Es). pose proof (ga_nonneg _ _ (po_gauge _ _ _ P) _ _ Lu Eu). pose proof (ga_nonneg _ _ (po_gauge' _ _ _ P) _ _ Lv Es).
  assert (r * s <= q * s) by (apply Rmult_le_compat_r; auto). assert (0 <= q) by lra. assert (q * (s + t) <= 0) by nra. nra.
Qed.
Lemma ccert_inside : forall n (C : vec -> Prop) x, length x = n -> C x -> ccert n C x x.
Proof. intros n C x Lx Cx. split; auto. split; auto. split; auto. rewrite vsub_self. split; intros; rewrite dot_zeros_l; lra. Qed.
(** Moreau: the residual is the projection on the polar cone. *)
Lemma epi_moreau : forall n h h' x p, polar_pair n h h' -> ccert (S n) (epi h) x p -> ccert (S n) (epi_neg h') x (vsub x p).
Proof.
  intros n h h' x p P (Lx & Lp & Cp & H1 & H2). assert (Lr : length (vsub x p) = S n) by vlen.
  split; auto. split; auto. rewrite (vsub_vsub (S n)) by auto. split; [|split].
  - destruct (split_app1 n (vsub x p) Lr) as (u & s & Eu & Lu). rewrite Eu in *. apply epi_neg_app.
    pose proof (po_attain _ _ _ P u Lu) as At. destruct (h' u) as [q|] eqn:Eq.
    + destruct At as (v & r & Lv & Ev & Hr & Hd). simpl. specialize (H2 (v ++ [1]) ltac:(apply len_app1; auto) ltac:(apply epi_app; rewrite Ev; simpl; auto)).
      rewrite (dot_app1 n) in H2 by auto. lra.
    + exfalso. destruct At as (v & Lv & Ev & Hd). set (k := (Rabs s + 1) / dot u v).
      assert (Hk : 0 < k) by (unfold k; apply Rdiv_lt_0_compat; auto; pose proof (Rabs_pos s); lra).
      specialize (H2 (vscal k v ++ [1])). rewrite (dot_app1 n) in H2 by vlen. rewrite dot_scal_r in H2.
      assert (h (vscal k v) = Fin 0) by (rewrite (ga_scal _ _ (po_gauge _ _ _ P) k v 0); auto; [f_equal; lra|lra]).
      specialize (H2 ltac:(apply len_app1; vlen) ltac:(apply epi_app; rewrite H; simpl; lra)).
      assert (k * dot u v = Rabs s + 1) by (unfold k; field; lra). pose proof (Rle_abs (- s)). rewrite Rabs_Ropp in H3. lra.
  - rewrite dot_comm. auto.
  - intros w Lw Cw. destruct (split_app1 n p Lp) as (v & t & -> & Lv). destruct (split_app1 n w Lw) as (u & s & -> & Lu).
    apply -> epi_app in Cp. apply -> epi_neg_app in Cw. destruct (h v) as [r|] eqn:Ev; simpl in Cp; [|tauto]. destruct (h' u) as [q|] eqn:Eu; simpl in Cw; [|tauto].
    rewrite (dot_app1 n) by auto. pose proof (po_holder _ _ _ P v u r q Lv Lu Ev Eu). rewrite dot_comm.
    pose proof (ga_nonneg _ _ (po_gauge _ _ _ P) _ _ Lv Ev). pose proof (ga_nonneg _ _ (po_gauge' _ _ _ P) _ _ Lu Eu).
    assert (r * q <= t * - s) by (apply Rmult_le_compat; auto). lra.
Qed.
(** Reflection. *)
Lemma vsub_vopp : forall (x p : vec), vsub (vopp x) (vopp p) = vopp (vsub x p).
Proof. induction x as [|a x IH]; intros [|b p]; auto. unfold vsub, vopp in *. cbn [map vzip]. rewrite IH. f_equal. lra. Qed.
Lemma vopp_vopp : forall x, vopp (vopp x) = x.
Proof. intros x. unfold vopp. rewrite map_map. rewrite <- (map_id x) at 2. apply map_ext. intros; lra. Qed.
Lemma ccert_opp : forall n (C D : vec -> Prop) x p, (forall v, length v = n -> (C (vopp v) <-> D v)) -> ccert n C (vopp x) p -> ccert n D x (vopp p).
Proof.
  intros n C D x p HCD (Lx & Lp & Cp & H1 & H2). rewrite vopp_length in Lx.
  assert (E : vsub x (vopp p) = vopp (vsub (vopp x) p)) by (rewrite <- vsub_vopp, vopp_vopp; auto).
  split; auto. split; [vlen|]. split; [apply HCD; [vlen|rewrite vopp_vopp; auto]|]. rewrite E. split.
  - rewrite dot_opp_l, dot_opp_r. rewrite H1. lra.
  - intros v Lv Dv. rewrite dot_opp_l. apply HCD in Dv; auto. specialize (H2 (vopp v) ltac:(vlen) Dv). rewrite dot_opp_r in H2. lra.
Qed.
Lemma vopp_vsub_opp : forall n (x p : vec), length x = n -> length p = n -> vopp (vsub (vopp x) p) = vadd x p.
Proof. intros n x p Hx Hp. subst n. pattern x, p. apply vec_ind2; auto. intros a b X Y HL IH. unfold vopp, vsub, vadd in *. cbn [map vzip]. rewrite IH. f_equal. lra. Qed.
Definition even_gauge (n : nat) (h : vec -> ext) : Prop := forall x, length x = n -> h (vopp x) = h x.
Lemma epi_opp : forall n h v, even_gauge n h -> length v = S n -> (epi h (vopp v) <-> epi_neg h v).
Proof.
  intros n h v He Lv. destruct (split_app1 n v Lv) as (u & t & -> & Lu). rewrite vopp_app. cbn [vopp map]. rewrite epi_app, epi_neg_app, He by auto. tauto.
Qed.
Lemma epi_neg_opp : forall n h v, even_gauge n h -> length v = S n -> (epi_neg h (vopp v) <-> epi h v).
Proof.
  intros n h v He Lv. destruct (split_app1 n v Lv) as (u & t & -> & Lu). rewrite vopp_app. cbn [vopp map]. rewrite epi_app, epi_neg_app, He by auto. rewrite Ropp_involutive. tauto.
Qed.
(** {h(v) <= -t}: -P(-x);  {h'(v) <= t}: x + P(-x). *)
Lemma epi_neg_cert : forall n h x p, even_gauge n h -> ccert (S n) (epi h) (vopp x) p -> ccert (S n) (epi_neg h) x (vopp p).
Proof. intros n h x p He H. apply ccert_opp with (C := epi h); auto. intros v Lv. apply (epi_opp n); auto. Qed.
Lemma epi_dual_cert : forall n h h' x p, polar_pair n h h' -> even_gauge n h' -> ccert (S n) (epi h) (vopp x) p -> ccert (S n) (epi h') x (vadd x p).
Proof.
  intros n h h' x p P He H. pose proof (epi_moreau _ _ _ _ _ P H) as M. destruct H as (Lx & Lp & _). rewrite vopp_length in Lx.
  rewrite <- (vopp_vsub_opp (S n)) by auto. apply ccert_opp with (C := epi_neg h'); auto. intros v Lv. apply (epi_neg_opp n); auto.
Qed.
(** Fenchel conjugate of the indicator of an epigraph. *)
Lemma epi_fenchel : forall n h h' u, polar_pair n h h' -> length u = S n -> is_fenchel (S n) (epi_fun h) u (epi_neg_fun h' u).
Proof.
  intros n h h' u P Lu. destruct (split_app1 n u Lu) as (v & t & -> & Lv).
  assert (Z : zeros (S n) = zeros n ++ [0]) by (apply repeat_cons).
  assert (FI : forall x, epi h x -> epi_fun h x = Fin 0) by (intros x I; destruct (epi_fun_cases h x) as [[E _]|[_ N]]; tauto).
  assert (I0 : epi h (zeros (S n))) by (rewrite Z; apply epi_app; rewrite (ga_zero _ _ (po_gauge _ _ _ P)); simpl; lra).
  destruct (epi_neg_fun_cases h' (v ++ [t])) as [[E I]|[E I]]; rewrite E; cbn [is_fenchel].
  - split.
    + intros x r Lx Ex. destruct (epi_fun_cases h x) as [[Ex' Ix]|[Ex' _]]; [|congruence]. rewrite Ex' in Ex. injection Ex as <-.
      destruct (split_app1 n x Lx) as (w & q & -> & Lw). apply -> epi_app in Ix. apply -> epi_neg_app in I. destruct (h w) as [r|] eqn:Er; simpl in Ix; [|tauto].
      destruct (h' v) as [s|] eqn:Es; simpl in I; [|tauto]. rewrite (dot_app1 n) by auto.
      pose proof (po_holder _ _ _ P w v r s Lw Lv Er Es). pose proof (ga_nonneg _ _ (po_gauge _ _ _ P) _ _ Lw Er). pose proof (ga_nonneg _ _ (po_gauge' _ _ _ P) _ _ Lv Es).
      assert (r * s <= q * - t) by (apply Rmult_le_compat; auto). lra.
    + intros e He. exists (zeros (S n)), 0. split; [apply zeros_length|]. split; auto. rewrite dot_zeros_r. lra.
  - (* a feasible direction of positive inner product *)
    assert (A : exists w, length w = n /\ exists r, h w = Fin r /\ exists q, 0 <= q /\ r <= q /\ 0 < dot v w + t * q).
    { pose proof (po_attain _ _ _ P v Lv) as At. rewrite epi_neg_app in I. destruct (h' v) as [s|] eqn:Es; simpl in I.
      - destruct At as (w & r & Lw & Ew & Hr & Hd). exists w. split; auto. exists r. split; auto. exists 1. split; [lra|]. split; lra.
      - destruct At as (w & Lw & Ew & Hd). set (k := (Rabs t + 1) / dot v w).
        assert (Hk : 0 < k) by (unfold k; apply Rdiv_lt_0_compat; auto; pose proof (Rabs_pos t); lra).
        exists (vscal k w). split; [vlen|]. exists 0. split; [rewrite (ga_scal _ _ (po_gauge _ _ _ P) k w 0); auto; [f_equal; lra|lra]|].
        exists 1. split; [lra|]. split; [lra|]. rewrite dot_scal_r. assert (k * dot v w = Rabs t + 1) by (unfold k; field; lra). pose proof (Rle_abs (- t)). rewrite Rabs_Ropp in H0. lra. }
    destruct A as (w & Lw & r & Er & q & Hq & Hrq & Hpos). intros M. set (d := dot v w + t * q) in *.
    set (k := (Rabs M + 1) / d). assert (Hk : 0 < k) by (unfold k; apply Rdiv_lt_0_compat; auto; pose proof (Rabs_pos M); lra).
    exists (vscal k w ++ [k * q]), 0. split; [apply len_app1; vlen|]. split.
    + apply FI. apply epi_app. rewrite (ga_scal _ _ (po_gauge _ _ _ P) k w r); auto; [simpl; nra|lra].
    + rewrite (dot_app1 n) by vlen. rewrite dot_scal_r. assert (k * dot v w + t * (k * q) = Rabs M + 1) by (unfold k, d; field; unfold d in Hpos; lra). pose proof (Rle_abs M). lra.
Qed.

(** Proofs about cones. *)
From Coq Require Import Reals List Lra Lia Psatz Bool.
From Verif Require Import Vec Spec M_quad M_prox M_semi SpecAtom M_shift SpecBase SpecCone M_cones P_quad P_pl P_prox P_feas P_semi P_conj P_shift.
Import ListNotations.
Local Open Scope R_scope.

(** ** Splitting off the last coordinate *)
Lemma split_last : forall n (x : vec), length x = n -> (1 <= n)%nat ->
  exists v t, x = v ++ [t] /\ length v = (n - 1)%nat.
Proof.
  intros n x H Hn. exists (removelast x), (last x 0). destruct x; [simpl in H; lia|].
  split; [apply app_removelast_last; discriminate|]. rewrite (app_removelast_last 0 (l := r :: x)) in H by discriminate.
  rewrite app_length in H. cbn [length] in H. lia.
Qed.
Lemma init_app : forall v t, init (v ++ [t]) = v.
Proof. intros. apply removelast_last. Qed.
Lemma lst_app : forall v t, lst (v ++ [t]) = t.
Proof. intros. apply last_last. Qed.
Lemma vzip_app : forall f (x y u v : vec), length x = length y -> vzip f (x ++ u) (y ++ v) = vzip f x y ++ vzip f u v.
Proof. intros f x. induction x; intros [|b y] u v H; simpl in *; try discriminate; auto. rewrite IHx; auto. Qed.
Lemma dot_app : forall (x y u v : vec), length x = length y -> dot (x ++ u) (y ++ v) = dot x y + dot u v.
Proof. intros. unfold dot, vmul. rewrite vzip_app by auto. apply vsum_app. Qed.
Lemma dot_last : forall (x y : vec) s t, length x = length y -> dot (x ++ [s]) (y ++ [t]) = dot x y + s * t.
Proof. intros. rewrite dot_app by auto. unfold dot at 2. simpl. lra. Qed.
Lemma vopp_app : forall x y, vopp (x ++ y) = vopp x ++ vopp y.
Proof. intros. apply map_app. Qed.
Lemma length_last : forall (v : vec) t n, length (v ++ [t]) = n -> (length v = n - 1)%nat /\ (1 <= n)%nat.
Proof. intros. rewrite app_length in H. cbn [length] in H. lia. Qed.

(** ** Polarity of the pairs *)
Lemma ell1_opp : forall x, ell1 (vopp x) = ell1 x.
Proof. intros. rewrite vopp_vscal, ell1_scal. replace (Rabs (-1)) with 1. lra. rewrite Rabs_left; lra. Qed.
Lemma ellinf_opp : forall x, ellinf (vopp x) = ellinf x.
Proof. intros. unfold ellinf, vopp. rewrite map_map. f_equal. apply map_ext. intros. apply Rabs_Ropp. Qed.

Lemma polar_invol : forall k, polar_class (polar_class k) = k.
Proof. destruct k; reflexivity. Qed.

Lemma in_cone_epi : forall k v t, is_epigraph k = true -> in_cone k (v ++ [t]) <->
  match k with
  | KL2 => norm v <= t | KL2Polar => norm v <= - t | KL1 => ell1 v <= t | KL1Polar => ellinf v <= - t
  | KLinf => ellinf v <= t | KLinfPolar => ell1 v <= - t | _ => True end.
Proof. intros k v t H. destruct k; simpl in *; try discriminate; rewrite ?init_app, ?lst_app, ?ell2_norm; tauto. Qed.

Lemma epi_fwd : forall k v t, is_epigraph k = true -> in_cone k (v ++ [t]) ->
  match k with
  | KL2 => norm v <= t | KL2Polar => norm v <= - t | KL1 => ell1 v <= t | KL1Polar => ellinf v <= - t
  | KLinf => ellinf v <= t | KLinfPolar => ell1 v <= - t | _ => True end.
Proof. intros k v t H. apply in_cone_epi; auto. Qed.
Lemma epi_bwd : forall k v t, is_epigraph k = true ->
  match k with
  | KL2 => norm v <= t | KL2Polar => norm v <= - t | KL1 => ell1 v <= t | KL1Polar => ellinf v <= - t
  | KLinf => ellinf v <= t | KLinfPolar => ell1 v <= - t | _ => True end -> in_cone k (v ++ [t]).
Proof. intros k v t H. apply in_cone_epi; auto. Qed.

Lemma hold1 : forall x v, length x = length v -> dot x v <= ell1 x * ellinf v.
Proof. intros. apply (holder CL1); auto. Qed.

Lemma prod_le : forall a b s t d, 0 <= a -> 0 <= b -> a <= s -> b <= - t -> d <= a * b -> d + s * t <= 0.
Proof. intros. pose proof (Rmult_le_compat a s b (- t)). nra. Qed.

Lemma polar_ineq : forall k n v w, (1 <= n)%nat -> length v = n -> length w = n -> in_cone k v -> in_cone (polar_class k) w -> dot v w <= 0.
Proof.
  assert (Cone : forall k n v w, (1 <= n)%nat -> length v = n -> length w = n -> in_cone k v -> in_cone (polar_class k) w ->
            (k = KNonneg \/ k = KZero \/ k = KL2 \/ k = KL1 \/ k = KLinf) -> dot v w <= 0).
  { intros k n v w Hn Hv Hw Hk Hp Hc.
    destruct (split_last n v Hv Hn) as (v' & s & -> & Lv). destruct (split_last n w Hw Hn) as (w' & t & -> & Lw).
    destruct Hc as [-> |[-> |[-> |[-> | ->]]]].
    - clear Lv Lw Hn. simpl in *. set (a := v' ++ [s]) in *. set (b := w' ++ [t]) in *. clearbody a b. subst n. symmetry in Hw.
      revert Hk Hp. pattern a, b. apply vec_ind2; auto. + intros. unfold dot. simpl. lra.
      + intros x y X Y HL IH H1 H2. rewrite dot_cons. pose proof (Forall_inv H1). pose proof (Forall_inv H2). simpl in *.
        specialize (IH (Forall_inv_tail H1) (Forall_inv_tail H2)). nra.
    - assert (w' ++ [t] = zeros n) as ->. { simpl in Hp. rewrite <- Hw. clear - Hp. induction (w' ++ [t]); auto. simpl. rewrite (Forall_inv Hp). unfold zeros in *. simpl. f_equal. apply IHl. eapply Forall_inv_tail; eauto. }
      rewrite dot_zeros_r. lra.
    - apply (epi_fwd KL2) in Hk; auto. apply (epi_fwd KL2Polar) in Hp; auto. simpl in *.
      rewrite dot_last by congruence. pose proof (cauchy_schwarz v' w' ltac:(congruence)). eapply prod_le; [apply (norm_nonneg v')|apply (norm_nonneg w')| | |]; (lra || eauto).
    - apply (epi_fwd KL1) in Hk; auto. apply (epi_fwd KL1Polar) in Hp; auto. simpl in *.
      rewrite dot_last by congruence. pose proof (hold1 v' w' ltac:(congruence)). eapply prod_le; [apply (ell1_nonneg v')|apply (ellinf_nonneg w')| | |]; (lra || eauto).
    - apply (epi_fwd KLinf) in Hk; auto. apply (epi_fwd KLinfPolar) in Hp; auto. simpl in *.
      rewrite dot_last by congruence. pose proof (hold1 w' v' ltac:(congruence)). rewrite dot_comm, Rmult_comm in H. eapply prod_le; [apply (ellinf_nonneg v')|apply (ell1_nonneg w')| | |]; (lra || eauto). }
  intros k n v w Hn Hv Hw Hk Hp.
  assert (S : (k = KNonneg \/ k = KZero \/ k = KL2 \/ k = KL1 \/ k = KLinf) \/
     (polar_class k = KNonneg \/ polar_class k = KZero \/ polar_class k = KL2 \/ polar_class k = KL1 \/ polar_class k = KLinf)).
  { destruct k; simpl; tauto. }
  destruct S as [S|S].
  - eapply Cone; eauto.
  - rewrite dot_comm. eapply (Cone (polar_class k)); eauto. rewrite polar_invol. auto.
Qed.

(** ** Moreau decompositions *)
Definition moreau (k : coneclass) (n : nat) (x p p' : vec) : Prop :=
  length p = n /\ length p' = n /\ x = vadd p p' /\ in_cone k p /\ in_cone (polar_class k) p' /\ dot p p' = 0.

Lemma moreau_sym : forall k n x p p', moreau k n x p p' -> moreau (polar_class k) n x p' p.
Proof.
  intros k n x p p' (L1 & L2 & E & K1 & K2 & O). repeat split; auto.
  - rewrite vadd_comm. auto. - rewrite polar_invol. auto. - rewrite dot_comm. auto.
Qed.
Lemma vsub_vadd_l : forall p q : vec, length p = length q -> vsub (vadd p q) p = q.
Proof. intros. rewrite vadd_comm. apply vsub_vadd. auto. Qed.
Lemma moreau_proj : forall k n x p p', (1 <= n)%nat -> moreau k n x p p' -> is_proj n (in_cone k) x p.
Proof.
  intros k n x p p' Hn (L1 & L2 & E & K1 & K2 & O). subst x. apply proj_certificate; auto; [vlen|].
  intros v Hv Kv. rewrite vsub_vadd_l by congruence. rewrite dot_sub_r by congruence. rewrite (dot_comm p' p), O.
  rewrite dot_comm. pose proof (polar_ineq k n v p' Hn Hv L2 Kv K2). lra.
Qed.

Lemma moreau_pos : forall x, moreau KNonneg (length x) x (map (fun a => Rmax a 0) x) (map (fun a => Rmin a 0) x).
Proof.
  intros x. split; [vlen|]. split; [vlen|]. split; [|split; [|split]].
  - induction x as [|a x IH]; auto. unfold vadd in *. simpl. f_equal; auto. unfold Rmax, Rmin. destruct (Rle_dec a 0); lra.
  - simpl. apply Forall_map, Forall_forall. intros. apply Rmax_r.
  - simpl. apply Forall_map, Forall_forall. intros. apply Rmin_r.
  - induction x as [|a x IH]; auto. cbn [map]. rewrite dot_cons, IH. unfold Rmax, Rmin. destruct (Rle_dec a 0); lra.
Qed.
Lemma Forall_zeros : forall n, Forall (fun a => a = 0) (zeros n).
Proof. intros. unfold zeros. induction n; simpl; constructor; auto. Qed.
Lemma moreau_zero : forall x, moreau KZero (length x) x x (zeros (length x)).
Proof.
  intros x. repeat split; auto; try vlen. - rewrite vadd_zeros_r; auto. - apply Forall_zeros. - apply dot_zeros_r.
Qed.

Lemma zeros_last : forall n, (1 <= n)%nat -> zeros n = zeros (n - 1) ++ [0].
Proof. intros n H. unfold zeros. replace n with (n - 1 + 1)%nat at 1 by lia. rewrite repeat_app. auto. Qed.

Lemma soft_0 : forall a, soft 0 a = a.
Proof. intros. scal. Qed.

Lemma moreau_l1 : forall n x, (2 <= n)%nat -> length x = n ->
  exists p, projl1_epigraph x = Ok p /\ moreau KL1 n x p (vsub x p).
Proof.
  intros n x Hn Hx. destruct (split_last n x Hx ltac:(lia)) as (v & b & -> & Lv).
  assert (Hv : v <> []) by (intros ->; simpl in Lv; lia).
  destruct (find_c_slope1 b (vabs v)) as (t & E & H); auto using vabs_nonneg.
  { destruct v; [congruence|discriminate]. }
  unfold projl1_epigraph. destruct (v ++ [b]) eqn:Ex; [destruct v; discriminate|]. rewrite <- Ex in *.
  rewrite removelast_last, last_last. rewrite E. cbn [rbind].
  assert (Main : 0 <= t -> 0 <= b + t -> ell1 (map (soft t) v) <= b + t -> t * (ell1 (map (soft t) v) - (b + t)) = 0 ->
     exists p, (if Rle_dec 0 (b + t) then Ok (soft_threshold v t ++ [b + t]) else Ok (zeros (length (v ++ [b])))) = Ok p /\
               moreau KL1 n (v ++ [b]) p (vsub (v ++ [b]) p)).
  { intros Ht Hbt Hs Hc. destruct (Rle_dec 0 (b + t)); [|lra].
    assert (Es : soft_threshold v t = map (soft t) v). { apply map_ext. intros. apply soft1_soft; auto. }
    rewrite Es. exists (map (soft t) v ++ [b + t]). split; auto.
    assert (Lp : length (map (soft t) v ++ [b + t]) = n). { rewrite app_length. vlen. simpl. lia. }
    assert (Ed : vsub (v ++ [b]) (map (soft t) v ++ [b + t]) = vsub v (map (soft t) v) ++ [- t]).
    { unfold vsub. rewrite vzip_app by vlen. f_equal. simpl. f_equal. lra. }
    split; auto. split; [vlen|]. split; [|split; [|split]].
    - rewrite vadd_comm, vadd_vsub; auto. congruence.
    - apply (epi_bwd KL1); auto.
    - rewrite Ed. apply (epi_bwd KL1Polar); auto. rewrite Ropp_involutive. apply ellinf_le; auto.
      rewrite Forall_forall. intros a Ha.
      assert (G : Forall (fun a => Rabs a <= t) (vsub v (map (soft t) v))).
      { clear - Ht. unfold vsub. induction v; simpl; constructor; auto. apply soft_resid; auto. }
      rewrite Forall_forall in G. auto.
    - rewrite Ed, dot_last by vlen.
      assert (G : dot (map (soft t) v) (vsub v (map (soft t) v)) = t * ell1 (map (soft t) v)).
      { clear - Ht. induction v as [|a v IH]; [unfold dot, ell1; simpl; lra|]. unfold vsub in *. cbn [map vzip]. rewrite dot_cons, ell1_cons, IH.
        pose proof (soft_align t a Ht). lra. }
      rewrite G. nra. }
  destruct H as [(H1 & ->)|[(H1 & H2 & H3 & H4)|(H1 & H2)]].
  - apply Main; try lra.
    + pose proof (ell1_nonneg v). unfold ell1 in H. unfold vabs in H1. lra.
    + replace (map (soft 0) v) with v. 2:{ rewrite <- (map_id v) at 1. apply map_ext. intros. rewrite soft_0; auto. }
      unfold ell1. unfold vabs in H1. lra.
  - assert (Q : ell1 (map (soft t) v) = b + t).
    { rewrite ell1_map. rewrite sum_cut_abs in H2. erewrite map_ext; [|intros; apply soft_abs; auto]. lra. }
    apply Main; try lra. rewrite Q. lra.
  - destruct (Rle_dec 0 (b + t)); [lra|]. exists (zeros (length (v ++ [b]))). split; auto. rewrite Hx.
    split; [vlen|]. split; [vlen|]. split; [|split; [|split]].
    + rewrite vsub_zeros_r, vadd_comm, vadd_zeros_r; auto.
    + rewrite zeros_last by lia. apply (epi_bwd KL1); auto. assert (Z : ell1 (zeros (n-1)) = 0). { pose proof (doc_zero CL1 (n-1)) as Z. simpl in Z. congruence. } lra.
    + rewrite vsub_zeros_r by auto. apply (epi_bwd KL1Polar); auto.
      assert (0 <= - b). { destruct v as [|a0 v]; [congruence|]. pose proof (Forall_inv H2) as Q. simpl in Q. pose proof (Rabs_pos a0). lra. }
      apply ellinf_le; auto. unfold vabs in H2. rewrite Forall_map in H2. eapply Forall_impl; [|exact H2]. simpl. intros; lra.
    + apply dot_zeros_l.
Qed.

Lemma moreau_linf : forall n x p, length x = n -> length p = n -> (1 <= n)%nat -> moreau KL1 n (vopp x) p (vsub (vopp x) p) ->
  moreau KLinf n x (vadd x p) (vopp p).
Proof.
  intros n x p Hx Hp Hn (L1 & L2 & E & K1 & K2 & O).
  assert (Ev : vsub (vopp x) p = vopp (vadd x p)).
  { clear - Hx Hp. pattern x, p. apply vec_ind2; [reflexivity| |congruence].
    intros a b X Y HL IH. unfold vsub, vopp, vadd in *. simpl. f_equal; auto. lra. }
  rewrite Ev in *.
  assert (Ls : length (vadd x p) = n) by vlen.
  split; [vlen|]. split; [vlen|]. split; [|split; [|split]].
  - rewrite vopp_vscal. clear - Hx Hp. pattern x, p. apply vec_ind2; [reflexivity| |congruence].
    intros a b X Y HL IH. unfold vadd, vscal in *. simpl. f_equal; auto. lra.
  - destruct (split_last n (vadd x p) Ls Hn) as (v & t & E' & Lv). rewrite E' in *. rewrite vopp_app in K2. simpl in K2. rewrite init_app, lst_app, ellinf_opp in K2.
    apply (epi_bwd KLinf); auto. lra.
  - destruct (split_last n p Hp Hn) as (v & t & E' & Lv). rewrite E' in *. rewrite vopp_app. change (vopp [t]) with [- t]. apply (epi_bwd KLinfPolar); auto.
    apply (epi_fwd KL1) in K1; auto. rewrite ell1_opp. lra.
  - rewrite dot_opp_r. rewrite dot_opp_r, dot_comm in O. lra.
Qed.

Lemma norm_app_scal : forall c x, 0 <= c -> norm (vscal c x) = c * norm x.
Proof. intros. rewrite norm_scal, Rabs_right; lra. Qed.

Lemma vadd_scal_same : forall a b v, vadd (vscal a v) (vscal b v) = vscal (a + b) v.
Proof. intros a b v. unfold vscal, vadd. induction v as [|c v IH]; simpl; auto. rewrite IH. f_equal. ring. Qed.

Lemma moreau_l2 : forall n x, (1 <= n)%nat -> length x = n -> exists p p', moreau KL2 n x p p'.
Proof.
  intros n x Hn Hx. destruct (split_last n x Hx Hn) as (v & t & -> & Lv). pose proof (norm_nonneg v) as N0.
  destruct (Rle_dec (norm v) t) as [C|C].
  { exists (v ++ [t]), (zeros n). repeat split; auto; try vlen.
    - rewrite vadd_zeros_r; auto. - apply (epi_bwd KL2); auto. - rewrite zeros_last by auto. apply (epi_bwd KL2Polar); auto. rewrite norm_zeros. lra.
    - apply dot_zeros_r. }
  destruct (Rle_dec (norm v) (- t)) as [D|D].
  { exists (zeros n), (v ++ [t]). repeat split; auto; try vlen.
    - rewrite vadd_comm, vadd_zeros_r; auto. - rewrite zeros_last by auto. apply (epi_bwd KL2); auto. rewrite norm_zeros. lra. - apply (epi_bwd KL2Polar); auto.
    - apply dot_zeros_l. }
  assert (N : 0 < norm v) by lra.
  set (s := (norm v + t) / 2). set (s' := (norm v - t) / 2).
  exists (vscal (s / norm v) v ++ [s]), (vscal (s' / norm v) v ++ [- s']).
  assert (P1 : 0 <= s / norm v) by (unfold s; apply Rmult_le_pos; [lra|left; apply Rinv_0_lt_compat; auto]).
  assert (P2 : 0 <= s' / norm v) by (unfold s'; apply Rmult_le_pos; [lra|left; apply Rinv_0_lt_compat; auto]).
  split; [rewrite app_length; vlen; simpl; lia|]. split; [rewrite app_length; vlen; simpl; lia|]. split; [|split; [|split]].
  - unfold vadd. rewrite vzip_app by vlen. f_equal.
    + fold (vadd (vscal (s / norm v) v) (vscal (s' / norm v) v)).
      assert (E : s / norm v + s' / norm v = 1) by (unfold s, s'; field; lra).
      rewrite vadd_scal_same, E, vscal_1. auto.
    + simpl. f_equal. unfold s, s'. lra.
  - apply (epi_bwd KL2); auto. rewrite norm_app_scal by auto. right. field. lra.
  - apply (epi_bwd KL2Polar); auto. rewrite norm_app_scal by auto. right. field. lra.
  - rewrite dot_last by vlen. rewrite dot_scal_l, dot_scal_r. fold (sqn v). rewrite <- norm_sq. field. lra.
Qed.

Lemma moreau_exists : forall k n x, cone_dim k n -> length x = n -> exists p p', moreau k n x p p'.
Proof.
  assert (G : forall k n x, cone_dim k n -> length x = n -> (k = KNonneg \/ k = KZero \/ k = KL2 \/ k = KL1 \/ k = KLinf) -> exists p p', moreau k n x p p').
  { intros k n x Hd Hx Hc. destruct Hc as [-> |[-> |[-> |[-> | ->]]]]; unfold cone_dim in Hd; simpl in Hd.
    - subst n. eexists. eexists. apply moreau_pos.
    - subst n. eexists. eexists. apply moreau_zero.
    - apply moreau_l2; auto. lia.
    - destruct (moreau_l1 n x Hd Hx) as (p & _ & H). eauto.
    - destruct (moreau_l1 n (vopp x) Hd) as (p & _ & H); [vlen|]. exists (vadd x p), (vopp p). apply moreau_linf; auto; [|lia].
      destruct H; auto. }
  intros k n x Hd Hx.
  assert (S : (k = KNonneg \/ k = KZero \/ k = KL2 \/ k = KL1 \/ k = KLinf) \/
     (polar_class k = KNonneg \/ polar_class k = KZero \/ polar_class k = KL2 \/ polar_class k = KL1 \/ polar_class k = KLinf)).
  { destruct k; simpl; tauto. }
  destruct S as [S|S]; auto.
  destruct (G (polar_class k) n x) as (p & p' & M); auto. { destruct k; auto. }
  exists p', p. rewrite <- (polar_invol k). apply moreau_sym; auto.
Qed.

(** ** cone_prox is the projection, for every class but the l2 epigraphs *)
Theorem cone_prox_correct : forall k n x, cone_dim k n -> length x = n -> k <> KL2 -> k <> KL2Polar ->
  exists p, cone_prox k x = Ok p /\ is_proj n (in_cone k) x p.
Proof.
  intros k n x Hd Hx N1 N2.
  assert (H1 : (1 <= n)%nat) by (unfold cone_dim in Hd; destruct (is_epigraph k); lia).
  destruct k; try congruence; unfold cone_dim in Hd; simpl in Hd; simpl cone_prox.
  - eexists. split; [reflexivity|]. eapply moreau_proj; auto. rewrite <- Hx. apply moreau_pos.
  - eexists. split; [reflexivity|]. eapply moreau_proj; auto. rewrite <- Hx. apply (moreau_sym KNonneg). apply moreau_pos.
  - eexists. split; [reflexivity|]. eapply moreau_proj; auto. rewrite <- Hx. apply moreau_zero.
  - eexists. split; [reflexivity|]. eapply moreau_proj; auto. rewrite <- Hx. apply (moreau_sym KZero). apply moreau_zero.
  - destruct (moreau_l1 n x Hd Hx) as (p & E & M). exists p. split; auto. eapply moreau_proj; eauto.
  - destruct (moreau_l1 n x Hd Hx) as (p & E & M). exists (vsub x p). rewrite E. split; auto. eapply moreau_proj; auto. apply (moreau_sym KL1); eauto.
  - destruct (moreau_l1 n (vopp x) Hd ltac:(vlen)) as (p & E & M). exists (vadd x p). rewrite E. split; auto. eapply moreau_proj; auto. apply moreau_linf; auto. destruct M; auto.
  - destruct (moreau_l1 n (vopp x) Hd ltac:(vlen)) as (p & E & M). exists (vopp p). rewrite E. split; auto. eapply moreau_proj; auto.
    apply (moreau_sym KLinf). apply moreau_linf; auto. destruct M; auto.
Qed.

(** ** l2 epigraph: right exactly off the interior and the axis *)
Lemma l2_prox_form : forall v t, v <> [] -> norm v <> 0 ->
  l2_cone_prox (v ++ [t]) = Ok (vscal (Rmax ((norm v + t) / 2) 0 / norm v) v ++ [Rmax ((norm v + t) / 2) 0]).
Proof.
  intros v t Hv Hn. unfold l2_cone_prox. destruct (v ++ [t]) eqn:E; [destruct v; discriminate|]. rewrite <- E.
  rewrite removelast_last, last_last. destruct v as [|a v]; [congruence|]. destruct (Req_EM_T (norm (a :: v)) 0); [tauto|].
  replace (norm (a :: v) - (norm (a :: v) - t) / 2) with ((norm (a :: v) + t) / 2) by lra.
  replace (t + (norm (a :: v) - t) / 2) with ((norm (a :: v) + t) / 2) by lra.
  f_equal. f_equal. unfold vscal. apply map_ext. intros. field. auto.
Qed.

Lemma moreau_l2_code : forall n v t, length (v ++ [t]) = n -> v <> [] -> 0 < norm v -> t <= norm v ->
  exists p, l2_cone_prox (v ++ [t]) = Ok p /\ moreau KL2 n (v ++ [t]) p (vsub (v ++ [t]) p).
Proof.
  intros n v t Hl Hv Hn Ht. destruct (length_last _ _ _ Hl) as [Lv Ln]. rewrite l2_prox_form by (auto; lra).
  eexists. split; [reflexivity|].
  set (s := Rmax ((norm v + t) / 2) 0). assert (S0 : 0 <= s) by apply Rmax_r.
  assert (Ed : vsub (v ++ [t]) (vscal (s / norm v) v ++ [s]) = vscal (1 - s / norm v) v ++ [t - s]).
  { unfold vsub at 1. rewrite vzip_app by vlen. rewrite <- vsub_scal_self. auto. }
  assert (P1 : 0 <= s / norm v) by (apply Rmult_le_pos; [auto|left; apply Rinv_0_lt_compat; auto]).
  assert (Sle : s <= norm v). { unfold s. apply Rmax_lub; lra. }
  assert (P2 : 0 <= 1 - s / norm v). { assert (s / norm v <= 1); [|lra]. apply Rmult_le_reg_r with (norm v); auto. unfold Rdiv. rewrite Rmult_assoc, Rinv_l; lra. }
  assert (L : length (vscal (s / norm v) v ++ [s]) = n) by (rewrite app_length; vlen; simpl; lia).
  split; auto. split; [vlen|]. split; [|split; [|split]].
  - rewrite vadd_comm, vadd_vsub; auto. congruence.
  - apply (epi_bwd KL2); auto. rewrite norm_app_scal by auto. right. field. lra.
  - rewrite Ed. apply (epi_bwd KL2Polar); auto. rewrite norm_app_scal by auto.
    replace ((1 - s / norm v) * norm v) with (norm v - s) by (field; lra). unfold s. unfold Rmax. destruct (Rle_dec _ 0); lra.
  - rewrite Ed, dot_last by vlen. rewrite dot_scal_l, dot_scal_r. fold (sqn v). rewrite <- norm_sq.
    replace (s / norm v * ((1 - s / norm v) * (norm v * norm v))) with (s * (norm v - s)) by (field; lra).
    unfold s, Rmax. destruct (Rle_dec _ 0); nra.
Qed.

Theorem l2_prox_outside : forall n v t, length (v ++ [t]) = n -> v <> [] -> 0 < norm v -> t <= norm v ->
  exists p, cone_prox KL2 (v ++ [t]) = Ok p /\ is_proj n (in_cone KL2) (v ++ [t]) p.
Proof.
  intros n v t H1 H2 H3 H4. destruct (moreau_l2_code n v t H1 H2 H3 H4) as (p & E & M). exists p. split; auto.
  eapply moreau_proj; eauto. rewrite app_length in H1. simpl in H1. lia.
Qed.
Lemma moreau_opp_l2 : forall n x p, (1 <= n)%nat -> length x = n -> moreau KL2 n (vopp x) p (vsub (vopp x) p) ->
  moreau KL2Polar n x (vopp p) (vsub x (vopp p)).
Proof.
  intros n x p Hn Hx (L1 & L2 & E & K1 & K2 & O).
  assert (Ev : vsub x (vopp p) = vopp (vsub (vopp x) p)).
  { clear - Hx L1. pattern x, p. apply vec_ind2; [reflexivity| |congruence].
    intros a b X Y HL IH. unfold vsub, vopp in *. simpl. f_equal; auto. lra. }
  split; [vlen|]. split; [vlen|]. split; [|split; [|split]].
  - rewrite vadd_comm, vadd_vsub; auto. vlen.
  - destruct (split_last n p L1 Hn) as (v & t & E' & Lv). subst p. rewrite vopp_app. change (vopp [t]) with [- t]. apply (epi_bwd KL2Polar); auto.
    apply (epi_fwd KL2) in K1; auto. rewrite norm_opp. lra.
  - rewrite Ev. destruct (split_last n _ L2 Hn) as (v & t & E' & Lv). rewrite E' in *. rewrite vopp_app. change (vopp [t]) with [- t]. apply (epi_bwd KL2); auto.
    apply (epi_fwd KL2Polar) in K2; auto. rewrite norm_opp. lra.
  - rewrite Ev, dot_opp_l, dot_opp_r. lra.
Qed.
Theorem l2_polar_prox_outside : forall n v t, length (v ++ [t]) = n -> v <> [] -> 0 < norm v -> - t <= norm v ->
  exists p, cone_prox KL2Polar (v ++ [t]) = Ok p /\ is_proj n (in_cone KL2Polar) (v ++ [t]) p.
Proof.
  intros n v t H1 H2 H3 H4.
  destruct (moreau_l2_code n (vopp v) (- t)) as (p & E & M); auto.
  { rewrite app_length in *. simpl in *. vlen. } { destruct v; [congruence|discriminate]. } { rewrite norm_opp. auto. } { rewrite norm_opp. auto. }
  assert (Hn : (1 <= n)%nat) by (rewrite app_length in H1; simpl in H1; lia).
  change [- t] with (vopp [t]) in E, M. rewrite <- vopp_app in E, M.
  exists (vopp p). simpl. rewrite E. split; auto. eapply moreau_proj; auto. apply moreau_opp_l2; auto.
Qed.

Lemma norm1 : forall a, 0 <= a -> norm [a] = a.
Proof. intros. unfold norm, sqn, dot. simpl. replace (a * a + 0) with (a * a) by lra. apply sqrt_square. auto. Qed.

Theorem l2_prox_interior : in_cone KL2 [3; 5] /\ cone_prox KL2 [3;5] = Ok [4;4] /\ ~ is_proj 2 (in_cone KL2) [3;5] [4;4].
Proof.
  assert (I : in_cone KL2 [3;5]). { simpl. rewrite ell2_norm, norm1; unfold lst; simpl; lra. }
  split; auto. split.
  - change (cone_prox KL2 [3;5]) with (l2_cone_prox ([3] ++ [5])). rewrite (l2_prox_form [3] 5); try discriminate; rewrite norm1 by lra; [|lra].
    rewrite Rmax_left by lra. simpl. f_equal. f_equal; [field|f_equal; field].
  - intros (_ & _ & H). destruct (H [3;5] eq_refl I) as [H1 _]. unfold sqn, dot in H1. simpl in H1. lra.
Qed.
Theorem l2_prox_axis : cone_prox KL2 [0; 5] = Err NaNResult.
Proof. simpl. rewrite norm1 by lra. destruct (Req_EM_T 0 0); tauto. Qed.

(** ** Moreau: the two prox of a pair add up *)
Theorem cone_prox_moreau : forall k n x, cone_dim k n -> length x = n -> k <> KL2 -> k <> KL2Polar ->
  exists p q, cone_prox k x = Ok p /\ cone_prox (polar_class k) x = Ok q /\ vadd p q = x /\ dot p q = 0.
Proof.
  assert (G : forall k n x, cone_dim k n -> length x = n -> (k = KNonneg \/ k = KZero \/ k = KL1 \/ k = KLinf) ->
     exists p q, cone_prox k x = Ok p /\ cone_prox (polar_class k) x = Ok q /\ vadd p q = x /\ dot p q = 0).
  { intros k n x Hd Hx Hc. destruct Hc as [-> |[-> |[-> | ->]]]; unfold cone_dim in Hd; simpl in Hd; simpl cone_prox.
    - do 2 eexists. split; [reflexivity|]. split; [reflexivity|]. destruct (moreau_pos x) as (_ & _ & E & _ & _ & O). auto.
    - do 2 eexists. split; [reflexivity|]. split; [reflexivity|]. destruct (moreau_zero x) as (_ & _ & E & _ & _ & O). auto.
    - destruct (moreau_l1 n x Hd Hx) as (p & E & M). rewrite E. do 2 eexists. split; [reflexivity|]. split; [reflexivity|].
      destruct M as (_ & _ & E' & _ & _ & O). auto.
    - destruct (moreau_l1 n (vopp x) Hd ltac:(vlen)) as (p & E & M). rewrite E. do 2 eexists. split; [reflexivity|]. split; [reflexivity|].
      apply moreau_linf in M; auto; try lia. 2:{ destruct M; auto. } destruct M as (_ & _ & E' & _ & _ & O). auto. }
  intros k n x Hd Hx N1 N2.
  assert (S : (k = KNonneg \/ k = KZero \/ k = KL1 \/ k = KLinf) \/
     (polar_class k = KNonneg \/ polar_class k = KZero \/ polar_class k = KL1 \/ polar_class k = KLinf)).
  { destruct k; simpl; tauto. }
  destruct S as [S|S]; eauto.
  destruct (G (polar_class k) n x) as (p & q & A & B & C & D); auto. { destruct k; auto. }
  rewrite polar_invol in B. exists q, p. rewrite vadd_comm, dot_comm. auto.
Qed.

(** ** The pairs are polar *)
Theorem polar_exact : forall k n w, cone_dim k n -> length w = n -> (in_cone (polar_class k) w <-> in_polar n k w).
Proof.
  intros k n w Hd Hw.
  assert (H1 : (1 <= n)%nat) by (unfold cone_dim in Hd; destruct (is_epigraph k); lia).
  split.
  - intros H v Hv Kv. apply (polar_ineq k n); auto.
  - intros H. destruct (moreau_exists k n w Hd Hw) as (p & p' & (L1 & L2 & E & K1 & K2 & O)).
    specialize (H p L1 K1). rewrite E, dot_add_r, O in H by congruence. fold (sqn p) in H.
    assert (Z : p = zeros n). { rewrite <- L1. apply sqn_eq_zero. pose proof (sqn_nonneg p). lra. }
    rewrite E, Z, vadd_comm, vadd_zeros_r; auto.
Qed.

(** ** Conjugates *)
Lemma in_cone_scal : forall k n t x, (1 <= n)%nat -> length x = n -> 0 <= t -> in_cone k x -> in_cone k (vscal t x).
Proof.
  intros k n t x Hn Hx Ht H.
  destruct (is_epigraph k) eqn:E.
  - destruct (split_last n x Hx Hn) as (v & s & -> & Lv). unfold vscal. rewrite map_app. simpl map. fold (vscal t v).
    apply epi_bwd; auto. apply epi_fwd in H; auto.
    destruct k; auto; rewrite ?norm_app_scal, ?ell1_scal, ?ellinf_scal, ?(Rabs_right t) by lra; nra.
  - destruct k; try discriminate; simpl in *; auto; apply Forall_map; (eapply Forall_impl; [|exact H]); simpl; intros a Ha; nra.
Qed.
Lemma in_cone_zero : forall k n, (1 <= n)%nat -> in_cone k (zeros n).
Proof.
  intros k n Hn. destruct (is_epigraph k) eqn:E.
  - rewrite zeros_last by auto. apply epi_bwd; auto.
    pose proof (doc_zero CL1 (n-1)) as Z1. pose proof (doc_zero CSup (n-1)) as Z2. simpl in *. injection Z1 as Z1. injection Z2 as Z2.
    destruct k; auto; rewrite ?norm_zeros, ?Z1, ?Z2; lra.
  - destruct k; try discriminate; simpl; auto; try (eapply Forall_impl; [|apply Forall_zeros]; simpl; intros; lra).
Qed.

Lemma cone_fun_in : forall k x, in_cone k x -> cone_fun k x = Fin 0.
Proof. intros. unfold cone_fun. destruct (in_cone_dec k x); tauto. Qed.
Lemma cone_fun_out : forall k x, ~ in_cone k x -> cone_fun k x = PInf.
Proof. intros. unfold cone_fun. destruct (in_cone_dec k x); tauto. Qed.
Lemma cone_fun_fin : forall k x r, cone_fun k x = Fin r -> in_cone k x /\ r = 0.
Proof. intros k x r H. unfold cone_fun in H. destruct (in_cone_dec k x); [|discriminate]. injection H as <-. auto. Qed.

Lemma cone_fenchel : forall k n u, cone_dim k n -> length u = n -> is_fenchel n (cone_fun k) u (cone_fun (polar_class k) u).
Proof.
  intros k n u Hd Hu.
  assert (H1 : (1 <= n)%nat) by (unfold cone_dim in Hd; destruct (is_epigraph k); lia).
  destruct (in_cone_dec (polar_class k) u) as [K|K].
  - rewrite cone_fun_in by auto. split.
    + intros x r Hx Hr. apply cone_fun_fin in Hr. destruct Hr as [Kx ->]. pose proof (polar_ineq k n x u H1 Hx Hu Kx K). rewrite dot_comm. lra.
    + intros e He. exists (zeros n), 0. split; [vlen|]. rewrite cone_fun_in by (apply in_cone_zero; auto). split; auto. rewrite dot_zeros_r. lra.
  - rewrite cone_fun_out by auto.
    destruct (moreau_exists k n u Hd Hu) as (p & p' & (L1 & L2 & E & K1 & K2 & O)).
    apply ray_unbounded with (x := p) (rho := 0) (slope := sqn p); auto.
    + intros t Ht. exists 0. rewrite cone_fun_in by (apply (in_cone_scal k n); auto). split; auto. lra.
    + rewrite E, dot_add_l by congruence. rewrite (dot_comm p' p), O. unfold sqn. lra.
    + pose proof (sqn_nonneg p). destruct (Req_dec (sqn p) 0) as [Z|Z]; [|lra]. exfalso. apply K. apply sqn_eq_zero in Z.
      rewrite L1 in Z. rewrite E, Z, vadd_comm, vadd_zeros_r; auto.
Qed.

Lemma proj_argmin : forall n L x k p, 0 < L -> length x = n -> is_proj n (in_cone k) x p ->
  is_unique_argmin n (prox_objective L x (cone_fun k)) p.
Proof.
  intros n L x k p HL Hx (Hp & HS & H). unfold prox_objective.
  split; [split; [auto|split]|].
  - rewrite cone_fun_in by auto. simpl. eauto.
  - intros v Hv. rewrite (cone_fun_in k p) by auto. unfold cone_fun. destruct (in_cone_dec k v) as [I|I]; simpl; auto.
    destruct (H v Hv I) as [H1 _]. nra.
  - intros v Hv. rewrite (cone_fun_in k p) by auto. unfold cone_fun. destruct (in_cone_dec k v) as [I|I]; simpl; [|tauto].
    intros Hle. destruct (H v Hv I) as [H1 H2]. apply H2. nra.
Qed.

Theorem cone_proximal_correct : forall k n g p, cone_dim k n -> k <> KL2 -> k <> KL2Polar -> base_wf n g -> q_shape n p ->
  0 < coef (b_quadratic g) + coef p -> some_array g p ->
  exists v, cone_proximal (mk_cone k g) (AQuad p) = Ok v /\ prox_spec n (cone_fun k) g p v.
Proof.
  intros k n g p Hd N1 N2 Hwf Hp HL Hv. apply shifted_prox_correct; auto.
  intros x Hx. destruct (cone_prox_correct k n x Hd Hx N1 N2) as (e & E & He). exists e. split; auto. apply proj_argmin; auto.
Qed.

Theorem cone_conjugate_correct : forall k n g, cone_dim k n -> base_wf n g -> coef (b_quadratic g) = 0 ->
  exists d, cone_conjugate (mk_cone k g) = Some (mk_cone (polar_class k) d) /\ base_wf n d /\
    (forall u, length u = n -> is_fenchel n (base_doc n (cone_fun k) g) u (base_doc n (cone_fun (polar_class k)) d u)) /\
    exists e, cone_conjugate (mk_cone (polar_class k) d) = Some (mk_cone k e) /\ base_wf n e /\
    forall v, length v = n -> base_doc n (cone_fun k) e v = base_doc n (cone_fun k) g v.
Proof.
  intros k n g Hd Hwf Hc.
  destruct (conjugate_base_fenchel n (cone_fun k) (cone_fun (polar_class k)) g Hwf Hc) as (d & E & W & F).
  { intros u Hu. apply cone_fenchel; auto. }
  destruct (conjugate_base_twice n (cone_fun k) g Hwf Hc) as (d' & e & E1 & E2 & We & H).
  assert (d' = d) by congruence. subst d'.
  exists d. unfold cone_conjugate. cbn [c_class c_base]. rewrite E. simpl. repeat (split; auto).
  exists e. rewrite E2, polar_invol. simpl. auto.
Qed.

(** ** constraint *)
Lemma np_max_abs : forall x, x <> [] -> np_max (vabs x) = Ok (ellinf x).
Proof.
  intros x Hx. pose proof (seminorm_value_plain CSup x 1 true) as H. destruct x as [|a x]; [congruence|].
  assert (G : forall (l : vec) b, Forall (fun c => 0 <= c) l -> 0 <= b -> fold_left Rmax l b = Rmax b (max_list 0 l)).
  { induction l as [|c l IH]; intros b Hl Hb; simpl.
    - rewrite Rmax_left; auto.
    - rewrite IH; [|eapply Forall_inv_tail; eauto|eapply Rle_trans; [exact Hb|apply Rmax_l]].
      rewrite <- Rmax_assoc. auto. }
  simpl. f_equal. unfold ellinf. simpl. rewrite G; auto. apply vabs_nonneg. apply Rabs_pos.
Qed.

(** Distance-type slack of each constraint test. *)
Theorem cone_constraint_complete : forall k n x, cone_dim k n -> length x = n -> in_cone k x -> cone_constraint k x = Ok (Fin 0).
Proof.
  assert (T : 0 < tol) by (unfold tol; apply Rinv_0_lt_compat; lra).
  assert (B : forall a b, a <= b -> rleb a b = true) by (intros; unfold rleb; destruct (Rle_dec a b); auto; tauto).
  intros k n x Hd Hx H.
  assert (H1 : (1 <= n)%nat) by (unfold cone_dim in Hd; destruct (is_epigraph k); lia).
  destruct (is_epigraph k) eqn:Ek; unfold cone_dim in Hd; rewrite Ek in Hd.
  - destruct (split_last n x Hx H1) as (v & t & -> & Lv). apply epi_fwd in H; auto.
    assert (Hv : v <> []) by (intros ->; simpl in Lv; lia).
    assert (W : forall f, with_last (v ++ [t]) f = rmap ok_or_inf (f v t)).
    { intros f. unfold with_last. destruct (v ++ [t]) eqn:E; [destruct v; discriminate|]. rewrite <- E, removelast_last, last_last. auto. }
    assert (Vo : vopp v <> []) by (destruct v; [congruence|discriminate]).
    destruct k; try discriminate; simpl cone_constraint; rewrite W; simpl; rewrite ?np_max_abs by auto; simpl; rewrite B; auto.
    + pose proof (norm_nonneg v). nra. + pose proof (norm_nonneg v). nra.
    + pose proof (ell1_nonneg v). unfold ell1 in *. unfold vabs. nra.
    + rewrite ellinf_opp. pose proof (ellinf_nonneg v). nra. + pose proof (ellinf_nonneg v). nra.
    + pose proof (ell1_nonneg v). unfold ell1 in *. unfold vabs. nra.
  - assert (Hv : x <> []) by (intros ->; simpl in Hx; lia). pose proof (ellinf_nonneg x).
    destruct k; try discriminate; simpl cone_constraint; rewrite ?np_max_abs by auto; simpl.
    + replace (forallb _ x) with true; auto. symmetry. apply forallb_forall. simpl in H. rewrite Forall_forall in H. intros a Ha. specialize (H a Ha). apply B. nra.
    + replace (forallb _ x) with true; auto. symmetry. apply forallb_forall. simpl in H. rewrite Forall_forall in H. intros a Ha. specialize (H a Ha). apply B. nra.
    + auto.
    + rewrite B; auto. assert (x = zeros n) as ->. { rewrite <- Hx. clear - H. simpl in H. induction x; auto. simpl. rewrite (Forall_inv H). unfold zeros in *. simpl. f_equal. apply IHx. eapply Forall_inv_tail; eauto. }
      rewrite norm_zeros. lra.
Qed.

Theorem cone_constraint_sound : forall k n x, cone_dim k n -> length x = n ->
  (cone_constraint k x = Ok (Fin 0) /\ relax k x) \/ (cone_constraint k x = Ok PInf /\ ~ relax k x).
Proof.
  assert (B : forall a b, (rleb a b = true /\ a <= b) \/ (rleb a b = false /\ ~ a <= b)) by (intros; unfold rleb; destruct (Rle_dec a b); auto).
  intros k n x Hd Hx.
  assert (H1 : (1 <= n)%nat) by (unfold cone_dim in Hd; destruct (is_epigraph k); lia).
  destruct (is_epigraph k) eqn:Ek; unfold cone_dim in Hd; rewrite Ek in Hd.
  - destruct (split_last n x Hx H1) as (v & t & -> & Lv).
    assert (Hv : v <> []) by (intros ->; simpl in Lv; lia).
    assert (W : forall f, with_last (v ++ [t]) f = rmap ok_or_inf (f v t)).
    { intros f. unfold with_last. destruct (v ++ [t]) eqn:E; [destruct v; discriminate|]. rewrite <- E, removelast_last, last_last. auto. }
    assert (Vo : vopp v <> []) by (destruct v; [congruence|discriminate]).
    destruct k; try discriminate; simpl cone_constraint; unfold relax; fold tol; rewrite W, init_app, lst_app; simpl; rewrite ?np_max_abs, ?ellinf_opp, ?ell2_norm by auto; simpl;
     match goal with |- context [rleb ?a ?b] => destruct (B a b) as [[-> Q]|[-> Q]] end; simpl; auto.
  - assert (Hv : x <> []) by (intros ->; simpl in Hx; lia).
    destruct k; try discriminate; simpl cone_constraint; unfold relax; fold tol; rewrite ?np_max_abs, ?ell2_norm by auto; simpl; auto.
    + destruct (forallb _ x) eqn:E; [left|right]; split; auto.
      * rewrite forallb_forall in E. apply Forall_forall. intros a Ha. specialize (E a Ha). destruct (B (- (ellinf x * tol)) a) as [[_ Q]|[Q _]]; [lra|congruence].
      * intros C. rewrite <- not_true_iff_false in E. apply E. apply forallb_forall. intros a Ha. rewrite Forall_forall in C. specialize (C a Ha).
        destruct (B (- (ellinf x * tol)) a) as [[Q _]|[_ Q]]; auto. destruct Q. lra.
    + destruct (forallb _ x) eqn:E; [left|right]; split; auto.
      * rewrite forallb_forall in E. apply Forall_forall. intros a Ha. specialize (E a Ha). destruct (B a (ellinf x * tol)) as [[_ Q]|[Q _]]; [lra|congruence].
      * intros C. rewrite <- not_true_iff_false in E. apply E. apply forallb_forall. intros a Ha. rewrite Forall_forall in C. specialize (C a Ha).
        destruct (B a (ellinf x * tol)) as [[Q _]|[_ Q]]; auto. destruct Q. lra.
    + match goal with |- context [rleb ?a ?b] => destruct (B a b) as [[-> Q]|[-> Q]] end; simpl; auto.
Qed.

Theorem l2_moreau_fails : exists p q, cone_prox KL2 [3;5] = Ok p /\ cone_prox KL2Polar [3;5] = Ok q /\ vadd p q <> [3;5].
Proof.
  exists [4;4], (vopp (vscal 0 [-3] ++ [0])). split; [apply l2_prox_interior|]. split.
  - change (cone_prox KL2Polar [3;5]) with (rmap vopp (l2_cone_prox ([-3] ++ [-5]))).
    assert (N : norm [-3] = 3). { change [-3] with (vopp [3]). rewrite norm_opp, norm1; lra. }
    rewrite l2_prox_form; [|discriminate|lra]. rewrite N. rewrite Rmax_right by lra. simpl. repeat f_equal; field.
  - simpl. unfold vadd. simpl. intros C. injection C. lra.
Qed.

Theorem cone_objective_correct : forall k n g x, cone_dim k n -> base_wf n g -> length x = n ->
  cone_objective (mk_cone k g) x false = Ok (base_doc n (fun _ => Fin 0) g x) /\
  (in_cone k (vsub x (base_off n g)) -> cone_objective (mk_cone k g) x true = Ok (base_doc n (cone_fun k) g x)) /\
  (~ relax k (vsub x (base_off n g)) -> cone_objective (mk_cone k g) x true = Ok PInf).
Proof.
  intros k n g x Hd Hwf Hx. pose proof (base_off_length n g Hwf) as Lo.
  assert (Lx : length (vsub x (base_off n g)) = n) by vlen.
  assert (Q : q_func (b_quadratic g) x = quad_fun (coef (b_quadratic g)) (fbcast n (center (b_quadratic g))) (fbcast n (linear_term (b_quadratic g))) (constant_term (b_quadratic g)) x).
  { apply q_func_doc; auto. destruct Hwf as (_ & _ & H). auto. }
  unfold cone_objective, shifted_objective, base_doc. cbn [c_base c_class]. rewrite (base_apply_offset_eq n) by auto. rewrite Q. split; [reflexivity|]. split; intros H.
  - rewrite (cone_constraint_complete k n) by auto. rewrite cone_fun_in by auto. reflexivity.
  - destruct (cone_constraint_sound k n _ Hd Lx) as [[_ C]|[C _]]; [tauto|]. rewrite C. reflexivity.
Qed.

(** Proofs about separable objects and overlapping groups. *)
From Coq Require Import Reals List Lra Lia Arith Bool Permutation.
From Verif Require Import M_affine P_affine P_buffer M_loss M_smooth Vec Spec SpecConvex M_quad P_quad P_calc P_sep P_loss M_semi SpecAtom M_shift SpecBase SpecCone M_cones P_cones M_fista SpecFista M_problem SpecProblem P_problem.
Import ListNotations.
Local Open Scope R_scope.

(** ** Entries of groups *)
Lemma part_length : forall x g, length (part_of x g) = length g.
Proof. intros. apply map_length. Qed.
Lemma take_part : forall (x : vec) g, Forall (fun i => (i < length x)%nat) g -> take_idx g x = Ok (part_of x g).
Proof.
  intros x g F. induction F as [|i g Hi F IH]; cbn [take_idx part_of map]; auto. destruct (nth_error x i) as [a|] eqn:E; [|apply nth_error_None in E; lia].
  rewrite IH. cbn [rmap]. rewrite (nth_error_nth x i 0 E). reflexivity.
Qed.
Lemma part_ext : forall x y g, (forall i, In i g -> nth i x 0 = nth i y 0) -> part_of x g = part_of y g.
Proof. intros x y g H. apply map_ext_in. auto. Qed.
Lemma part_whole : forall n (x : vec), length x = n -> part_of x (seq 0 n) = x.
Proof. intros n x <-. apply map_nth_seq. Qed.
Lemma part_scatter : forall g (w x : vec), NoDup g -> Forall (fun i => (i < length x)%nat) g -> length w = length g -> part_of (M_affine.scatter g w x) g = w.
Proof.
  induction g as [|i g IH]; intros [|a w] x N F L; try discriminate; auto. inversion N as [|? ? Hi N']; subst. cbn [M_affine.scatter part_of map]. f_equal.
  - rewrite scatter_outside by auto. apply nth_set_at_same. apply (Forall_inv F).
  - apply IH; auto. eapply Forall_impl; [|exact (Forall_inv_tail F)]. intros j Hj. rewrite set_at_length. auto.
Qed.
Lemma part_between : forall n x y t g, length x = n -> length y = n -> Forall (fun i => (i < n)%nat) g -> part_of (between x y t) g = between (part_of x g) (part_of y g) t.
Proof.
  intros n x y t g Lx Ly F. induction F as [|i g Hi F IH]; auto. cbn [part_of map]. unfold between in *. cbn. unfold part_of in IH. rewrite IH. f_equal. unfold vadd, vscal, vsub. nths n. reflexivity.
Qed.
Lemma zip_part : forall f (x y : vec) g, vzip f (part_of x g) (part_of y g) = map (fun i => f (nth i x 0) (nth i y 0)) g.
Proof. intros f x y g. induction g as [|i g IH]; auto. cbn. f_equal. apply IH. Qed.

(** ** Quadratics over groups *)
Definition isum (g : list nat) (F : nat -> R) : R := vsum (map F g).
Definition phi (n : nat) (q : iq) (z : vec) (i : nat) : R := coef q / 2 * ((nth i z 0 - nth i (fbcast n (center q)) 0) * (nth i z 0 - nth i (fbcast n (center q)) 0)) + nth i (fbcast n (linear_term q)) 0 * nth i z 0.
Lemma isum_app : forall g g' F, isum (g ++ g') F = isum g F + isum g' F.
Proof. intros. unfold isum. rewrite map_app. apply vsum_app. Qed.
Lemma isum_perm : forall g g' F, Permutation g g' -> isum g F = isum g' F.
Proof. intros. unfold isum. apply vsum_perm. apply Permutation_map. auto. Qed.
Lemma isum_ext : forall g F G, (forall i, In i g -> F i = G i) -> isum g F = isum g G.
Proof. intros. unfold isum. f_equal. apply map_ext_in. auto. Qed.
Lemma quad_part : forall n q g c z, quad_fun (coef q) (part_of (fbcast n (center q)) g) (part_of (fbcast n (linear_term q)) g) c (part_of z g) = isum g (phi n q z) + c.
Proof.
  intros n q g c z. unfold quad_fun, sqn, dot, vmul, vsub. rewrite zip_part. 
  assert (E : vzip Rmult (map (fun i => nth i z 0 - nth i (fbcast n (center q)) 0) g) (map (fun i => nth i z 0 - nth i (fbcast n (center q)) 0) g) = map (fun i => (nth i z 0 - nth i (fbcast n (center q)) 0) * (nth i z 0 - nth i (fbcast n (center q)) 0)) g).
  { induction g as [|i g IH]; auto. cbn. f_equal. apply IH. }
  rewrite E, zip_part. clear E. unfold isum. induction g as [|i g IH]; cbn [map].
  - cbn. lra.
  - rewrite !vsum_cons. unfold phi at 1. lra.
Qed.
Lemma quad_whole : forall n q z, q_shape n q -> length z = n -> q_denot n q z = isum (seq 0 n) (phi n q z) + constant_term q.
Proof. intros n q z [S1 S2] Lz. rewrite <- quad_part. rewrite !part_whole; auto using fbcast_length. Qed.
Lemma getitem_spec : forall n q g, q_shape n q -> has_vec q -> Forall (fun i => (i < n)%nat) g -> exists p, q_getitem q g = Ok p /\ q_shape (length g) p /\ has_vec p /\ coef p = coef q /\
  forall z, q_denot (length g) p (part_of z g) = isum g (phi n q z).
Proof.
  intros n q g [S1 S2] V F. unfold q_getitem. 
  assert (K : forall f, fshape n f -> exists f', match fzero f with FVec v => rmap FVec (take_idx g v) | _ => Ok (fzero f) end = Ok f' /\ fshape (length g) f' /\ fbcast (length g) f' = part_of (fbcast n f) g /\ (match f with FVec _ => True | _ => False end -> match f' with FVec _ => True | _ => False end)).
  { assert (KC : forall c, const_vec (length g) c = part_of (const_vec n c) g).
    { intros c. clear - F. induction F as [|i g Hi F IH]; auto. cbn. unfold const_vec in *. cbn. f_equal; [|apply IH]. symmetry. rewrite (nth_indep _ 0 c) by (rewrite repeat_length; auto). apply nth_repeat. }
    intros [|c|v] Hf; cbn [fzero fbcast].
    - exists (FScal 0). split; auto. split; [exact I|]. split; [|tauto]. cbn [fbcast]. rewrite KC, const_vec_0. auto.
    - exists (FScal c). split; auto. split; [exact I|]. split; [apply KC|tauto].
    - cbn in Hf. rewrite take_part by (rewrite Hf; auto). exists (FVec (part_of v g)). split; auto. split; [apply part_length|]. split; auto. }
  destruct (K _ S1) as (c' & Ec & Sc & Bc & Vc). destruct (K _ S2) as (l' & El & Sl & Bl & Vl). cbn [zeroify center linear_term coef]. cbv zeta. cbn [center linear_term coef zeroify]. rewrite El. cbn [rbind]. rewrite Ec. cbn [rbind].
  eexists. split; [reflexivity|]. split; [split; auto|]. split.
  - unfold has_vec in *. cbn [center linear_term]. destruct (center q) as [|?|?]; [| |destruct c'; auto; exfalso; apply Vc; exact I];
      (destruct (linear_term q); try tauto; destruct c'; auto; destruct l'; auto; exfalso; apply Vl; exact I).
  - split; auto. intros z. unfold q_denot. cbn [coef center linear_term constant_term]. rewrite Bc, Bl. rewrite quad_part. ring.
Qed.

(** ** Groups and the rest *)
Definition rest (n : nat) (G : list nat) : list nat := filter (fun i => negb (mem i G)) (seq 0 n).
Lemma mem_In : forall i l, mem i l = true <-> In i l.
Proof. intros i l. unfold mem. rewrite existsb_exists. split; [intros (j & Hj & E); apply Nat.eqb_eq in E; subst; auto|intros H; exists i; split; auto; apply Nat.eqb_refl]. Qed.
Lemma rest_In : forall n G i, In i (rest n G) <-> (i < n)%nat /\ ~ In i G.
Proof. intros n G i. unfold rest. rewrite filter_In, in_seq. split; intros [H1 H2]; split; try lia; [intros H; apply mem_In in H; rewrite H in H2; discriminate|]. destruct (mem i G) eqn:E; auto. exfalso. apply H2. apply mem_In. auto. Qed.
Lemma nodup_app : forall (a b : list nat), NoDup a -> NoDup b -> (forall i, In i a -> ~ In i b) -> NoDup (a ++ b).
Proof.
  intros a b N. induction N as [|i a Hi N IH]; intros Nb D; cbn [app]; auto. constructor; [|apply IH; auto; intros j Hj; apply D; right; auto].
  rewrite in_app_iff. intros [K|K]; [contradiction|]. apply (D i); [left; auto|auto].
Qed.
Lemma nodup_app_inv : forall (a b : list nat), NoDup (a ++ b) -> NoDup a /\ NoDup b /\ forall i, In i a -> ~ In i b.
Proof.
  induction a as [|i a IH]; intros b N; cbn [app] in N.
  - split; [constructor|]. split; auto.
  - inversion N as [|? ? Hi N']; subst. destruct (IH b N') as (H1 & H2 & H3). rewrite in_app_iff in Hi. split; [constructor; tauto|]. split; auto. intros j [<-|Hj] K; [tauto|]. apply (H3 j); auto.
Qed.
Lemma rest_perm : forall n G, NoDup G -> (forall i, In i G -> (i < n)%nat) -> Permutation (seq 0 n) (G ++ rest n G).
Proof.
  intros n G N H. apply NoDup_Permutation.
  - apply seq_NoDup.
  - apply nodup_app; auto; [apply NoDup_filter; apply seq_NoDup|]. intros i Hi K. apply rest_In in K. tauto.
  - intros i. rewrite in_app_iff, rest_In, in_seq. destruct (in_dec Nat.eq_dec i G) as [Hi|Hi]; [specialize (H i Hi); intuition lia|intuition lia].
Qed.
Lemma legal_tail : forall n g gs, legal_groups n (g :: gs) -> NoDup g /\ Forall (fun i => (i < n)%nat) g /\ legal_groups n gs /\ forall i, In i g -> ~ In i (concat gs).
Proof.
  intros n g gs [N H]. cbn [concat] in N. destruct (nodup_app_inv _ _ N) as (N1 & N2 & N3). split; auto. split; [apply Forall_forall; intros i Hi; apply (H g); auto; left; auto|]. split; auto. split; auto. intros g' i Hg. apply H. right. auto.
Qed.
Lemma legal_lt : forall n gs, legal_groups n gs -> forall i, In i (concat gs) -> (i < n)%nat.
Proof. intros n gs [_ H] i Hi. apply in_concat in Hi. destruct Hi as (g & Hg & Hi). eauto. Qed.

(** ** Values *)

Lemma sep_convex : forall n parts Hs, parts_exact parts Hs -> legal_groups n (map snd parts) -> convex_ext n (separable_fun Hs (map snd parts)).
Proof.
  intros n parts Hs F. induction F as [|[A g] H parts Hs E F IH]; intros Lg x y t a b Lx Ly Ht Ex Ey; cbn [map snd separable_fun] in *.
  - injection Ex as <-. injection Ey as <-. cbn. lra.
  - destruct (legal_tail _ _ _ Lg) as (_ & Fg & Lg' & _). cbn [fst] in E. destruct (H (part_of x g)) as [hx|] eqn:E1; [|discriminate]. destruct (H (part_of y g)) as [hy|] eqn:E2; [|discriminate].
    destruct (separable_fun Hs (map snd parts) x) as [sx|] eqn:E3; [|discriminate]. destruct (separable_fun Hs (map snd parts) y) as [sy|] eqn:E4; [|discriminate]. cbn [ext_add] in *. injection Ex as <-. injection Ey as <-.
    assert (K := IH Lg' x y t sx sy Lx Ly Ht E3 E4). rewrite (part_between n) by auto. assert (K2 := eo_convex _ _ _ E (part_of x g) (part_of y g) t hx hy (part_length _ _) (part_length _ _) Ht E1 E2).
    destruct (H (between (part_of x g) (part_of y g) t)) as [hz|]; [|destruct K2]. destruct (separable_fun Hs (map snd parts) (between x y t)) as [sz|]; [|destruct K]. cbn in *. lra.
Qed.
Lemma sep_value_spec : forall n parts Hs x r chk, parts_exact parts Hs -> legal_groups n (map snd parts) -> length x = n -> separable_fun Hs (map snd parts) x = Fin r -> sep_value parts x chk = Ok (Fin r).
Proof.
  intros n parts Hs x r chk F. revert r. induction F as [|[A g] H parts Hs E F IH]; intros r Lg Lx Er; cbn [map snd separable_fun sep_value fst] in *.
  - rewrite Er. auto.
  - destruct (legal_tail _ _ _ Lg) as (_ & Fg & Lg' & _). destruct (H (part_of x g)) as [hx|] eqn:E1; [|discriminate]. destruct (separable_fun Hs (map snd parts) x) as [sx|] eqn:E3; [|discriminate]. cbn [ext_add] in Er. injection Er as <-.
    rewrite take_part by (rewrite Lx; auto). cbn [rbind]. rewrite (eo_value _ _ _ E (part_of x g) hx chk (part_length _ _) E1). cbn [rbind]. rewrite (IH sx) by auto. reflexivity.
Qed.

(** ** The proximal map *)
Definition group_best (n : nat) (q : iq) (v : vec) (p : nobj * list nat) (H : vec -> ext) : Prop :=
  (exists r, H (part_of v (snd p)) = Fin r) /\ forall z, length z = n -> ext_le (ext_add (H (part_of v (snd p))) (Fin (isum (snd p) (phi n q v)))) (ext_add (H (part_of z (snd p))) (Fin (isum (snd p) (phi n q z)))).
Lemma group_best_ext : forall n q v v' p H, (forall i, In i (snd p) -> nth i v 0 = nth i v' 0) -> group_best n q v p H -> group_best n q v' p H.
Proof.
  intros n q v v' p H E [K1 K2]. rewrite (part_ext v v') in K1 by auto. split; auto. intros z Lz. specialize (K2 z Lz). rewrite (part_ext v v') in K2 by auto. rewrite (isum_ext _ (phi n q v') (phi n q v)); auto. intros i Hi. unfold phi. rewrite E; auto.
Qed.
Lemma sep_assign_spec : forall n q, q_shape n q -> 0 < coef q -> has_vec q -> forall parts Hs, parts_exact parts Hs -> legal_groups n (map snd parts) -> forall v0, length v0 = n ->
  exists v, sep_assign parts q v0 = Ok v /\ length v = n /\ (forall j, ~ In j (concat (map snd parts)) -> nth j v 0 = nth j v0 0) /\ Forall2 (group_best n q v) parts Hs.
Proof.
  intros n q Sq Hq V parts Hs F. induction F as [|[A g] H parts Hs E F IH]; intros Lg v0 L0; cbn [sep_assign map snd fst] in *.
  - exists v0. repeat (split; auto).
  - destruct (legal_tail _ _ _ Lg) as (Ng & Fg & Lg' & D). destruct (getitem_spec n q g Sq V Fg) as (p & Ep & Sp & Vp & Kp & Dp). rewrite Ep. cbn [rbind].
    destruct (eo_prox _ _ _ E p Sp) as (w & Ew & Mw); auto; [rewrite Kp; auto|]. rewrite Ew. cbn [rbind]. destruct Mw as (Lw & (r & Er) & Mw).
    set (v1 := M_affine.scatter g w v0). assert (L1 : length v1 = n) by (unfold v1; rewrite scatter_length; auto).
    assert (P1 : part_of v1 g = w) by (apply part_scatter; auto; rewrite L0; auto).
    destruct (IH Lg' v1 L1) as (v & Ev & Lv & O & B). exists v. split; auto. split; auto. split.
    + intros j Hj. cbn [concat] in Hj. rewrite in_app_iff in Hj. rewrite O by tauto. unfold v1. apply scatter_outside. tauto.
    + constructor; auto. apply (group_best_ext n q v1); [intros i Hi; symmetry; apply O; apply D; auto|]. split; cbn [snd fst].
      * rewrite P1. unfold plus_quad in Er. destruct (H w) as [hw|]; [eauto|discriminate].
      * intros z Lz. rewrite P1, <- !Dp. rewrite P1. apply (Mw (part_of z g)). apply part_length.
Qed.
Fixpoint group_sum (n : nat) (q : iq) (Hs : list (vec -> ext)) (gs : list (list nat)) (z : vec) : ext :=
  match Hs, gs with H :: Hs', g :: gs' => ext_add (ext_add (H (part_of z g)) (Fin (isum g (phi n q z)))) (group_sum n q Hs' gs' z) | _, _ => Fin 0 end.
Lemma group_sum_spec : forall n q Hs gs z, length Hs = length gs -> ext_add (separable_fun Hs gs z) (Fin (isum (concat gs) (phi n q z))) = group_sum n q Hs gs z.
Proof.
  intros n q. induction Hs as [|H Hs IH]; intros [|g gs] z L; try discriminate; cbn [separable_fun group_sum concat].
  - cbn. f_equal. unfold isum. cbn. lra.
  - rewrite <- IH by auto. rewrite isum_app. destruct (H (part_of z g)); cbn [ext_add]; auto. destruct (separable_fun Hs gs z); cbn [ext_add]; auto. f_equal. lra.
Qed.
Lemma group_sum_le : forall n q v parts Hs z, Forall2 (group_best n q v) parts Hs -> length z = n -> (exists r, group_sum n q Hs (map snd parts) v = Fin r) /\ ext_le (group_sum n q Hs (map snd parts) v) (group_sum n q Hs (map snd parts) z).
Proof.
  intros n q v parts Hs z F Lz. induction F as [|p H parts Hs [(r & Er) B] F [(s & Es) IH]]; cbn [map snd group_sum].
  - split; [eauto|]. cbn. lra.
  - specialize (B z Lz). rewrite Er, Es in *. cbn [ext_add] in *. split; [eauto|]. destruct (ext_add (H (part_of z (snd p))) (Fin (isum (snd p) (phi n q z)))) as [u|]; cbn [ext_add]; [|exact I].
    destruct (group_sum n q Hs (map snd parts) z) as [w|]; cbn in *; auto. lra.
Qed.
Lemma rest_le : forall n q G v0 z, q_shape n q -> is_argmin n (fun x => Fin (q_denot n q x)) v0 -> NoDup G -> (forall i, In i G -> (i < n)%nat) -> length z = n -> isum (rest n G) (phi n q v0) <= isum (rest n G) (phi n q z).
Proof.
  intros n q G v0 z Sq (L0 & _ & M) N HG Lz. set (y := map (fun i => if mem i G then nth i v0 0 else nth i z 0) (seq 0 n)). assert (Ly : length y = n) by (unfold y; rewrite map_length, seq_length; auto).
  assert (Hy : forall i, (i < n)%nat -> nth i y 0 = if mem i G then nth i v0 0 else nth i z 0).
  { intros i Hi. unfold y. rewrite (nth_indep _ 0 (if mem n G then nth n v0 0 else nth n z 0)) by (rewrite map_length, seq_length; auto). rewrite (map_nth (fun i => if mem i G then nth i v0 0 else nth i z 0)), seq_nth by auto. reflexivity. }
  specialize (M y Ly). cbn [ext_le] in M. rewrite !quad_whole in M by auto. rewrite !(isum_perm _ _ _ (rest_perm n G N HG)), !isum_app in M.
  rewrite (isum_ext G (phi n q y) (phi n q v0)) in M by (intros i Hi; unfold phi; rewrite Hy by auto; rewrite (proj2 (mem_In i G)) by auto; reflexivity).
  rewrite (isum_ext (rest n G) (phi n q y) (phi n q z)) in M; [lra|]. intros i Hi. apply rest_In in Hi. destruct Hi as [Hi Hi']. unfold phi. rewrite Hy by auto. destruct (mem i G) eqn:E; [apply mem_In in E; contradiction|]. reflexivity.
Qed.
Lemma sep_assign_argmin : forall n q parts Hs v0, q_shape n q -> 0 < coef q -> has_vec q -> parts_exact parts Hs -> legal_groups n (map snd parts) -> is_argmin n (fun x => Fin (q_denot n q x)) v0 ->
  exists v, sep_assign parts q v0 = Ok v /\ is_argmin n (plus_quad n (separable_fun Hs (map snd parts)) q) v.
Proof.
  intros n q parts Hs v0 Sq Hq V F Lg M1.
    assert (M1' := M1). destruct M1' as (L0 & _ & _). destruct (sep_assign_spec n q Sq Hq V parts Hs F Lg v0 L0) as (v & Ev & Lv & O & B). exists v. split; auto. split; auto.
    assert (LH : length Hs = length (map snd parts)). { rewrite map_length. clear - F. induction F; cbn; auto. }
    assert (NG : NoDup (concat (map snd parts))) by apply Lg. assert (HG := legal_lt n _ Lg).
    assert (K : forall z, length z = n -> plus_quad n (separable_fun Hs (map snd parts)) q z = ext_add (group_sum n q Hs (map snd parts) z) (Fin (isum (rest n (concat (map snd parts))) (phi n q z) + constant_term q))).
    { intros z Lz. rewrite <- group_sum_spec by auto. unfold plus_quad. rewrite quad_whole by auto. rewrite (isum_perm _ _ _ (rest_perm n _ NG HG)), isum_app. destruct (separable_fun Hs (map snd parts) z); cbn [ext_add]; auto. f_equal. lra. }
    split.
    + rewrite K by auto. destruct (group_sum_le n q v parts Hs v B Lv) as [(r & Er) _]. rewrite Er. cbn. eauto.
    + intros z Lz. rewrite !K by auto. destruct (group_sum_le n q v parts Hs z B Lz) as [(r & Er) Le]. rewrite Er in *. destruct (group_sum n q Hs (map snd parts) z) as [s|]; cbn [ext_add ext_le] in *; auto.
      assert (R1 := rest_le n q (concat (map snd parts)) v0 z Sq M1 NG HG Lz). rewrite (isum_ext _ (phi n q v) (phi n q v0)); [lra|]. intros i Hi. apply rest_In in Hi. unfold phi. rewrite O by tauto. reflexivity.
Qed.
Theorem separable_exact : forall n parts Hs, (1 <= n)%nat -> parts_exact parts Hs -> legal_groups n (map snd parts) -> exact_obj n (separable_fun Hs (map snd parts)) (of_separable (mk_separable n parts)).
Proof.
  intros n parts Hs Hn F Lg. split.
  - apply sep_convex; auto.
  - intros x r chk Lx E. apply (sep_value_spec n parts Hs); auto.
  - intros q Sq Hq V. cbn [of_separable o_prox]. unfold sep_prox. cbn [sp_shape sp_parts].
    assert (X : exact_obj n (fun _ => Fin 0) (of_cone (new_cone KZero n None None))) by (apply zero_exact; auto).
    destruct (eo_prox _ _ _ X q Sq Hq V) as (v0 & E0 & M0). cbn [of_cone o_prox] in E0. rewrite E0. cbn [rbind].
    apply sep_assign_argmin; auto. destruct M0 as (L0 & _ & M0). split; auto. split; [eauto|]. intros z Lz. specialize (M0 z Lz). unfold plus_quad in M0. cbn in M0 |- *. lra.
Qed.

(** ** Overlap *)
Lemma same_set_spec : forall a b, same_set a b = true <-> forall i, In i a <-> In i b.
Proof.
  intros a b. unfold same_set. rewrite andb_true_iff, !forallb_forall. split.
  - intros [H1 H2] i. split; intros H; [apply mem_In; apply H1; auto|apply mem_In; apply H2; auto].
  - intros H. split; intros i Hi; apply mem_In; apply H; auto.
Qed.
Theorem overlap_spec : forall n gs b, has_overlap n gs = Ok b ->
  (b = true <-> exists i j, (j < i < length gs)%nat /\ share_index (nth i gs []) (nth j gs []) /\ ~ (forall k, In k (nth i gs []) <-> In k (nth j gs []))).
Proof.
  intros n gs b E. unfold has_overlap in E. destruct (existsb (existsb (fun i => Nat.leb n i)) gs); [discriminate|]. apply Ok_inj in E. rewrite <- E. rewrite existsb_exists. split.
  - intros (i & Hi & H). apply in_seq in Hi. apply existsb_exists in H. destruct H as (j & Hj & H). apply in_seq in Hj. apply andb_prop in H. destruct H as [H1 H2]. apply existsb_exists in H2. destruct H2 as (k & Hk & H2). apply mem_In in H2.
    exists i, j. split; [lia|]. split; [exists k; auto|]. intros K. apply same_set_spec in K. rewrite K in H1. discriminate.
  - intros (i & j & Hij & (k & K1 & K2) & N). exists i. split; [apply in_seq; lia|]. apply existsb_exists. exists j. split; [apply in_seq; lia|]. apply andb_true_intro. split.
    + destruct (same_set (nth i gs []) (nth j gs [])) eqn:S; auto. exfalso. apply N. apply same_set_spec. auto.
    + apply existsb_exists. exists k. split; auto. apply mem_In. auto.
Qed.
Theorem overlap_raises : forall n gs, has_overlap n gs = Err IndexError <-> exists g i, In g gs /\ In i g /\ (n <= i)%nat.
Proof.
  intros n gs. unfold has_overlap. destruct (existsb (existsb (fun i => Nat.leb n i)) gs) eqn:E.
  - split; auto. intros _. apply existsb_exists in E. destruct E as (g & Hg & E). apply existsb_exists in E. destruct E as (i & Hi & E). apply Nat.leb_le in E. eauto.
  - split; [discriminate|]. intros (g & i & Hg & Hi & L). exfalso. assert (K : existsb (existsb (fun i => Nat.leb n i)) gs = true); [|congruence]. apply existsb_exists. exists g. split; auto. apply existsb_exists. exists i. split; auto. apply Nat.leb_le. auto.
Qed.
(** What the constructor guarantees when it accepts: any two groups are equal as sets or disjoint. *)
Theorem separable_accepts : forall n atoms gs S, new_separable n atoms gs true = Ok S ->
  sp_shape S = n /\ sp_parts S = combine atoms gs /\ (forall g i, In g gs -> In i g -> (i < n)%nat) /\
  forall i j, (j < i < length gs)%nat -> share_index (nth i gs []) (nth j gs []) -> forall k, In k (nth i gs []) <-> In k (nth j gs []).
Proof.
  intros n atoms gs S E. unfold new_separable in E. destruct (has_overlap n gs) as [b|e] eqn:Eo; [|discriminate]. cbn [rbind] in E. destruct b; [discriminate|]. destruct (existsb (existsb (fun i => Nat.leb n i)) gs) eqn:Ei; [discriminate|]. apply Ok_inj in E. subst S. cbn [sp_shape sp_parts].
  split; auto. split; auto. split.
  - intros g i Hg Hi. destruct (Nat.ltb_spec i n) as [|L]; auto. exfalso. assert (K : has_overlap n gs = Err IndexError) by (apply overlap_raises; eauto). congruence.
  - intros i j Hij Sh. destruct (same_set (nth i gs []) (nth j gs [])) eqn:Es; [apply same_set_spec; auto|]. exfalso. assert (K : false = true); [|discriminate]. apply (overlap_spec n gs false Eo). exists i, j. split; auto. split; auto. intros K. apply same_set_spec in K. congruence.
Qed.

From Coq Require Import Reals List Lra Lia Psatz Bool.
From Verif Require Import Vec Spec SpecIso M_iso.
Import ListNotations.
Local Open Scope R_scope.

(** ** Certificate: prefix sums of w*(y - p) *)
Fixpoint cert (prev : option R) (S : R) (p w y : vec) : Prop :=
  match p, w, y with
  | [], [], [] => S = 0
  | a :: p', c :: w', b :: y' =>
      0 <= S /\ (forall q, prev = Some q -> q <> a -> S = 0) /\ cert (Some a) (S + c * (b - a)) p' w' y'
  | _, _, _ => False
  end.

Lemma cert_eq : forall prev S S' p w y, cert prev S p w y -> S = S' -> cert prev S' p w y.
Proof. intros. subst. auto. Qed.

Lemma cert_ineq : forall p w y v prev S, cert prev S p w y -> length v = length p -> nondecreasing v ->
  S * (hd 0 v - hd 0 p) + dot (vmul w (vsub y p)) (vsub v p) <= 0.
Proof.
  induction p as [|a p IH]; intros w y v prev S H Hv Hnd.
  - destruct w, y, v; simpl in *; try tauto; try discriminate. unfold dot, vmul, vsub. simpl. lra.
  - destruct w as [|c w], y as [|b y], v as [|u v]; simpl in H; try tauto; simpl in Hv; try discriminate.
    destruct H as (H0 & H1 & H2). unfold vmul, vsub in *. cbn [vzip hd]. rewrite dot_cons. cbn [vzip].
    assert (Hnd' : nondecreasing v) by (destruct v; [exact I|simpl in Hnd; tauto]).
    specialize (IH w y v (Some a) (S + c * (b - a)) H2 ltac:(congruence) Hnd').
    destruct p as [|a2 p].
    + destruct w, y; simpl in H2; try tauto. destruct v; simpl in Hv; try discriminate. simpl in *. unfold dot, vmul in *. simpl in *.
      rewrite Rplus_0_r. replace (S * (u - a) + c * (b - a) * (u - a)) with ((S + c * (b - a)) * (u - a)) by ring. rewrite H2. lra.
    + destruct v as [|u2 v]; simpl in Hv; try discriminate. cbn [hd] in IH. simpl in Hnd.
      destruct w as [|c2 w], y as [|b2 y]; simpl in H2; try tauto. destruct H2 as (G0 & G1 & _).
      set (S' := S + c * (b - a)) in *.
      assert (Z : S' * (a - a2) = 0). { destruct (Req_EM_T a a2) as [->|N]; [lra|]. rewrite (G1 a eq_refl N). lra. }
      assert (Z2 : S' * (u - u2) <= 0) by nra.
      set (D := dot _ _) in *. 
      replace (S * (u - a) + (c * (b - a) * (u - a) + D)) with (S' * (u - u2) - S' * (a - a2) + (S' * (u2 - a2) + D)) by (unfold S'; ring).
      lra.
Qed.

Lemma wss_expand : forall w y p v, length w = length y -> length p = length y -> length v = length y ->
  wss w y v = wss w y p + dot w (map (fun d => d * d) (vsub v p)) - 2 * dot (vmul w (vsub y p)) (vsub v p).
Proof.
  intros w y p v H1 H2 H3. unfold wss, vsub, vmul. revert y p v H1 H2 H3.
  induction w as [|c w IH]; intros [|b y] [|a p] [|u v] H1 H2 H3; simpl in *; try discriminate; [unfold dot; simpl; lra|].
  rewrite !dot_cons. rewrite (IH y p v) by congruence. ring.
Qed.
Lemma wsq_nonneg : forall w d, Forall (fun c => 0 < c) w -> 0 <= dot w (map (fun x => x * x) d).
Proof.
  intros w d H. revert d. induction H as [|c w Hc Hw IH]; intros [|e d]; unfold dot, vmul; cbn; try lra.
  specialize (IH d). unfold dot, vmul in IH. fold (vsum (vzip Rmult w (map (fun x => x * x) d))). nra.
Qed.
Lemma wsq_zero : forall w v p, Forall (fun c => 0 < c) w -> length v = length p -> length w = length p ->
  dot w (map (fun x => x * x) (vsub v p)) <= 0 -> v = p.
Proof.
  intros w v p H. revert v p. induction H as [|c w Hc Hw IH]; intros [|u v] [|a p] H1 H2 H3; simpl in *; try discriminate; auto.
  unfold vsub in *. cbn [vzip map] in H3. rewrite dot_cons in H3.
  pose proof (wsq_nonneg w (vzip Rminus v p) Hw). pose proof (Rle_0_sqr (u - a)). unfold Rsqr in *.
  assert ((u - a) * (u - a) = 0) by nra. assert (u = a) by nra. subst. f_equal. apply IH; try congruence. nra.
Qed.

Lemma cert_length : forall p w y prev S, cert prev S p w y -> length p = length y /\ length w = length y.
Proof.
  induction p; intros [|c w] [|b y] prev S H; simpl in *; try tauto. destruct H as (_ & _ & H). destruct (IHp _ _ _ _ H). split; congruence.
Qed.

Theorem cert_isotonic : forall p w y, Forall (fun c => 0 < c) w -> cert None 0 p w y -> nondecreasing p -> is_isotonic w y p.
Proof.
  intros p w y Hw Hc Hp. destruct (cert_length _ _ _ _ _ Hc) as [L1 L2]. split; auto. split; auto.
  intros v Hv Hnd. pose proof (cert_ineq p w y v None 0 Hc ltac:(congruence) Hnd) as C. rewrite Rmult_0_l, Rplus_0_l in C.
  rewrite (wss_expand w y p v) by congruence. pose proof (wsq_nonneg w (vsub v p) Hw). split; [lra|].
  intros Hle. apply wsq_zero with (w := w); auto; try congruence. lra.
Qed.

(** ** Pooling a non-increasing segment *)
Fixpoint nonincreasing (x : vec) : Prop :=
  match x with
  | a :: ((b :: _) as x') => b <= a /\ nonincreasing x'
  | _ => True
  end.
Lemma nonincreasing_tail : forall a x, nonincreasing (a :: x) -> nonincreasing x.
Proof. intros a [|b x] H; [exact I|]. simpl in H. tauto. Qed.
Lemma nonincreasing_hd : forall x a, nonincreasing (a :: x) -> Forall (fun b => b <= a) x.
Proof.
  induction x as [|b x IH]; intros a H; constructor; simpl in H; [tauto|]. destruct H as [H1 H2]. specialize (IH b H2).
  eapply Forall_impl; [|exact IH]. simpl. intros. lra.
Qed.
(** deviations from m *)
Definition devsum (m : R) (r w : vec) : R := dot w (map (fun a => a - m) r).
Lemma devsum_cons : forall m a r c w, devsum m (a :: r) (c :: w) = c * (a - m) + devsum m r w.
Proof. intros. unfold devsum. cbn [map]. apply dot_cons. Qed.
Fixpoint all_prefix (m T : R) (r w : vec) : Prop :=
  match r, w with
  | a :: r', c :: w' => 0 <= T /\ all_prefix m (T + c * (a - m)) r' w'
  | _, _ => 0 <= T
  end.
Lemma devsum_nonpos : forall m r w, Forall (fun c => 0 < c) w -> Forall (fun a => a <= m) r -> devsum m r w <= 0.
Proof.
  intros m r w Hw. revert r. induction Hw as [|c w Hc Hw IH]; intros r Hr; [unfold devsum, dot; simpl; lra|].
  destruct r as [|a r]; [unfold devsum, dot; simpl; lra|]. rewrite devsum_cons. specialize (IH r (Forall_inv_tail Hr)). pose proof (Forall_inv Hr). simpl in *. nra.
Qed.
Lemma all_prefix_pool : forall m r w T, Forall (fun c => 0 < c) w -> length w = length r -> nonincreasing r -> 0 <= T ->
  T + devsum m r w = 0 -> all_prefix m T r w.
Proof.
  intros m r. induction r as [|a r IH]; intros [|c w] T Hw Hl Hr HT E; simpl in Hl; try discriminate; simpl; auto.
  split; auto. rewrite devsum_cons in E. apply IH; auto.
  - exact (Forall_inv_tail Hw).
  - apply nonincreasing_tail with a. auto.
  - pose proof (Forall_inv Hw). simpl in *. destruct (Rle_dec m a); [nra|].
    assert (devsum m r w <= 0); [|lra]. apply devsum_nonpos; [exact (Forall_inv_tail Hw)|].
    eapply Forall_impl; [|apply nonincreasing_hd; exact Hr]. simpl. intros. lra.
  - lra.
Qed.

(** the mean has zero deviation *)
Lemma devsum_mean : forall r w, Forall (fun c => 0 < c) w -> w <> [] -> length w = length r -> devsum (dot r w / vsum w) r w = 0.
Proof.
  intros r w Hw Hne Hl. set (m := dot r w / vsum w).
  assert (D : forall m, devsum m r w = dot r w - m * vsum w).
  { clear - Hl. intros m. revert r Hl. induction w as [|c w IH]; intros [|a r] Hl; simpl in Hl; try discriminate; [unfold devsum, dot; simpl; lra|].
    rewrite devsum_cons, vsum_cons, (dot_cons a), IH by congruence. ring. }
  rewrite D. unfold m. assert (0 < vsum w). { destruct Hw as [|c w Hc Hw]; [congruence|]. rewrite vsum_cons.
    assert (0 <= vsum w); [|lra]. clear - Hw. induction Hw; unfold vsum; simpl; [lra|]. unfold vsum in *. simpl in *. lra. }
  field. lra.
Qed.

(** sum of w*(y-p) over a segment *)
Definition csum (p w y : vec) : R := dot w (vsub y p).
Lemma csum_cons : forall a p c w b y, csum (a :: p) (c :: w) (b :: y) = c * (b - a) + csum p w y.
Proof. intros. unfold csum, vsub. cbn [vzip]. apply dot_cons. Qed.

Lemma cert_split : forall r t wr wt yr yt prev S, length wr = length r -> length yr = length r ->
  cert prev S (r ++ t) (wr ++ wt) (yr ++ yt) -> r <> [] ->
  cert (Some (last r 0)) (S + csum r wr yr) t wt yt.
Proof.
  induction r as [|a r IH]; intros t [|c wr] wt [|b yr] yt prev S H1 H2 H Hne; simpl in H1, H2; try discriminate; [congruence|].
  simpl in H. destruct H as (_ & _ & H). rewrite csum_cons. destruct r as [|a2 r].
  - destruct wr, yr; simpl in H1, H2; try discriminate. simpl in *. replace (S + (c * (b - a) + csum [] [] [])) with (S + c * (b - a)); auto.
    unfold csum, dot, vsub, vmul. simpl. lra.
  - change (last (a :: a2 :: r) 0) with (last (a2 :: r) 0). replace (S + (c * (b - a) + csum (a2 :: r) wr yr)) with (S + c * (b - a) + csum (a2 :: r) wr yr) by ring.
    apply IH with (Some a); auto. discriminate.
Qed.

Lemma pool_cert : forall r t t' wr wt yr yt prev prev' S T m, length wr = length r -> length yr = length r ->
  cert prev S (r ++ t) (wr ++ wt) (yr ++ yt) -> all_prefix m T r wr ->
  (forall q, prev' = Some q -> q <> m -> S + T = 0) -> r <> [] ->
  cert (Some m) (S + T + csum r wr yr + devsum m r wr) t' wt yt ->
  cert prev' (S + T) (repeat m (length r) ++ t') (wr ++ wt) (yr ++ yt).
Proof.
  induction r as [|a r IH]; intros t t' [|c wr] wt [|b yr] yt prev prev' S T m H1 H2 H HT Hp Hne Hrest; simpl in H1, H2; try discriminate; [congruence|].
  simpl in H. destruct H as (HS & _ & H). simpl in HT. destruct HT as [HT0 HT1]. rewrite csum_cons, devsum_cons in Hrest.
  simpl. split; [lra|]. split; auto.
  replace (S + T + c * (b - m)) with ((S + c * (b - a)) + (T + c * (a - m))) by ring.
  destruct r as [|a2 r].
  - destruct wr, yr; simpl in H1, H2; try discriminate. simpl.
    replace (S + c * (b - a) + (T + c * (a - m))) with (S + T + (c * (b - a) + csum [] [] []) + (c * (a - m) + devsum m [] [])); auto.
    unfold csum, devsum, dot, vsub, vmul. simpl. lra.
  - apply IH with (t := t) (prev := Some a); auto; [|discriminate|].
    + intros q Hq Hq2. injection Hq as <-. congruence.
    + eapply cert_eq; [exact Hrest|ring].
Qed.

(** keeping a segment while the tail is replaced *)
Lemma keep_cert : forall r t t' wr wt yr yt prev prev' S, length wr = length r -> length yr = length r ->
  cert prev S (r ++ t) (wr ++ wt) (yr ++ yt) ->
  (forall a, hd_error r = Some a -> forall q, prev' = Some q -> q <> a -> S = 0) -> r <> [] ->
  cert (Some (last r 0)) (S + csum r wr yr) t' wt yt ->
  cert prev' S (r ++ t') (wr ++ wt) (yr ++ yt).
Proof.
  induction r as [|a r IH]; intros t t' [|c wr] wt [|b yr] yt prev prev' S H1 H2 H Hp Hne Hrest; simpl in H1, H2; try discriminate; [congruence|].
  simpl in H. destruct H as (HS & _ & H). rewrite csum_cons in Hrest. simpl. split; auto. split; [intros; eapply Hp; eauto; reflexivity|].
  destruct r as [|a2 r].
  - destruct wr, yr; simpl in H1, H2; try discriminate. simpl in *. replace (S + c * (b - a)) with (S + (c * (b - a) + csum [] [] [])); auto.
    unfold csum, dot, vsub, vmul. simpl. lra.
  - pose proof H as H'. cbn [app] in H'. destruct wr as [|c2 wr], yr as [|b2 yr]; simpl in H1, H2; try discriminate.
    simpl in H'. destruct H' as (_ & Hbd & _).
    apply IH with (t := t) (prev := Some a); try (simpl; lia); try discriminate; auto.
    + intros x Hx. injection Hx as <-. intros q Hq Hn. eapply Hbd; eauto.
    + change (last (a :: a2 :: r) 0) with (last (a2 :: r) 0) in Hrest. eapply cert_eq; [exact Hrest|ring].
Qed.

(** ** The scan *)
Lemma run_len_pos : forall l a, (1 <= run_len a l)%nat.
Proof. destruct l; intros; simpl; [lia|]. destruct (Rge_dec _ _); lia. Qed.
Lemma run_len_le : forall l a, (run_len a l <= S (length l))%nat.
Proof. induction l as [|b l IH]; intros a; simpl; [lia|]. destruct (Rge_dec a b); [specialize (IH b)|]; lia. Qed.
Lemma run_nonincreasing : forall l a, nonincreasing (firstn (run_len a l) (a :: l)).
Proof.
  induction l as [|b l IH]; intros a; simpl; auto. destruct (Rge_dec a b); [|simpl; auto].
  specialize (IH b). pose proof (run_len_pos l b). destruct (run_len b l) as [|k] eqn:E; [lia|]. simpl in *. split; [lra|auto].
Qed.
Lemma run_maximal : forall l a b t, skipn (run_len a l) (a :: l) = b :: t -> last (firstn (run_len a l) (a :: l)) 0 < b.
Proof.
  induction l as [|c l IH]; intros a b t H.
  - simpl in H. discriminate.
  - simpl in H. destruct (Rge_dec a c) eqn:Ec.
    + specialize (IH c b t H). simpl. rewrite Ec. pose proof (run_len_pos l c). destruct (run_len c l) as [|k] eqn:E; [lia|].
      simpl in IH. exact IH.
    + simpl in *. rewrite Ec. injection H as -> ->. simpl. lra.
Qed.

Lemma sweep_length : forall fuel s w, (length s <= fuel)%nat -> length (fst (sweep fuel s w)) = length s.
Proof.
  induction fuel as [|fuel IH]; intros s w Hf; simpl; auto. destruct s as [|a l]; auto.
  destruct (pool_run _ _) as [new p] eqn:E. specialize (IH (skipn (run_len a l) (a :: l)) (skipn (run_len a l) w)).
  pose proof (run_len_pos l a). pose proof (run_len_le l a). destruct (sweep fuel _ _) as [rest p']. cbn [fst] in *.
  assert (length new = run_len a l).
  { unfold pool_run in E. assert (length (firstn (run_len a l) (a :: l)) = run_len a l) by (rewrite firstn_length; simpl; lia).
    destruct (Req_EM_T _ _); injection E as <- <-; [|rewrite repeat_length]; auto. }
  cbn [length] in *. rewrite app_length, IH by (rewrite skipn_length; cbn [length]; lia). rewrite skipn_length. cbn [length]. lia.
Qed.

Lemma last_in : forall (r : vec) d, r <> [] -> In (last r d) r.
Proof. induction r as [|a r IH]; intros d H; [congruence|]. destruct r as [|b r]; [left; auto|right]. apply IH. discriminate. Qed.
Lemma nonincreasing_equal_ends : forall r, nonincreasing r -> hd 0 r = last r 0 -> Forall (fun a => a = hd 0 r) r.
Proof.
  intros r H E. destruct r as [|a r]; auto. simpl in E |- *. constructor; auto.
  pose proof (nonincreasing_hd r a H) as U.
  destruct r as [|b r]; auto. change (last (a :: b :: r) 0) with (last (b :: r) 0) in E.
  assert (G : forall l, nonincreasing l -> l <> [] -> Forall (fun x => last l 0 <= x) l).
  { clear. induction l as [|x l IH]; intros H Hn; [congruence|]. destruct l as [|y l]; [repeat constructor; simpl; lra|].
    change (last (x :: y :: l) 0) with (last (y :: l) 0). simpl in H. destruct H as [H1 H2]. specialize (IH H2 ltac:(discriminate)).
    constructor; auto. apply Rle_trans with y; auto. exact (Forall_inv IH). }
  apply nonincreasing_tail in H. specialize (G (b :: r) H ltac:(discriminate)). rewrite <- E in G.
  rewrite Forall_forall in *. intros x Hx. specialize (U x Hx). specialize (G x Hx). lra.
Qed.

(** ** One sweep preserves the certificate *)
Lemma sweep_cert : forall fuel s w y prev prev', (length s <= fuel)%nat -> Forall (fun c => 0 < c) w ->
  cert prev 0 s w y -> cert prev' 0 (fst (sweep fuel s w)) w y.
Proof.
  induction fuel as [|fuel IH]; intros s w y prev prev' Hf Hw H.
  - destruct s; simpl in *; [|lia]. exact H.
  - destruct s as [|a l]; [exact H|]. cbn [sweep].
    set (k := run_len a l). pose proof (run_len_pos l a). pose proof (run_len_le l a). fold k in H0, H1.
    destruct (cert_length _ _ _ _ _ H) as [L1 L2]. cbn [length] in L1.
    set (r := firstn k (a :: l)). set (t := skipn k (a :: l)).
    assert (Ers : a :: l = r ++ t) by (symmetry; apply firstn_skipn).
    assert (Ew : w = firstn k w ++ skipn k w) by (symmetry; apply firstn_skipn).
    assert (Ey : y = firstn k y ++ skipn k y) by (symmetry; apply firstn_skipn).
    assert (Lr : length r = k) by (unfold r; rewrite firstn_length; simpl; lia).
    assert (Lw : length (firstn k w) = length r) by (rewrite firstn_length; lia).
    assert (Ly : length (firstn k y) = length r) by (rewrite firstn_length; lia).
    assert (Hr : r <> []) by (intros C; rewrite C in Lr; simpl in Lr; lia).
    rewrite Ers in H. rewrite Ew, Ey in H.
    assert (Hn : nonincreasing r) by apply run_nonincreasing.
    pose proof (cert_split _ _ _ _ _ _ _ _ Lw Ly H Hr) as Ht.
    assert (Z : 0 + csum r (firstn k w) (firstn k y) = 0).
    { destruct t as [|b t'] eqn:Et.
      - destruct (skipn k w), (skipn k y); simpl in Ht; try tauto.
      - destruct (skipn k w), (skipn k y); simpl in Ht; try tauto. destruct Ht as (_ & Hb & _).
        apply (Hb _ eq_refl). pose proof (run_maximal l a b t' Et) as M. fold k in M. fold r in M. intros C. lra. }
    assert (Hww : Forall (fun c => 0 < c) (firstn k w)) by (rewrite Ew in Hw; apply Forall_app in Hw; tauto).
    assert (Hwt : Forall (fun c => 0 < c) (skipn k w)) by (rewrite Ew in Hw; apply Forall_app in Hw; tauto).
    rewrite Z in Ht.
    assert (Hlt : (length t <= fuel)%nat). { unfold t. rewrite skipn_length. cbn [length] in *. lia. }
    unfold pool_run. fold r. fold t.
    destruct (Req_EM_T (hd 0 r) (last r 0)) as [E|E].
    + specialize (IH t (skipn k w) (skipn k y) (Some (last r 0)) (Some (last r 0)) Hlt Hwt Ht).
      destruct (sweep fuel t (skipn k w)) as [rest p']. cbn [fst] in *. rewrite Ew, Ey.
      apply keep_cert with (t := t) (prev := prev); auto. rewrite Z. exact IH.
    + set (m := dot r (firstn k w) / vsum (firstn k w)).
      specialize (IH t (skipn k w) (skipn k y) (Some (last r 0)) (Some m) Hlt Hwt Ht).
      destruct (sweep fuel t (skipn k w)) as [rest p']. cbn [fst] in *. rewrite Ew, Ey.
      assert (D : devsum m r (firstn k w) = 0).
      { apply devsum_mean; auto. intros C. rewrite C in Lw. simpl in Lw. destruct r; [congruence|discriminate]. }
      replace 0 with (0 + 0) by ring. apply pool_cert with (t := t) (prev := prev); auto.
      * apply all_prefix_pool; auto; lra.
      * intros. lra.
      * replace (0 + 0 + csum r (firstn k w) (firstn k y) + devsum m r (firstn k w)) with 0 by lra. exact IH.
Qed.

(** ** Termination *)
Fixpoint ndiff (x : vec) : nat :=
  match x with
  | a :: ((b :: _) as x') => ((if Req_EM_T a b then 0 else 1) + ndiff x')%nat
  | _ => 0%nat
  end.
Lemma ndiff_cons2 : forall a b x, ndiff (a :: b :: x) = ((if Req_EM_T a b then 0 else 1) + ndiff (b :: x))%nat.
Proof. reflexivity. Qed.
Lemma ndiff_app : forall r t, r <> [] -> ndiff (r ++ t) = (ndiff r + match t with [] => 0 | b :: _ => if Req_EM_T (last r 0%R) b then 0 else 1 end + ndiff t)%nat.
Proof.
  induction r as [|a r IH]; intros t H; [congruence|]. destruct r as [|a2 r].
  - destruct t as [|b t]; auto.
  - change ((a :: a2 :: r) ++ t) with (a :: a2 :: (r ++ t)). rewrite !ndiff_cons2.
    change (a2 :: r ++ t) with ((a2 :: r) ++ t). rewrite IH by discriminate.
    change (last (a :: a2 :: r) 0) with (last (a2 :: r) 0). lia.
Qed.
Lemma ndiff_repeat : forall m k, ndiff (repeat m k) = 0%nat.
Proof.
  induction k as [|k IH]; auto. simpl. destruct (repeat m k) as [|b r] eqn:E; auto. rewrite IH.
  assert (In b (repeat m k)) by (rewrite E; left; auto). apply repeat_spec in H. subst. destruct (Req_EM_T m m); auto. congruence.
Qed.
Lemma ndiff_le : forall x, (ndiff x <= length x - 1)%nat.
Proof. induction x as [|a x IH]; auto. destruct x as [|b x]; auto. rewrite ndiff_cons2. simpl length in *. destruct (Req_EM_T a b); lia. Qed.
Lemma ndiff_ends : forall r, hd 0 r <> last r 0 -> (1 <= ndiff r)%nat.
Proof.
  induction r as [|a r IH]; intros H; [simpl in H; congruence|]. destruct r as [|b r]; [simpl in H; congruence|].
  rewrite ndiff_cons2. destruct (Req_EM_T a b); [|lia]. subst. simpl. apply IH. exact H.
Qed.

Lemma sweep_measure : forall fuel s w, (length s <= fuel)%nat ->
  let '(s', p) := sweep fuel s w in
  (ndiff s' + (if p then 1 else 0) <= ndiff s)%nat /\ (p = false -> s' = s /\ nondecreasing s).
Proof.
  induction fuel as [|fuel IH]; intros s w Hf.
  - destruct s; simpl in *; [auto|lia].
  - destruct s as [|a l]; [simpl; auto|]. cbn [sweep].
    set (k := run_len a l). pose proof (run_len_pos l a). pose proof (run_len_le l a). fold k in H, H0.
    set (r := firstn k (a :: l)). set (t := skipn k (a :: l)).
    assert (Ers : a :: l = r ++ t) by (symmetry; apply firstn_skipn).
    assert (Lr : length r = k) by (unfold r; rewrite firstn_length; simpl; lia).
    assert (Hr : r <> []) by (intros C; rewrite C in Lr; simpl in Lr; lia).
    assert (Hn : nonincreasing r) by apply run_nonincreasing.
    assert (Hlt : (length t <= fuel)%nat). { unfold t. rewrite skipn_length. cbn [length] in *. lia. }
    specialize (IH t (skipn k w) Hlt). pose proof (sweep_length fuel t (skipn k w) Hlt) as Ls.
    assert (B : match t with [] => 0%nat | b :: _ => if Req_EM_T (last r 0) b then 0%nat else 1%nat end = match t with [] => 0%nat | _ => 1%nat end).
    { destruct t as [|b t'] eqn:Et; auto. pose proof (run_maximal l a b t' Et). fold k in H1. fold r in H1. destruct (Req_EM_T _ _); [lra|auto]. }
    unfold pool_run. destruct (Req_EM_T (hd 0 r) (last r 0)) as [E|E]; destruct (sweep fuel t (skipn k w)) as [rest p']; cbn [fst] in Ls.
    + destruct IH as [I1 I2]. rewrite Ers. split.
      * rewrite !ndiff_app, B by auto. cbn [orb]. destruct rest as [|b0 rest], t as [|b1 t']; simpl in Ls; try discriminate; [simpl in *; lia|].
        destruct (Req_EM_T (last r 0) b0); lia.
      * cbn [orb]. intros ->. destruct (I2 eq_refl) as [-> I3]. split; auto.
        pose proof (nonincreasing_equal_ends r Hn E) as Q.
        assert (Q' : Forall (fun x => x = last r 0) r) by (rewrite <- E; auto).
        destruct t as [|b t'] eqn:Et; [|pose proof (run_maximal l a b t' Et) as M; fold k in M; fold r in M].
        { rewrite app_nil_r. clear - Q. remember (hd 0 r) as c. clear Heqc. induction Q as [|x r Hx HQ IHQ]; simpl; auto. destruct HQ; auto. split; auto. lra. }
        { remember (last r 0) as c. clear - Q' I3 M. induction Q' as [|x r Hx HQ IHQ]; [exact I3|].
          destruct HQ as [|z r Hz HQ]; [simpl; split; [lra|exact I3]|]. change (x <= z /\ nondecreasing ((z :: r) ++ b :: t')). split; [lra|exact IHQ]. }
    + destruct IH as [I1 I2]. cbn [orb]. rewrite Ers. split; [|discriminate].
      assert (Hrep : forall m, repeat m (length r) <> []) by (intros m0 C; apply (f_equal (@length R)) in C; rewrite repeat_length, Lr in C; simpl in C; lia).
      rewrite (ndiff_app (repeat _ _)) by apply Hrep. rewrite (ndiff_app r) by auto. rewrite B, ndiff_repeat.
      pose proof (ndiff_ends r E). destruct rest as [|b0 rest], t as [|b1 t']; simpl in Ls; try discriminate; [simpl in *; destruct p'; lia|].
      destruct (Req_EM_T _ b0), p'; lia.
Qed.

Theorem iso_loop_correct : forall fuel s w y, Forall (fun c => 0 < c) w -> cert None 0 s w y -> (ndiff s < fuel)%nat ->
  exists p, iso_loop fuel s w = Some p /\ cert None 0 p w y /\ nondecreasing p.
Proof.
  induction fuel as [|fuel IH]; intros s w y Hw Hc Hf; [lia|]. cbn [iso_loop].
  pose proof (sweep_measure (length s) s w (Nat.le_refl _)) as M. pose proof (sweep_cert (length s) s w y None None (Nat.le_refl _) Hw Hc) as C.
  destruct (sweep (length s) s w) as [s' p]. cbn [fst] in C. destruct M as [M1 M2]. destruct p.
  - apply IH; auto. lia.
  - exists s'. destruct (M2 eq_refl) as [-> ?]. auto.
Qed.

Lemma cert_self : forall y w prev, length w = length y -> cert prev 0 y w y.
Proof.
  induction y as [|b y IH]; intros [|c w] prev H; simpl in *; try discriminate; auto. split; [lra|]. split; auto.
  replace (0 + c * (b - b)) with 0 by ring. apply IH. congruence.
Qed.

Theorem isotonic_regression_correct : forall y w fuel, length w = length y -> Forall (fun c => 0 < c) w -> (length y <= fuel)%nat ->
  exists p, isotonic_regression fuel y w = Some p /\ is_isotonic w y p.
Proof.
  intros y w fuel Hl Hw Hf. unfold isotonic_regression. destruct (Nat.leb (length y) 1) eqn:E.
  - exists y. split; auto. apply cert_isotonic; auto using cert_self. apply Nat.leb_le in E. destruct y as [|a [|b y]]; simpl in *; auto. lia.
  - apply Nat.leb_gt in E. destruct (iso_loop_correct fuel y w y Hw (cert_self y w None Hl)) as (p & E1 & E2 & E3).
    { pose proof (ndiff_le y). lia. }
    exists p. split; auto. apply cert_isotonic; auto.
Qed.

(** ** pav: the arrays describe a list of blocks *)
Fixpoint flatv (bs : list (R * nat)) : vec := match bs with [] => [] | (a, n) :: bs' => repeat a n ++ flatv bs' end.
Fixpoint flatl (off : nat) (bs : list (R * nat)) : list (nat * nat) :=
  match bs with [] => [] | (_, n) :: bs' => repeat (off, off + n - 1)%nat n ++ flatl (off + n) bs' end.
Fixpoint size (bs : list (R * nat)) : nat := match bs with [] => 0 | (_, n) :: bs' => n + size bs' end.
Definition sized (bs : list (R * nat)) : Prop := Forall (fun b => 1 <= snd b)%nat bs.
Fixpoint prefix_ok (a S : R) (y : vec) : Prop :=
  match y with [] => 0 <= S | b :: y' => 0 <= S /\ prefix_ok a (S + (b - a)) y' end.
Definition ysum (a : R) (y : vec) : R := vsum (map (fun b => b - a) y).
Fixpoint bcert (bs : list (R * nat)) (y : vec) : Prop :=
  match bs with
  | [] => y = []
  | (a, n) :: bs' => (n <= length y)%nat /\ prefix_ok a 0 (firstn n y) /\ ysum a (firstn n y) = 0 /\ bcert bs' (skipn n y)
  end.

Lemma flatv_length : forall bs, length (flatv bs) = size bs.
Proof. induction bs as [|[a n] bs IH]; simpl; auto. rewrite app_length, repeat_length, IH. auto. Qed.
Lemma flatl_length : forall bs off, length (flatl off bs) = size bs.
Proof. induction bs as [|[a n] bs IH]; intros; simpl; auto. rewrite app_length, repeat_length, IH. auto. Qed.
Lemma flatv_app : forall b1 b2, flatv (b1 ++ b2) = flatv b1 ++ flatv b2.
Proof. induction b1 as [|[a n] b1 IH]; intros; simpl; auto. rewrite IH, app_assoc. auto. Qed.
Lemma flatl_app : forall b1 b2 off, flatl off (b1 ++ b2) = flatl off b1 ++ flatl (off + size b1) b2.
Proof.
  induction b1 as [|[a n] b1 IH]; intros; simpl; [rewrite Nat.add_0_r; auto|]. rewrite IH, <- app_assoc. do 3 f_equal. lia.
Qed.
Lemma size_app : forall b1 b2, size (b1 ++ b2) = (size b1 + size b2)%nat.
Proof. induction b1 as [|[a n] b1 IH]; intros; simpl; auto. rewrite IH. lia. Qed.

Lemma first_viol_cons : forall a b v, first_viol (a :: b :: v) = if Rlt_dec (b - a) 0 then Some O else option_map S (first_viol (b :: v)).
Proof. reflexivity. Qed.
Lemma first_viol_repeat : forall n a t, (1 <= n)%nat ->
  first_viol (repeat a n ++ t) = match t with
    | [] => None
    | b :: _ => if Rlt_dec (b - a) 0 then Some (n - 1)%nat else option_map (fun k => (k + n)%nat) (first_viol t) end.
Proof.
  induction n as [|n IH]; intros a t H; [lia|]. destruct n as [|n].
  - simpl app. destruct t as [|b t]; auto. rewrite first_viol_cons. destruct (Rlt_dec (b - a) 0); auto. destruct (first_viol (b :: t)); simpl; auto. f_equal. lia.
  - change (repeat a (S (S n)) ++ t) with (a :: a :: (repeat a n ++ t)). rewrite first_viol_cons.
    destruct (Rlt_dec (a - a) 0); [lra|]. change (a :: repeat a n ++ t) with (repeat a (S n) ++ t).
    rewrite IH by lia. destruct t as [|b t]; auto. destruct (Rlt_dec (b - a) 0); [simpl; f_equal; lia|].
    destruct (first_viol (b :: t)); cbn [option_map]; auto; f_equal; lia.
Qed.

Lemma first_viol_some : forall bs k, sized bs -> first_viol (flatv bs) = Some k ->
  exists b1 a n1 b n2 b2, bs = b1 ++ (a, n1) :: (b, n2) :: b2 /\ b < a /\ k = (size b1 + n1 - 1)%nat.
Proof.
  induction bs as [|[a n] bs IH]; intros k Hs H; [discriminate|]. inversion Hs as [|? ? H1 H2]; subst. simpl in H1.
  cbn [flatv] in H. rewrite first_viol_repeat in H by auto. destruct (flatv bs) as [|b t] eqn:E; [discriminate|].
  destruct (Rlt_dec (b - a) 0) as [C|C].
  - injection H as <-. destruct bs as [|[b' n2] bs]; [discriminate|]. inversion H2; subst. simpl in H3.
    destruct n2 as [|n2]; [lia|]. simpl in E. injection E as -> _.
    exists [], a, n, b, (S n2), bs. split; [reflexivity|split; [lra|simpl; lia]].
  - destruct (first_viol (b :: t)) as [k'|]; simpl in H; [|discriminate]. injection H as <-.
    destruct (IH k' H2 eq_refl) as (b1 & a' & n1 & b' & n2 & b2 & -> & Hlt & ->).
    exists ((a, n) :: b1), a', n1, b', n2, b2. repeat split; auto. simpl.
    assert (1 <= n1)%nat. { unfold sized in H2. rewrite Forall_forall in H2. apply (H2 (a', n1)). apply in_or_app. right. left. auto. }
    lia.
Qed.
Lemma first_viol_none : forall v, first_viol v = None -> nondecreasing v.
Proof.
  induction v as [|a v IH]; intros H; [exact I|]. destruct v as [|b v]; [exact I|]. rewrite first_viol_cons in H.
  destruct (Rlt_dec (b - a) 0); [discriminate|]. change (a <= b /\ nondecreasing (b :: v)). split; [lra|].
  apply IH. destruct (first_viol (b :: v)); auto. discriminate.
Qed.

Lemma set_range_mid : forall A (p m q : list A) x s l, length p = s -> length m = (l + 1 - s)%nat -> (s <= l)%nat ->
  set_range s l x (p ++ m ++ q) = p ++ repeat x (length m) ++ q.
Proof.
  intros A p m q x s l Hp Hm Hsl. unfold set_range. rewrite <- Hp at 1. rewrite firstn_app, firstn_all, Nat.sub_diag. simpl. rewrite app_nil_r.
  f_equal. rewrite Hm. f_equal. rewrite app_assoc. replace (l + 1)%nat with (length (p ++ m)) by (rewrite app_length; lia).
  rewrite skipn_app, skipn_all, Nat.sub_diag. auto.
Qed.
Lemma slice_mid : forall (p m q : vec) s l, length p = s -> length m = (l + 1 - s)%nat -> slice s l (p ++ m ++ q) = m.
Proof.
  intros p m q s l Hp Hm. unfold slice. rewrite <- Hp at 2. rewrite skipn_app, skipn_all, Nat.sub_diag. simpl. rewrite <- Hm.
  rewrite firstn_app, firstn_all, Nat.sub_diag. simpl. apply app_nil_r.
Qed.
Lemma vsum_repeat : forall a n, vsum (repeat a n) = INR n * a.
Proof. induction n; [unfold vsum; simpl; lra|]. cbn [repeat]. rewrite vsum_cons, IHn, S_INR. lra. Qed.
Lemma nth_mid : forall A (p : list A) x q d, nth (length p) (p ++ x :: q) d = x.
Proof. induction p; simpl; auto. Qed.

Lemma pav_step_blocks : forall b1 a n1 b n2 b2, sized (b1 ++ (a, n1) :: (b, n2) :: b2) -> b < a ->
  let bs := b1 ++ (a, n1) :: (b, n2) :: b2 in
  first_viol (flatv bs) = Some (size b1 + n1 - 1)%nat ->
  let bs' := b1 ++ ((INR n1 * a + INR n2 * b) / INR (n1 + n2), (n1 + n2)%nat) :: b2 in
  pav_step (flatv bs) (flatl 0 bs) = Some (flatv bs', flatl 0 bs').
Proof.
  intros b1 a n1 b n2 b2 Hs Hlt bs Hv bs'. unfold pav_step. rewrite Hv.
  assert (P1 : (1 <= n1)%nat /\ (1 <= n2)%nat).
  { unfold sized in Hs. rewrite Forall_forall in Hs. split; [apply (Hs (a, n1))|apply (Hs (b, n2))]; apply in_or_app; right; simpl; auto. }
  destruct P1 as [P1 P2].
  assert (Fl : flatl 0 bs = flatl 0 b1 ++ (repeat (size b1, size b1 + n1 - 1)%nat n1 ++ repeat (size b1 + n1, size b1 + n1 + n2 - 1)%nat n2) ++ flatl (size b1 + n1 + n2) b2).
  { unfold bs. rewrite flatl_app. simpl. rewrite <- app_assoc. auto. }
  assert (Fv : flatv bs = flatv b1 ++ (repeat a n1 ++ repeat b n2) ++ flatv b2).
  { unfold bs. rewrite flatv_app. simpl. rewrite <- app_assoc. auto. }
  assert (N1 : nth (size b1 + n1 - 1) (flatl 0 bs) (0, 0)%nat = (size b1, size b1 + n1 - 1)%nat).
  { rewrite Fl, app_nth2 by (rewrite flatl_length; lia). rewrite flatl_length. rewrite app_nth1 by (rewrite app_length, !repeat_length; lia).
    rewrite app_nth1 by (rewrite repeat_length; lia). apply nth_error_nth. apply nth_error_repeat. lia. }
  assert (N2 : nth (size b1 + n1 - 1 + 1) (flatl 0 bs) (0, 0)%nat = (size b1 + n1, size b1 + n1 + n2 - 1)%nat).
  { rewrite Fl, app_nth2 by (rewrite flatl_length; lia). rewrite flatl_length. rewrite app_nth1 by (rewrite app_length, !repeat_length; lia).
    rewrite app_nth2 by (rewrite repeat_length; lia). rewrite repeat_length. apply nth_error_nth. apply nth_error_repeat. lia. }
  rewrite N1, N2. cbn [fst snd].
  assert (L : length (repeat a n1 ++ repeat b n2) = (size b1 + n1 + n2 - 1 + 1 - size b1)%nat) by (rewrite app_length, !repeat_length; lia).
  rewrite Fv. rewrite slice_mid by (auto using flatv_length). rewrite set_range_mid by (auto using flatv_length; lia).
  rewrite Fl. rewrite set_range_mid; [|apply flatl_length|rewrite app_length, !repeat_length; lia|lia].
  rewrite vsum_app, !vsum_repeat. rewrite !app_length, !repeat_length.
  replace (size b1 + n1 + n2 - 1 - size b1 + 1)%nat with (n1 + n2)%nat by lia.
  unfold bs'. rewrite flatv_app, flatl_app. simpl. rewrite Nat.add_assoc. auto.
Qed.

Lemma prefix_ok_shift : forall y a m S T, prefix_ok a S y -> 0 <= T -> 0 <= T + INR (length y) * (a - m) -> prefix_ok m (S + T) y.
Proof.
  induction y as [|b y IH]; intros a m S T H HT H2; simpl in *; [lra|]. destruct H as [H0 H1]. split; [lra|].
  replace (S + T + (b - m)) with (S + (b - a) + (T + (a - m))) by ring. apply IH with a; auto.
  - pose proof (pos_INR (length y)). change (match length y with 0%nat => 1 | Datatypes.S _ => INR (length y) + 1 end) with (INR (Datatypes.S (length y))) in H2.
    rewrite S_INR in H2. destruct (Rle_dec m a); [lra|]. nra.
  - change (match length y with 0%nat => 1 | Datatypes.S _ => INR (length y) + 1 end) with (INR (Datatypes.S (length y))) in H2. rewrite S_INR in H2. lra.
Qed.
Lemma prefix_ok_app : forall y z m S, prefix_ok m S y -> prefix_ok m (S + ysum m y) z -> prefix_ok m S (y ++ z).
Proof.
  induction y as [|b y IH]; intros z m S H1 H2; unfold ysum in *; simpl in *; [rewrite Rplus_0_r in H2; auto|].
  destruct H1. split; auto. apply IH; auto. replace (S + (b - m) + vsum (map (fun b0 => b0 - m) y)) with (S + ((b - m) + vsum (map (fun b0 => b0 - m) y))) by ring. exact H2.
Qed.
Lemma ysum_shift : forall y a m, ysum m y = ysum a y + INR (length y) * (a - m).
Proof.
  unfold ysum. induction y as [|b y IH]; intros; [unfold vsum; simpl; lra|]. cbn [map length]. rewrite !vsum_cons, S_INR, (IH a m). ring.
Qed.
Lemma ysum_app : forall y z m, ysum m (y ++ z) = ysum m y + ysum m z.
Proof. intros. unfold ysum. rewrite map_app. apply vsum_app. Qed.

Lemma bcert_tail : forall b1 X X' y, (forall z, bcert X z -> bcert X' z) -> bcert (b1 ++ X) y -> bcert (b1 ++ X') y.
Proof. induction b1 as [|[a n] b1 IH]; intros X X' y H; simpl; auto. intros (H1 & H2 & H3 & H4). repeat split; auto. apply IH with X; auto. Qed.

Lemma firstn_plus : forall A n m (y : list A), firstn (n + m) y = firstn n y ++ firstn m (skipn n y).
Proof. induction n; intros m [|b y]; simpl; auto; [destruct m; auto|]. f_equal. auto. Qed.
Lemma skipn_plus : forall A n m (y : list A), skipn (n + m) y = skipn m (skipn n y).
Proof. induction n; intros m [|b y]; simpl; auto. destruct m; auto. Qed.

Lemma bcert_merge : forall a n1 b n2 b2 z, (1 <= n1)%nat -> (1 <= n2)%nat -> b < a ->
  bcert ((a, n1) :: (b, n2) :: b2) z -> bcert (((INR n1 * a + INR n2 * b) / INR (n1 + n2), (n1 + n2)%nat) :: b2) z.
Proof.
  intros a n1 b n2 b2 z P1 P2 Hlt (H1 & H2 & H3 & H4 & H5 & H6 & H7). rewrite skipn_length in H4.
  set (m := (INR n1 * a + INR n2 * b) / INR (n1 + n2)).
  assert (I1 : 1 <= INR n1) by (apply (le_INR 1); auto). assert (I2 : 1 <= INR n2) by (apply (le_INR 1); auto).
  assert (Em : INR n1 * (a - m) = INR n2 * (m - b)). { unfold m. rewrite plus_INR. field. lra. }
  assert (Hm : b <= m <= a). { split; apply Rnot_lt_le; intros C; nra. }
  assert (L1 : length (firstn n1 z) = n1) by (rewrite firstn_length; lia).
  assert (L2 : length (firstn n2 (skipn n1 z)) = n2) by (rewrite firstn_length, skipn_length; lia).
  cbn [bcert]. rewrite firstn_plus, skipn_plus. split; [lia|]. split; [|split; auto].
  - apply prefix_ok_app.
    + replace 0 with (0 + 0) by ring. apply prefix_ok_shift with a; auto; [lra|]. rewrite L1. nra.
    + rewrite (ysum_shift _ a m), H3, L1. apply prefix_ok_shift with b; [|nra|].
      * exact (eq_ind 0 (fun s => prefix_ok b s _) H5 _ (eq_sym (Rplus_0_l 0)))  || (replace (0 + 0) with 0 by ring; exact H5) || exact H5.
      * rewrite L2. nra.
  - rewrite ysum_app, (ysum_shift _ a m), (ysum_shift (firstn n2 _) b m), H3, H6, L1, L2. nra.
Qed.

Lemma bcert_block : forall y a S t w yt prev, prefix_ok a S y -> (forall q, prev = Some q -> q <> a -> S = 0) -> y <> [] ->
  cert (Some a) (S + ysum a y) t w yt -> cert prev S (repeat a (length y) ++ t) (repeat 1 (length y) ++ w) (y ++ yt).
Proof.
  induction y as [|b y IH]; intros a S t w yt prev H Hp Hne Ht; [congruence|]. simpl in H. destruct H as [H0 H1]. simpl. split; auto. split; auto.
  unfold ysum in Ht. cbn [map] in Ht. rewrite vsum_cons in Ht. rewrite Rmult_1_l.
  destruct y as [|b2 y].
  - simpl. eapply cert_eq; [exact Ht|]. unfold vsum. simpl. lra.
  - apply IH; auto; [congruence|discriminate|]. eapply cert_eq; [exact Ht|]. unfold ysum. ring.
Qed.
Lemma bcert_cert : forall bs y prev, sized bs -> bcert bs y -> cert prev 0 (flatv bs) (repeat 1 (length y)) y.
Proof.
  induction bs as [|[a n] bs IH]; intros y prev Hs H; simpl in H.
  - subst. simpl. auto.
  - destruct H as (H1 & H2 & H3 & H4). inversion Hs; subst. simpl in H5. cbn [flatv].
    assert (L : length (firstn n y) = n) by (rewrite firstn_length; lia).
    assert (E : repeat 1 (length y) = repeat 1 (length (firstn n y)) ++ repeat 1 (length (skipn n y))).
    { rewrite <- repeat_app. f_equal. rewrite L, skipn_length. lia. }
    rewrite E. replace y with (firstn n y ++ skipn n y) at 3 by apply firstn_skipn. replace (repeat a n) with (repeat a (length (firstn n y))) by (rewrite L; auto). apply bcert_block; auto.
    + intros C. rewrite C in L. simpl in L. lia.
    + rewrite H3, Rplus_0_r. apply IH; auto.
Qed.

Lemma pav_loop_correct : forall fuel bs y, sized bs -> bcert bs y -> (length bs < fuel)%nat ->
  exists p, pav_loop fuel (flatv bs) (flatl 0 bs) = Some p /\ cert None 0 p (repeat 1 (length y)) y /\ nondecreasing p.
Proof.
  induction fuel as [|fuel IH]; intros bs y Hs Hb Hf; [lia|]. cbn [pav_loop].
  destruct (first_viol (flatv bs)) as [k|] eqn:E.
  - destruct (first_viol_some bs k Hs E) as (b1 & a & n1 & b & n2 & b2 & -> & Hlt & ->).
    rewrite pav_step_blocks by auto. apply IH.
    + unfold sized in *. rewrite Forall_app in *. destruct Hs as [S1 S2]. split; auto. inversion S2; subst. inversion H2; subst. constructor; auto. simpl in *. lia.
    + eapply bcert_tail; [|exact Hb]. intros z Hz. apply bcert_merge; auto;
      unfold sized in Hs; rewrite Forall_forall in Hs; [apply (Hs (a, n1))|apply (Hs (b, n2))]; apply in_or_app; right; simpl; auto.
    + rewrite app_length in *. simpl in *. lia.
  - unfold pav_step. rewrite E. exists (flatv bs). split; auto. split; [apply bcert_cert; auto|apply first_viol_none; auto].
Qed.

Lemma start_flat : forall y off, flatv (map (fun b => (b, 1%nat)) y) = y /\ flatl off (map (fun b => (b, 1%nat)) y) = map (fun i => (i, i)) (seq off (length y)).
Proof.
  induction y as [|b y IH]; intros off; [auto|]. simpl. destruct (IH (off + 1)%nat) as [-> ->]. split; auto.
  replace (off + 1 - 1)%nat with off by lia. replace (S off) with (off + 1)%nat by lia. auto.
Qed.
Lemma start_bcert : forall y, bcert (map (fun b => (b, 1%nat)) y) y.
Proof.
  induction y as [|b y IH]; simpl; auto. split; [lia|]. split; [|split; auto].
  - split; [lra|]. lra.
  - unfold ysum, vsum. simpl. lra.
Qed.
Theorem pav_correct : forall y fuel, (length y < fuel)%nat -> exists p, pav fuel y = Some p /\ is_isotonic (repeat 1 (length y)) y p.
Proof.
  intros y fuel Hf. unfold pav. destruct (start_flat y 0) as [E1 E2]. 
  assert (EE : pav_loop fuel y (map (fun i => (i, i)) (seq 0 (length y))) = pav_loop fuel (flatv (map (fun b => (b, 1%nat)) y)) (flatl 0 (map (fun b => (b, 1%nat)) y))) by (rewrite E1, E2; auto).
  rewrite EE. clear EE.
  destruct (pav_loop_correct fuel (map (fun b => (b, 1%nat)) y) y) as (p & E & C & N); auto using start_bcert.
  - unfold sized. apply Forall_map, Forall_forall. simpl. auto.
  - rewrite map_length. auto.
  - exists p. split; auto. apply cert_isotonic; auto. apply Forall_forall. intros x Hx. apply repeat_spec in Hx. subst. lra.
Qed.

From Coq Require Import Reals List Lra Lia Psatz Bool Permutation.
From Verif Require Import Vec Spec M_quad M_prox M_semi SpecAtom M_shift SpecBase SpecMode M_mode SpecModed SpecIso M_iso SpecSlope SpecSimplex M_slope SpecSlopeAtom
  P_quad P_pl P_prox P_feas P_semi P_conj P_shift P_iso P_gauge P_simplex.
Import ListNotations.
Local Open Scope R_scope.

(** ** Sorting *)
Lemma nondecreasing_tail : forall a x, nondecreasing (a :: x) -> nondecreasing x.
Proof. intros a [|b x] H; [exact I|]. simpl in H. tauto. Qed.
Lemma nondecreasing_hd : forall x a, nondecreasing (a :: x) -> Forall (fun b => a <= b) x.
Proof.
  induction x as [|b x IH]; intros a H; constructor; simpl in H; [tauto|]. destruct H as [H1 H2]. specialize (IH b H2).
  eapply Forall_impl; [|exact IH]. simpl. intros. lra.
Qed.
Lemma nondecreasing_cons : forall a x, Forall (fun b => a <= b) x -> nondecreasing x -> nondecreasing (a :: x).
Proof. intros a [|b x] H1 H2; [exact I|]. split; auto. exact (Forall_inv H1). Qed.
Lemma sorted_perm_eq : forall a b : vec, nondecreasing a -> nondecreasing b -> Permutation a b -> a = b.
Proof.
  induction a as [|x a IH]; intros b Ha Hb P.
  - apply Permutation_nil in P. auto.
  - destruct b as [|y b]; [apply Permutation_sym, Permutation_nil in P; discriminate|].
    assert (x = y).
    { pose proof (nondecreasing_hd _ _ Ha) as A. pose proof (nondecreasing_hd _ _ Hb) as B. rewrite Forall_forall in A, B.
      assert (x <= y). { assert (In y (x :: a)) by (eapply Permutation_in; [apply Permutation_sym; exact P|left; auto]). destruct H as [->|H]; [lra|auto]. }
      assert (y <= x). { assert (In x (y :: b)) by (eapply Permutation_in; [exact P|left; auto]). destruct H0 as [->|H0]; [lra|auto]. }
      lra. }
    subst y. f_equal. apply IH; [eapply nondecreasing_tail; eauto|eapply nondecreasing_tail; eauto|]. eapply Permutation_cons_inv; eauto.
Qed.

Lemma ins_up_perm : forall a l, Permutation (a :: l) (ins_up a l).
Proof. induction l as [|b l IH]; simpl; auto. destruct (Rle_dec a b); auto. eapply perm_trans; [apply perm_swap|]. auto. Qed.
Lemma np_sort_perm : forall x, Permutation x (np_sort x).
Proof. induction x as [|a x IH]; simpl; auto. eapply perm_trans; [|apply ins_up_perm]. auto. Qed.
Lemma ins_up_sorted : forall a l, nondecreasing l -> nondecreasing (ins_up a l).
Proof.
  induction l as [|b l IH]; intros H; [exact I|]. simpl. destruct (Rle_dec a b); [split; auto|].
  apply nondecreasing_cons; [|apply IH; eapply nondecreasing_tail; eauto].
  eapply perm_forall; [apply ins_up_perm|]. constructor; [lra|apply nondecreasing_hd; auto].
Qed.
Lemma np_sort_sorted : forall x, nondecreasing (np_sort x).
Proof. induction x; [exact I|]. simpl. apply ins_up_sorted. auto. Qed.
Lemma np_sort_unique : forall x y, nondecreasing y -> Permutation x y -> np_sort x = y.
Proof. intros. apply sorted_perm_eq; auto using np_sort_sorted. eapply perm_trans; [apply Permutation_sym, np_sort_perm|auto]. Qed.
Lemma np_sort_length : forall x, length (np_sort x) = length x.
Proof. intros. symmetry. apply Permutation_length, np_sort_perm. Qed.

Lemma decreasing_tail : forall a x, decreasing (a :: x) -> decreasing x.
Proof. intros a [|b x] H; [exact I|]. simpl in H. tauto. Qed.
Lemma decreasing_hd : forall x a, decreasing (a :: x) -> Forall (fun b => b <= a) x.
Proof.
  induction x as [|b x IH]; intros a H; constructor; simpl in H; [tauto|]. destruct H as [H1 H2]. specialize (IH b H2).
  eapply Forall_impl; [|exact IH]. simpl. intros. lra.
Qed.
Lemma decreasing_cons : forall a x, Forall (fun b => b <= a) x -> decreasing x -> decreasing (a :: x).
Proof. intros a [|b x] H1 H2; [exact I|]. split; auto. exact (Forall_inv H1). Qed.
Lemma nondecreasing_snoc : forall x a, nondecreasing x -> Forall (fun b => b <= a) x -> nondecreasing (x ++ [a]).
Proof.
  induction x as [|b x IH]; intros a H1 H2; [exact I|]. simpl. apply nondecreasing_cons.
  - apply Forall_app. split; [apply nondecreasing_hd; auto|]. constructor; auto. exact (Forall_inv H2).
  - apply IH; [eapply nondecreasing_tail; eauto|exact (Forall_inv_tail H2)].
Qed.
Lemma decreasing_snoc : forall x a, decreasing x -> Forall (fun b => a <= b) x -> decreasing (x ++ [a]).
Proof.
  induction x as [|b x IH]; intros a H1 H2; [exact I|]. simpl. apply decreasing_cons.
  - apply Forall_app. split; [apply decreasing_hd; auto|]. constructor; auto. exact (Forall_inv H2).
  - apply IH; [eapply decreasing_tail; eauto|exact (Forall_inv_tail H2)].
Qed.
Lemma rev_decreasing : forall x, decreasing x -> nondecreasing (rev x).
Proof.
  induction x as [|a x IH]; intros H; [exact I|]. simpl. apply nondecreasing_snoc; [apply IH; eapply decreasing_tail; eauto|].
  apply Forall_rev, decreasing_hd. auto.
Qed.
Lemma rev_nondecreasing : forall x, nondecreasing x -> decreasing (rev x).
Proof.
  induction x as [|a x IH]; intros H; [exact I|]. simpl. apply decreasing_snoc; [apply IH; eapply nondecreasing_tail; eauto|].
  apply Forall_rev, nondecreasing_hd. auto.
Qed.
Lemma put_down_perm : forall a l, Permutation (a :: l) (put_down a l).
Proof. induction l as [|b l IH]; simpl; auto. destruct (Rle_dec b a); auto. eapply perm_trans; [apply perm_swap|]. auto. Qed.
Lemma sort_down_perm : forall x, Permutation x (sort_down x).
Proof. induction x as [|a x IH]; simpl; auto. eapply perm_trans; [|apply put_down_perm]. auto. Qed.
Lemma put_down_sorted : forall a l, decreasing l -> decreasing (put_down a l).
Proof.
  induction l as [|b l IH]; intros H; [exact I|]. simpl. destruct (Rle_dec b a); [split; auto|].
  apply decreasing_cons; [|apply IH; eapply decreasing_tail; eauto].
  eapply perm_forall; [apply put_down_perm|]. constructor; [lra|apply decreasing_hd; auto].
Qed.
Lemma sort_down_sorted : forall x, decreasing (sort_down x).
Proof. induction x; [exact I|]. simpl. apply put_down_sorted. auto. Qed.
Lemma sort_down_length : forall x, length (sort_down x) = length x.
Proof. intros. symmetry. apply Permutation_length, sort_down_perm. Qed.
Lemma rev_sort : forall x, rev (np_sort x) = sort_down x.
Proof.
  intros x. rewrite <- (rev_involutive (sort_down x)). f_equal. apply np_sort_unique; [apply rev_decreasing, sort_down_sorted|].
  eapply perm_trans; [apply sort_down_perm|apply Permutation_rev].
Qed.
Lemma sort_down_unique : forall x y, decreasing y -> Permutation x y -> sort_down x = y.
Proof.
  intros x y Hy P. rewrite <- rev_sort. rewrite <- (rev_involutive y). f_equal. apply np_sort_unique; [apply rev_decreasing; auto|].
  eapply perm_trans; [exact P|apply Permutation_rev].
Qed.
Lemma sort_down_perm_eq : forall x y, Permutation x y -> sort_down x = sort_down y.
Proof. intros x y H. apply sort_down_unique; [apply sort_down_sorted|]. eapply perm_trans; [exact H|apply sort_down_perm]. Qed.

(** ** Dot products of sorted vectors *)
Lemma vzip_snoc : forall f (x y : vec) a b, length x = length y -> vzip f (x ++ [a]) (y ++ [b]) = vzip f x y ++ [f a b].
Proof. intros f x y a b H. pattern x, y. apply vec_ind2; auto. intros c d X Y HL IH. simpl. rewrite IH. auto. Qed.
Lemma dot_rev : forall x y : vec, length x = length y -> dot (rev x) (rev y) = dot x y.
Proof.
  intros x y H. pattern x, y. apply vec_ind2; auto. intros a b X Y HL IH. simpl rev. rewrite dot_cons.
  unfold dot, vmul in *. rewrite vzip_snoc by (rewrite !rev_length; auto). rewrite vsum_app, IH. unfold vsum. simpl. lra.
Qed.
Lemma ins_rearr : forall b B G g, length B = length G -> nondecreasing (g :: G) -> g * b + dot G B <= dot (g :: G) (ins_up b B).
Proof.
  intros b. induction B as [|c B IH]; intros [|g2 G] g HL Hn; simpl in HL; try discriminate.
  - simpl. rewrite dot_cons. lra.
  - simpl. destruct (Rle_dec b c) as [C|C]; [rewrite (dot_cons g); lra|].
    rewrite (dot_cons g). simpl in Hn. destruct Hn as [H1 H2]. specialize (IH G g2 ltac:(congruence) H2). rewrite dot_cons. nra.
Qed.
Lemma rearrangement : forall G B, length B = length G -> nondecreasing G -> dot G B <= dot G (np_sort B).
Proof.
  induction G as [|g G IH]; intros [|b B] HL Hn; simpl in HL; try discriminate; [simpl; lra|].
  simpl np_sort. rewrite dot_cons. specialize (IH B ltac:(congruence) (nondecreasing_tail _ _ Hn)).
  pose proof (ins_rearr b (np_sort B) G g ltac:(rewrite np_sort_length; congruence) Hn). lra.
Qed.
Lemma dot_perm : forall (a b x y : vec), length a = length x -> length b = length y -> Permutation (combine a x) (combine b y) -> dot a x = dot b y.
Proof.
  assert (K : forall a x : vec, length a = length x -> dot a x = fold_right (fun p s => fst p * snd p + s) 0 (combine a x)).
  { intros a x H. pattern a, x. apply vec_ind2; auto. intros u v X Y HL IH. rewrite dot_cons. simpl. rewrite IH. auto. }
  intros a b x y H1 H2 P. rewrite !K by auto. clear - P. induction P; simpl; auto; lra.
Qed.
Lemma perm_combine : forall (a b : vec), Permutation a b -> forall y : vec, length y = length b -> exists x : vec, length x = length a /\ Permutation (combine a x) (combine b y).
Proof.
  intros a b P. induction P as [|u a b P IH|u v a|a b c P1 IH1 P2 IH2]; intros y Hy.
  - exists []. auto.
  - destruct y as [|t y]; simpl in Hy; try discriminate. destruct (IH y ltac:(congruence)) as (x & L & Q). exists (t :: x). simpl. split; auto.
  - destruct y as [|t [|s y]]; simpl in Hy; try discriminate. exists (s :: t :: y). simpl. split; auto. apply perm_swap.
  - destruct (IH2 y Hy) as (x & L & Q). destruct (IH1 x L) as (z & L' & Q'). exists z. split; auto. eapply perm_trans; eauto.
Qed.
Lemma perm_combine_snd : forall (a b x y : vec), length a = length x -> length b = length y -> Permutation (combine a x) (combine b y) -> Permutation x y.
Proof.
  assert (K : forall a x : vec, length a = length x -> map snd (combine a x) = x).
  { intros a x H. pattern a, x. apply vec_ind2; auto. intros u v X Y HL IH. simpl. f_equal. auto. }
  intros a b x y H1 H2 P. rewrite <- (K a x), <- (K b y) by auto. apply Permutation_map. auto.
Qed.
Lemma rearrange_any : forall a b : vec, length a = length b -> dot a b <= dot (sort_down a) (sort_down b).
Proof.
  intros a b H. destruct (perm_combine (np_sort a) a (Permutation_sym (np_sort_perm a)) b (eq_sym H)) as (x & L & P).
  rewrite np_sort_length in L.
  rewrite <- (dot_perm (np_sort a) a x b) by (rewrite ?np_sort_length; auto).
  eapply Rle_trans; [apply rearrangement; [rewrite np_sort_length; auto|apply np_sort_sorted]|].
  rewrite <- !rev_sort. rewrite dot_rev by (rewrite !np_sort_length; congruence). right. f_equal.
  apply np_sort_unique; [apply np_sort_sorted|]. eapply perm_trans; [eapply perm_combine_snd; [| |exact P]; rewrite ?np_sort_length; auto|apply np_sort_perm].
Qed.
Lemma dot_abs_le : forall x y : vec, length x = length y -> dot x y <= dot (vabs x) (vabs y).
Proof.
  intros x y H. pattern x, y. apply vec_ind2; auto; [unfold dot; simpl; lra|]. intros a b X Y HL IH. cbn [vabs map]. rewrite !dot_cons.
  fold (vabs X) (vabs Y). rewrite <- Rabs_mult. pose proof (Rle_abs (a * b)). lra.
Qed.

(** ** gather and scatter *)
Lemma gather_length : forall x arg, length (gather x arg) = length arg.
Proof. intros. apply map_length. Qed.
Lemma upd_length : forall i v l, length (upd i v l) = length l.
Proof. intros i v l. revert i. induction l; intros [|i]; simpl; auto. Qed.
Lemma scatter_length : forall arg vals out, length (scatter arg vals out) = length out.
Proof. induction arg; intros [|v vals] out; simpl; auto. rewrite IHarg, upd_length. auto. Qed.
Lemma upd_same : forall l i v, (i < length l)%nat -> nth i (upd i v l) 0 = v.
Proof. induction l; intros [|i] v H; simpl in *; try lia; auto. apply IHl. lia. Qed.
Lemma upd_other : forall l i j v, i <> j -> nth j (upd i v l) 0 = nth j l 0.
Proof. induction l; intros [|i] [|j] v H; simpl; auto; try congruence. Qed.
Lemma scatter_notin : forall arg vals out j, ~ In j arg -> nth j (scatter arg vals out) 0 = nth j out 0.
Proof.
  induction arg as [|i arg IH]; intros [|v vals] out j H; simpl; auto. rewrite IH by (simpl in H; tauto). apply upd_other. simpl in H. intuition.
Qed.
Lemma gather_scatter : forall arg vals out, NoDup arg -> Forall (fun i => i < length out)%nat arg -> length vals = length arg ->
  gather (scatter arg vals out) arg = vals.
Proof.
  induction arg as [|i arg IH]; intros [|v vals] out Hn Hb HL; simpl in HL; try discriminate; auto.
  inversion Hn; subst. simpl. f_equal.
  - rewrite scatter_notin by auto. apply upd_same. exact (Forall_inv Hb).
  - apply (IH vals (upd i v out)); auto. rewrite upd_length. exact (Forall_inv_tail Hb).
Qed.
Lemma perm_seq_facts : forall n arg, Permutation arg (seq 0 n) -> NoDup arg /\ Forall (fun i => i < n)%nat arg /\ length arg = n.
Proof.
  intros n arg P. split; [eapply Permutation_NoDup; [apply Permutation_sym; exact P|apply seq_NoDup]|]. split.
  - apply Forall_forall. intros i Hi. eapply Permutation_in in Hi; [|exact P]. apply in_seq in Hi. lia.
  - rewrite (Permutation_length P), seq_length. auto.
Qed.
Lemma gather_seq : forall x n, length x = n -> gather x (seq 0 n) = x.
Proof.
  intros x n <-. unfold gather. induction x as [|a x IH]; auto. cbn [length seq map nth]. f_equal. rewrite <- seq_shift, map_map. exact IH.
Qed.
Lemma gather_perm : forall x n arg, length x = n -> Permutation arg (seq 0 n) -> Permutation (gather x arg) x.
Proof. intros x n arg H P. rewrite <- (gather_seq x n H) at 2. apply Permutation_map. auto. Qed.
Lemma dot_gather : forall x y n arg, length x = n -> length y = n -> Permutation arg (seq 0 n) -> dot (gather x arg) (gather y arg) = dot x y.
Proof.
  intros x y n arg Hx Hy P. rewrite <- (gather_seq x n Hx) at 2. rewrite <- (gather_seq y n Hy) at 2.
  assert (K : forall a, dot (gather x a) (gather y a) = vsum (map (fun i => nth i x 0 * nth i y 0) a)).
  { unfold gather. induction a as [|i a IH]; auto. cbn [map]. rewrite dot_cons, vsum_cons, IH. auto. }
  rewrite !K. apply vsum_perm. apply Permutation_map. auto.
Qed.
Lemma gather_map : forall (f : R -> R) x arg, f 0 = 0 -> gather (map f x) arg = map f (gather x arg).
Proof. intros f x arg H. unfold gather. rewrite map_map. apply map_ext. intros i. rewrite <- H at 1. apply map_nth. Qed.
Lemma nth_vzip : forall (f : R -> R -> R) x y i, length x = length y -> f 0 0 = 0 -> nth i (vzip f x y) 0 = f (nth i x 0) (nth i y 0).
Proof.
  intros f x y i H H0. revert i. pattern x, y. apply vec_ind2; auto; [intros [|i]; simpl; auto|].
  intros a b X Y HL IH [|i]; simpl; auto.
Qed.
Lemma gather_vzip : forall (f : R -> R -> R) x y arg, length x = length y -> f 0 0 = 0 -> gather (vzip f x y) arg = vzip f (gather x arg) (gather y arg).
Proof.
  intros f x y arg H H0. unfold gather. induction arg as [|i arg IH]; auto. cbn [map vzip]. rewrite IH, nth_vzip by auto. auto.
Qed.

(** ** The sorted problem *)
Definition clip0 (s : vec) : vec := map (fun a => Rmax a 0) s.
Lemma clip0_sorted : forall s, nondecreasing s -> nondecreasing (clip0 s).
Proof.
  induction s as [|a s IH]; intros H; [exact I|]. destruct s as [|b s]; [exact I|]. destruct H as [H1 H2].
  change (Rmax a 0 <= Rmax b 0 /\ nondecreasing (clip0 (b :: s))). split; [|exact (IH H2)].
  unfold Rmax. destruct (Rle_dec a 0), (Rle_dec b 0); lra.
Qed.
Lemma clip0_nonneg : forall s, all_nonneg (clip0 s).
Proof. intros. apply Forall_map, Forall_forall. intros. apply Rmax_r. Qed.
Lemma nondecreasing_add : forall x y, length x = length y -> nondecreasing x -> nondecreasing y -> nondecreasing (vadd x y).
Proof.
  intros x y H. unfold vadd. pattern x, y. apply vec_ind2; auto. intros a b X Y HL IH Hx Hy.
  specialize (IH (nondecreasing_tail _ _ Hx) (nondecreasing_tail _ _ Hy)).
  destruct X as [|c X], Y as [|d Y]; simpl in HL; try discriminate; [exact I|]. simpl in *. split; [lra|tauto].
Qed.
Lemma ones_mul : forall y : vec, vmul (repeat 1 (length y)) y = y.
Proof. induction y as [|b y IH]; auto. unfold vmul in *. cbn [length repeat vzip]. rewrite IH. f_equal. lra. Qed.

Section Sorted.
Variables z w s : vec.
Let e := vsub (vsub z w) s.
Hypothesis Lw : length w = length z.
Hypothesis Ls : length s = length z.
Hypothesis C : cert None 0 s (repeat 1 (length z)) (vsub z w).
Hypothesis Hs : nondecreasing s.

Lemma e_ineq : forall v, length v = length z -> nondecreasing (vadd v s) -> dot e v <= 0.
Proof.
  intros v Lv Hv. pose proof (cert_ineq s _ _ (vadd v s) None 0 C ltac:(vlen) Hv) as H.
  rewrite Rmult_0_l, Rplus_0_l in H.
  assert (E : vsub (vadd v s) s = v). { clear - Lv Ls. rewrite <- Ls in Lv. unfold vsub, vadd. pattern v, s. apply vec_ind2; auto. intros a b X Y HL IH. cbn [vzip]. rewrite IH. f_equal. lra. }
  rewrite E in H. replace (length z) with (length (vsub (vsub z w) s)) in H by vlen. rewrite ones_mul in H. exact H.
Qed.
Lemma resid_eq : vsub (vsub z (clip0 s)) w = vsub e (vsub (clip0 s) s).
Proof.
  unfold e, clip0, vsub. clear - Lw Ls. revert w s Lw Ls. induction z as [|a Z IH]; intros [|b W] [|c S] H1 H2; simpl in *; try discriminate; auto.
  f_equal; [lra|]. apply IH; congruence.
Qed.
Lemma sorted_polar : forall v, length v = length z -> nondecreasing v -> all_nonneg v -> dot (vsub z (clip0 s)) v <= dot w v.
Proof.
  intros v Lv Hv Pv. assert (length (clip0 s) = length z) by (unfold clip0; vlen).
  assert (dot (vsub (vsub z (clip0 s)) w) v <= 0).
  { rewrite resid_eq. rewrite dot_sub_l by (unfold e; vlen).
    pose proof (e_ineq v Lv ltac:(apply nondecreasing_add; auto; congruence)).
    assert (0 <= dot (vsub (clip0 s) s) v); [|lra].
    clear - Pv. unfold clip0, vsub. revert v Pv. induction s as [|a S IH]; intros [|b V] P; try (unfold dot; simpl; lra).
    specialize (IH V (Forall_inv_tail P)). pose proof (Forall_inv P) as Pb. simpl in Pb. cbn [map vzip]. rewrite dot_cons. pose proof (Rmax_l a 0).
    assert (0 <= (Rmax a 0 - a) * b) by (apply Rmult_le_pos; lra). lra. }
  rewrite dot_sub_l in H0 by vlen. lra.
Qed.
Lemma sorted_align : dot (vsub z (clip0 s)) (clip0 s) = dot w (clip0 s).
Proof.
  assert (Lc : length (clip0 s) = length z) by (unfold clip0; vlen).
  assert (E0 : dot e (clip0 s) = 0).
  { apply Rle_antisym.
    - apply e_ineq; auto. apply nondecreasing_add; auto using clip0_sorted. congruence.
    - assert (dot e (vopp (clip0 s)) <= 0).
      { apply e_ineq; [vlen|].
        assert (E : vadd (vopp (clip0 s)) s = map (fun a => Rmin a 0) s).
        { clear. unfold vadd, vopp, clip0. induction s as [|a S IH]; simpl; auto. f_equal; auto. unfold Rmax, Rmin. destruct (Rle_dec a 0); lra. }
        rewrite E. clear - Hs. revert Hs. induction s as [|a S IH]; intros Hs'; [exact I|]. destruct S as [|b S]; [exact I|]. destruct Hs' as [H1 H2].
        change (Rmin a 0 <= Rmin b 0 /\ nondecreasing (map (fun a => Rmin a 0) (b :: S))). split; [|exact (IH H2)].
        unfold Rmin. destruct (Rle_dec a 0), (Rle_dec b 0); lra. }
      rewrite dot_opp_r in H. lra. }
  assert (dot (vsub (vsub z (clip0 s)) w) (clip0 s) = 0).
  { rewrite resid_eq, dot_sub_l by (unfold e; vlen). rewrite E0.
    assert (dot (vsub (clip0 s) s) (clip0 s) = 0); [|lra].
    clear. unfold clip0, vsub. induction s as [|a S IH]; [reflexivity|]. cbn [map vzip]. rewrite dot_cons, IH. unfold Rmax. destruct (Rle_dec a 0); nra. }
  rewrite dot_sub_l in H by vlen. lra.
Qed.
End Sorted.

Lemma resid_sorted : forall z w s prev S, length w = length z -> length s = length z -> cert prev S s (repeat 1 (length z)) (vsub z w) ->
  nondecreasing s -> nondecreasing z -> nondecreasing w -> nondecreasing (vsub z (clip0 s)).
Proof.
  unfold clip0, vsub. induction z as [|a z IH]; intros [|b w] [|c s] prev S Lw Ls C Hs Hz Hw; simpl in Lw, Ls; try discriminate; auto.
  simpl in C. destruct C as (C0 & C1 & C2).
  specialize (IH w s (Some c) _ ltac:(congruence) ltac:(congruence) C2 (nondecreasing_tail _ _ Hs) (nondecreasing_tail _ _ Hz) (nondecreasing_tail _ _ Hw)).
  destruct z as [|a2 z], w as [|b2 w], s as [|c2 s]; simpl in Lw, Ls; try discriminate; [exact I|].
  simpl in Hs, Hz, Hw. change (a - Rmax c 0 <= a2 - Rmax c2 0 /\ nondecreasing (vzip Rminus (a2 :: z) (map (fun x => Rmax x 0) (c2 :: s)))). split; [|exact IH].
  destruct (Req_EM_T c c2) as [->|N]; [lra|].
  simpl in C2. destruct C2 as (D0 & D1 & D2). specialize (D1 c eq_refl N).
  assert (D3 : 0 <= S + 1 * (a - b - c) + 1 * (a2 - b2 - c2)).
  { destruct z, w, s; simpl in D2, Lw, Ls; try discriminate; try tauto; lra. }
  unfold Rmax. destruct (Rle_dec c 0), (Rle_dec c2 0); lra.
Qed.
Lemma resid_nonneg_hd : forall a z b w c s, cert None 0 (c :: s) (repeat 1 (S (length z))) (vsub (a :: z) (b :: w)) -> 0 <= a -> 0 <= b -> length w = length z -> length s = length z ->
  0 <= a - Rmax c 0.
Proof.
  intros a z b w c s C Ha Hb Lw Ls. simpl in C. destruct C as (_ & _ & C2).
  assert (0 <= 0 + 1 * (a - b - c)). { destruct z, w, s; simpl in *; try discriminate; try tauto; lra. }
  unfold Rmax. destruct (Rle_dec c 0); lra.
Qed.

Lemma resid_nonneg : forall z w s, cert None 0 s (repeat 1 (length z)) (vsub z w) -> nondecreasing (vsub z (clip0 s)) -> all_nonneg z -> all_nonneg w ->
  length w = length z -> length s = length z -> all_nonneg (vsub z (clip0 s)).
Proof.
  intros [|a z] [|b w] [|c s] Cs Gs Zn Pw Lw Ls; simpl in Lw, Ls; try discriminate; [constructor|].
  assert (H0 : 0 <= a - Rmax c 0). { eapply resid_nonneg_hd; eauto; [exact (Forall_inv Zn)|exact (Forall_inv Pw)]. }
  unfold vsub, clip0 in *. cbn [map vzip] in *. constructor; auto. pose proof (nondecreasing_hd _ _ Gs) as H. eapply Forall_impl; [|exact H]. simpl. intros. lra.
Qed.

Notation iso_ok := iso_contract (only parsing).
Lemma iso_cert : forall iso y, iso_ok iso -> exists p, iso y = Some p /\ cert None 0 p (repeat 1 (length y)) y /\ nondecreasing p.
Proof.
  intros iso y H. destruct (H y) as (p & E & (Lp & Np & Hp)). exists p. split; auto.
  destruct (pav_loop_correct (S (length y)) (map (fun b => (b, 1%nat)) y) y) as (q & Eq & Cq & Nq); auto using start_bcert.
  { unfold sized. apply Forall_map, Forall_forall. simpl. auto. }
  { rewrite map_length. auto. }
  assert (is_isotonic (repeat 1 (length y)) y q).
  { apply cert_isotonic; auto. apply Forall_forall. intros x Hx. apply repeat_spec in Hx. subst. lra. }
  destruct H0 as (Lq & _ & Hq). assert (q = p). { destruct (Hp q Lq Nq) as [H1 H2]. destruct (Hq p Lp Np) as [H3 H4]. apply H2. lra. }
  subst. auto.
Qed.
Lemma iso_py_ok : iso_ok iso_py.
Proof. intros y. apply pav_correct. lia. Qed.

(** ** The proximal map *)
Lemma sgn_mul_abs : forall a, sgn a * Rabs a = a.
Proof. exact sgn_abs. Qed.
Lemma slope_norm_rev : forall w v, length w = length v -> slope_norm w v = dot (rev w) (np_sort (vabs v)).
Proof.
  intros w v H. unfold slope_norm. rewrite <- rev_sort. rewrite <- (dot_rev w) by (rewrite rev_length, np_sort_length; vlen).
  rewrite rev_involutive. auto.
Qed.

Definition nonneg_weights (n : nat) (w : vec) : Prop := length w = n /\ all_nonneg w /\ decreasing w.

Lemma sgn_dot_le : forall X g V : vec, all_nonneg g -> length g = length X -> length V = length X -> dot (vmul g (map sgn X)) V <= dot g (vabs V).
Proof.
  induction X as [|b B IH]; intros [|a G] [|c V'] Gn LG LV; simpl in LG, LV; try discriminate; [unfold dot; simpl; lra|].
  unfold vmul, vabs in *. cbn [map vzip]. rewrite !dot_cons. specialize (IH G V' (Forall_inv_tail Gn) ltac:(congruence) ltac:(congruence)).
  pose proof (Forall_inv Gn) as A0. simpl in A0. pose proof (Rle_abs c). pose proof (Rle_abs (- c)). rewrite Rabs_Ropp in *. pose proof (Rabs_pos c).
  assert (a * sgn b * c <= a * Rabs c); [|lra]. rewrite Rmult_assoc. apply Rmult_le_compat_l; auto. unfold sgn. destruct (Rlt_dec 0 b); [|destruct (Rlt_dec b 0)]; lra.
Qed.
Lemma sgn_dot_self : forall X g q : vec, Forall (fun p => snd p = 0 -> fst p = 0) (combine q X) -> length g = length X -> length q = length X ->
  dot (vmul g (map sgn X)) (vmul q (map sgn X)) = dot g q.
Proof.
  induction X as [|b B IH]; intros [|a G] [|c Q] H LG LQ; simpl in LG, LQ; try discriminate; auto.
  unfold vmul in *. cbn [map vzip combine] in *. rewrite !dot_cons. rewrite IH; [|exact (Forall_inv_tail H)|congruence|congruence].
  pose proof (Forall_inv H) as H0. simpl in H0. unfold sgn. destruct (Rlt_dec 0 b); [lra|]. destruct (Rlt_dec b 0); [lra|]. rewrite H0 by lra. lra.
Qed.

Theorem basic_map_cert : forall n iso arg x w, iso_ok iso -> length x = n -> nonneg_weights n w -> is_argsort (vabs x) arg ->
  exists p, basic_proximal_map iso arg x w = Ok p /\ length p = n /\
    (forall v, length v = n -> dot (vsub x p) v <= slope_norm w v) /\ dot (vsub x p) p = slope_norm w p.
Proof.
  intros n iso arg x w Hiso Hx (Lw & Pw & Dw) (Pa & Sa). unfold vabs in Pa. rewrite map_length, Hx in Pa.
  destruct (perm_seq_facts n arg Pa) as (Na & Ba & La).
  set (z := gather (vabs x) arg) in *. fold (gather (vabs x) arg) in Sa. fold z in Sa.
  assert (Lz : length z = n) by (unfold z; rewrite gather_length; auto).
  assert (Ez : z = vabs (gather x arg)). { unfold z, vabs. apply gather_map. apply Rabs_R0. }
  set (w' := rev w). assert (Lw' : length w' = n) by (unfold w'; rewrite rev_length; auto).
  assert (Dw' : nondecreasing w') by (apply rev_decreasing; auto).
  assert (Pw' : all_nonneg w') by (apply Forall_rev; auto).
  destruct (iso_cert iso (vsub z w') Hiso) as (s & Es & Cs & Ns).
  assert (Lzw : length (vsub z w') = n) by vlen. rewrite Lzw in Cs. rewrite <- Lz in Cs.
  assert (Ls : length s = n). { destruct (cert_length _ _ _ _ _ Cs). congruence. }
  set (q := clip0 s). assert (Lq : length q = n) by (unfold q, clip0; vlen).
  set (g := vsub z q).
  assert (Lg : length g = n) by (unfold g; vlen).
  assert (Gs : nondecreasing g). { unfold g, q. apply (resid_sorted z w' s None 0); auto; congruence. }
  assert (Zn : all_nonneg z). { rewrite Ez. apply vabs_nonneg. }
  assert (Gn : all_nonneg g).
  { unfold g, q. apply resid_nonneg with w'; auto; congruence. }
  unfold basic_proximal_map. fold z. fold w'. rewrite Es. fold (clip0 s). fold q.
  set (P := vmul (scatter arg q (zeros (length q))) (map sgn x)).
  exists P. split; auto.
  assert (Lsc : length (scatter arg q (zeros (length q))) = n) by (rewrite scatter_length; vlen).
  assert (LP : length P = n) by (unfold P; vlen). split; auto.
  set (X := gather x arg) in *. assert (LX : length X = n) by (unfold X; rewrite gather_length; auto).
  assert (GP : gather P arg = vmul q (map sgn X)).
  { unfold P, vmul. rewrite gather_vzip by (try vlen; lra). rewrite gather_scatter; auto; [|rewrite zeros_length, Lq; auto|congruence].
    f_equal. apply gather_map. unfold sgn. destruct (Rlt_dec 0 0); [lra|auto]. }
  assert (GR : gather (vsub x P) arg = vmul g (map sgn X)).
  { unfold vsub. rewrite gather_vzip by (try vlen; lra). rewrite GP. fold X. unfold g. rewrite Ez.
    clear - LX Lq. rewrite <- LX in Lq. unfold vsub, vmul, vabs. pattern q, X. apply vec_ind2; auto.
    intros a b A B HL IH. cbn [map vzip]. rewrite IH. f_equal. pose proof (sgn_abs b). nra. }
  assert (Q0 : Forall (fun p => snd p = 0 -> fst p = 0) (combine q X)).
  { clear - Gn Ez Lq LX. unfold g in Gn. rewrite Ez in Gn. rewrite <- LX in Lq. assert (Qn : all_nonneg q) by apply clip0_nonneg.
    revert Gn Qn. pattern q, X. apply vec_ind2; [intros; constructor| |exact Lq]. intros a b A B HL IH G Qn. cbn [vabs map vsub vzip combine] in *. constructor.
    - simpl. intros ->. pose proof (Forall_inv G) as G0. pose proof (Forall_inv Qn) as Q0. simpl in G0, Q0. rewrite Rabs_R0 in G0. lra.
    - apply IH; [exact (Forall_inv_tail G)|exact (Forall_inv_tail Qn)]. }
  assert (Qabs : vabs (vmul q (map sgn X)) = q).
  { assert (Qn : all_nonneg q) by apply clip0_nonneg. clear - Q0 Qn Lq LX. rewrite <- LX in Lq. revert Q0 Qn. unfold vabs, vmul. pattern q, X. apply vec_ind2; auto.
    intros a b A B HL IH G Qn. cbn [combine map vzip] in *. rewrite IH by (exact (Forall_inv_tail G) || exact (Forall_inv_tail Qn)). f_equal.
    pose proof (Forall_inv G) as G0. pose proof (Forall_inv Qn) as Q1. simpl in G0, Q1. rewrite Rabs_mult, (Rabs_right a) by lra. unfold sgn.
    destruct (Rlt_dec 0 b); [rewrite Rabs_R1; lra|]. destruct (Rlt_dec b 0); [rewrite Rabs_left; lra|]. rewrite G0 by lra. lra. }
  assert (Spq : np_sort (vabs P) = q).
  { apply np_sort_unique; [apply clip0_sorted; auto|]. apply Permutation_sym. rewrite <- Qabs, <- GP. unfold vabs. rewrite <- gather_map by apply Rabs_R0.
    apply gather_perm with n; [vlen|auto]. }
  split.
  - intros v Lv. rewrite <- (dot_gather _ _ n arg) by (auto; vlen). rewrite GR. set (V := gather v arg).
    assert (LV : length V = n) by (unfold V; rewrite gather_length; auto).
    assert (H1 : dot (vmul g (map sgn X)) V <= dot g (vabs V)).
    { apply sgn_dot_le; auto; congruence. }
    assert (H2 : dot g (vabs V) <= dot g (np_sort (vabs V))) by (apply rearrangement; [vlen|auto]).
    assert (H3 : dot g (np_sort (vabs V)) <= dot w' (np_sort (vabs V))).
    { unfold g, q. apply sorted_polar; auto; try congruence; try (rewrite np_sort_length; vlen); [apply np_sort_sorted|].
      eapply perm_forall; [apply np_sort_perm|apply vabs_nonneg]. }
    rewrite slope_norm_rev by congruence. fold w'.
    replace (np_sort (vabs v)) with (np_sort (vabs V)); [lra|].
    apply np_sort_unique; [apply np_sort_sorted|]. eapply perm_trans; [|apply np_sort_perm]. unfold V, vabs. rewrite <- gather_map by apply Rabs_R0.
    apply gather_perm with n; [vlen|auto].
  - rewrite <- (dot_gather _ _ n arg) by (auto; vlen). rewrite GR, GP.
    rewrite slope_norm_rev by congruence. rewrite Spq. fold w'.
    assert (H1 : dot (vmul g (map sgn X)) (vmul q (map sgn X)) = dot g q).
    { apply sgn_dot_self; auto; congruence. }
    rewrite H1. unfold g, q. apply sorted_align; auto; congruence.
Qed.

(** ** The norm and its dual *)
Lemma sort_down_nonneg : forall x, all_nonneg x -> all_nonneg (sort_down x).
Proof. intros x H. eapply perm_forall; [apply sort_down_perm|auto]. Qed.
Lemma sorted_abs_nonneg : forall x, all_nonneg (sort_down (vabs x)).
Proof. intros. apply sort_down_nonneg, vabs_nonneg. Qed.
Lemma sorted_abs_length : forall x, length (sort_down (vabs x)) = length x.
Proof. intros. rewrite sort_down_length. vlen. Qed.
Lemma dot_nonneg : forall x y, all_nonneg x -> all_nonneg y -> 0 <= dot x y.
Proof.
  intros x y H. revert y. induction H as [|a x Ha Hx IH]; intros y Hy; [unfold dot; simpl; lra|]. destruct Hy as [|b y Hb Hy]; [unfold dot; simpl; lra|].
  rewrite dot_cons. specialize (IH y Hy). nra.
Qed.
Lemma slope_norm_nonneg : forall w v, all_nonneg w -> 0 <= slope_norm w v.
Proof. intros. apply dot_nonneg; auto using sorted_abs_nonneg. Qed.
Lemma decreasing_scal : forall t x, 0 <= t -> decreasing x -> decreasing (vscal t x).
Proof.
  intros t x Ht. unfold vscal. induction x as [|a x IH]; intros H; [exact I|]. destruct x as [|b x]; [exact I|]. destruct H as [H1 H2].
  change (t * b <= t * a /\ decreasing (map (Rmult t) (b :: x))). split; [nra|exact (IH H2)].
Qed.
Lemma sort_abs_scal : forall t v, 0 <= t -> sort_down (vabs (vscal t v)) = vscal t (sort_down (vabs v)).
Proof.
  intros t v Ht. apply sort_down_unique; [apply decreasing_scal; auto using sort_down_sorted|].
  replace (vabs (vscal t v)) with (vscal t (vabs v)). { apply Permutation_map, sort_down_perm. }
  unfold vabs, vscal. rewrite !map_map. apply map_ext. intros a. rewrite Rabs_mult, (Rabs_right t); lra.
Qed.
Lemma slope_norm_scal : forall w t v, 0 <= t -> slope_norm w (vscal t v) = t * slope_norm w v.
Proof. intros. unfold slope_norm. rewrite sort_abs_scal by auto. apply dot_scal_r. Qed.
Lemma slope_norm_wscal : forall c w v, slope_norm (vscal c w) v = c * slope_norm w v.
Proof. intros. unfold slope_norm. apply dot_scal_l. Qed.
Lemma sort_down_zeros : forall n, sort_down (zeros n) = zeros n.
Proof.
  intros. apply sort_down_unique; auto. unfold zeros. induction n; [exact I|]. destruct n; [exact I|]. split; [lra|exact IHn].
Qed.
Lemma vabs_zeros : forall n, vabs (zeros n) = zeros n.
Proof. intros. unfold vabs, zeros. induction n; auto. simpl. rewrite IHn, Rabs_R0. auto. Qed.

Definition slope_dualv (w u : vec) : R := vmax (vzip Rdiv (cumsum (sort_down (vabs u))) (cumsum w)).
Definition slope_dual_fun (w u : vec) : ext := Fin (slope_dualv w u).

Lemma cumsum_from_length : forall x s, length (cumsum_from s x) = length x.
Proof. induction x; intros; simpl; auto. Qed.
Lemma cumsum_length : forall x, length (cumsum x) = length x.
Proof. intros. apply cumsum_from_length. Qed.
Lemma cumsum_from_pos : forall x s, 0 <= s -> Forall (fun a => 0 < a) x -> Forall (fun a => 0 < a) (cumsum_from s x).
Proof. induction x; intros s Hs H; simpl; constructor; pose proof (Forall_inv H); simpl in *; [lra|]. apply IHx; [lra|exact (Forall_inv_tail H)]. Qed.

Fixpoint cum_le (b Sa Sw : R) (a w : vec) : Prop :=
  match a, w with x :: a', c :: w' => Sa + x <= b * (Sw + c) /\ cum_le b (Sa + x) (Sw + c) a' w' | _, _ => True end.
Lemma abel_le : forall y a w b Sa Sw, length a = length y -> length w = length y -> decreasing y -> all_nonneg y -> Sa <= b * Sw -> cum_le b Sa Sw a w ->
  Sa * hd 0 y + dot a y <= b * (Sw * hd 0 y + dot w y).
Proof.
  induction y as [|y0 y IH]; intros [|x a] [|c w] b Sa Sw La Lw Dy Py H0 HC; simpl in La, Lw; try discriminate; [unfold dot; simpl; lra|].
  destruct HC as [H1 H2]. specialize (IH a w b (Sa + x) (Sw + c) ltac:(congruence) ltac:(congruence) (decreasing_tail _ _ Dy) (Forall_inv_tail Py) H1 H2).
  rewrite !dot_cons. cbn [hd]. pose proof (Forall_inv Py) as P0. simpl in P0.
  assert (hd 0 y <= y0). { destruct y as [|y1 y]; simpl; auto. destruct Dy. auto. }
  assert ((Sa + x) * (y0 - hd 0 y) <= b * (Sw + c) * (y0 - hd 0 y)) by (apply Rmult_le_compat_r; lra). nra.
Qed.
Lemma ratio_cum_le : forall a w b Sa Sw, length a = length w -> Forall (fun c => 0 < c) w -> 0 <= Sw ->
  Forall (fun r => r <= b) (vzip Rdiv (cumsum_from Sa a) (cumsum_from Sw w)) -> cum_le b Sa Sw a w.
Proof.
  induction a as [|x a IH]; intros [|c w] b Sa Sw HL Hw HS H; simpl in HL; try discriminate; simpl; auto. cbn [cumsum_from vzip] in H.
  pose proof (Forall_inv H) as H1. pose proof (Forall_inv Hw) as H2. simpl in H1, H2. split.
  - apply Rmult_le_compat_r with (r := Sw + c) in H1; [|lra]. unfold Rdiv in H1. rewrite Rmult_assoc, Rinv_l in H1; lra.
  - apply IH; auto; [exact (Forall_inv_tail Hw)|lra|exact (Forall_inv_tail H)].
Qed.
Lemma cum_le_ratio : forall a w b Sa Sw, length a = length w -> Forall (fun c => 0 < c) w -> 0 <= Sw -> cum_le b Sa Sw a w ->
  Forall (fun r => r <= b) (vzip Rdiv (cumsum_from Sa a) (cumsum_from Sw w)).
Proof.
  induction a as [|x a IH]; intros [|c w] b Sa Sw HL Hw HS H; simpl in HL; try discriminate; simpl; constructor; simpl in H;
  pose proof (Forall_inv Hw) as H2; simpl in H2; destruct H as [H1 H3].
  - apply Rmult_le_reg_r with (Sw + c); [lra|]. unfold Rdiv. rewrite Rmult_assoc, Rinv_l; lra.
  - apply IH; auto; [exact (Forall_inv_tail Hw)|lra].
Qed.
Lemma ratio_nth : forall a w Sa Sw r, length a = length w -> In r (vzip Rdiv (cumsum_from Sa a) (cumsum_from Sw w)) ->
  exists k, (1 <= k <= length a)%nat /\ r = (Sa + vsum (firstn k a)) / (Sw + vsum (firstn k w)).
Proof.
  induction a as [|x a IH]; intros [|c w] Sa Sw r HL H; simpl in HL; try discriminate; [simpl in H; tauto|].
  cbn [cumsum_from vzip] in H. destruct H as [<-|H].
  - exists 1%nat. split; [simpl; lia|]. cbn [firstn]. rewrite !vsum_cons. unfold vsum. simpl. f_equal; ring.
  - destruct (IH w (Sa + x) (Sw + c) r ltac:(congruence) H) as (k & Hk & ->). exists (S k). split; [simpl; lia|].
    cbn [firstn]. rewrite !vsum_cons. f_equal; ring.
Qed.
Lemma dot_firstn : forall k c a, (k <= length a)%nat -> dot a (repeat c k ++ zeros (length a - k)) = c * vsum (firstn k a).
Proof.
  induction k as [|k IH]; intros c a H.
  - cbn [firstn repeat app]. rewrite dot_zeros_r. unfold vsum. simpl. lra.
  - destruct a as [|x a]; [simpl in H; lia|]. cbn [repeat app firstn]. rewrite dot_cons, vsum_cons. cbn [length Nat.sub]. rewrite IH by (simpl in H; lia). lra.
Qed.
Lemma decreasing_step : forall k c m, 0 <= c -> decreasing (repeat c k ++ zeros m).
Proof.
  induction k as [|k IH]; intros c m Hc.
  - simpl. unfold zeros. induction m; [exact I|]. destruct m; [exact I|]. split; [lra|exact IHm].
  - cbn [repeat app]. apply decreasing_cons; auto. apply Forall_app. split; apply Forall_forall; intros a Ha; apply repeat_spec in Ha; subst; lra.
Qed.
Definition sg (a : R) : R := if Rle_dec 0 a then 1 else -1.
Lemma sg_facts : forall a, a * sg a = Rabs a /\ Rabs (sg a) = 1.
Proof. intros a. unfold sg. destruct (Rle_dec 0 a); split; [rewrite Rabs_right; lra|apply Rabs_R1|rewrite Rabs_left; lra|rewrite Rabs_left; lra]. Qed.
Lemma sg_vec : forall u y, length y = length u -> all_nonneg y -> vabs (vmul (map sg u) y) = y /\ dot u (vmul (map sg u) y) = dot (vabs u) y.
Proof.
  intros u y H. revert y H. unfold vabs, vmul. induction u as [|a u IH]; intros [|b y] HL Hy; simpl in HL; try discriminate; auto.
  destruct (IH y ltac:(congruence) (Forall_inv_tail Hy)) as [E1 E2]. pose proof (Forall_inv Hy) as Hb. simpl in Hb. destruct (sg_facts a) as [S1 S2]. split.
  - cbn [map vzip]. rewrite E1. f_equal. rewrite Rabs_mult, S2, Rabs_right; lra.
  - cbn [map vzip]. rewrite !dot_cons, E2. nra.
Qed.
Lemma place : forall u s y, Permutation u s -> length y = length s -> exists y', length y' = length u /\ Permutation y' y /\ dot u y' = dot s y.
Proof.
  intros u s y P L. destruct (perm_combine u s P y L) as (x & Lx & Q). exists x. split; auto. split.
  - eapply perm_combine_snd; [| |exact Q]; auto.
  - apply dot_perm; auto.
Qed.

Lemma weights_pos_nonneg : forall w, Forall (fun a => 0 < a) w -> all_nonneg w.
Proof. intros w H. eapply Forall_impl; [|exact H]. simpl. intros; lra. Qed.
Lemma vsum_nonneg : forall x, all_nonneg x -> 0 <= vsum x.
Proof. intros x H. induction H; [unfold vsum; simpl; lra|]. rewrite vsum_cons. lra. Qed.
Lemma vsum_firstn_pos : forall k w, (1 <= k <= length w)%nat -> Forall (fun a => 0 < a) w -> 0 < vsum (firstn k w).
Proof.
  intros [|k] [|c w] Hk Hw; simpl in Hk; try lia. cbn [firstn]. rewrite vsum_cons. pose proof (Forall_inv Hw) as H. simpl in H.
  assert (0 <= vsum (firstn k w)); [|lra]. apply vsum_nonneg. apply Forall_inv_tail, weights_pos_nonneg in Hw.
  clear - Hw. revert w Hw. induction k; intros [|c w] Hw; simpl; constructor; [exact (Forall_inv Hw)|apply IHk; exact (Forall_inv_tail Hw)].
Qed.

Lemma dualv_le : forall n w u b, (1 <= n)%nat -> slope_weights n w -> length u = n ->
  (slope_dualv w u <= b <-> cum_le b 0 0 (sort_down (vabs u)) w).
Proof.
  intros n w u b Hn (Lw & Pw & Dw) Hu. unfold slope_dualv, cumsum.
  assert (La : length (sort_down (vabs u)) = length w) by (rewrite sorted_abs_length; congruence).
  assert (Hne : vzip Rdiv (cumsum_from 0 (sort_down (vabs u))) (cumsum_from 0 w) <> []).
  { intros E. apply (f_equal (@length R)) in E. rewrite vzip_length, cumsum_from_length in E by (rewrite !cumsum_from_length; auto). simpl in E. lia. }
  split; intros H.
  - apply ratio_cum_le; auto; [lra|]. eapply Forall_impl; [|apply vmax_ge]. simpl. intros a Ha. lra.
  - apply vmax_le; auto. apply cum_le_ratio; auto. lra.
Qed.

Theorem slope_polar : forall n w, (1 <= n)%nat -> slope_weights n w -> polar_pair n (slope_fun w) (slope_dual_fun w).
Proof.
  intros n w Hn HW. pose proof HW as (Lw & Pw & Dw). constructor.
  - constructor; unfold slope_fun.
    + intros x r Lx E. injection E as <-. apply slope_norm_nonneg, weights_pos_nonneg; auto.
    + intros t x r Lx Ht E. injection E as <-. f_equal. apply slope_norm_scal; auto.
    + f_equal. unfold slope_norm. rewrite vabs_zeros, sort_down_zeros. apply dot_zeros_r.
  - constructor; unfold slope_dual_fun.
    + intros x r Lx E. injection E as <-. destruct (Rle_dec 0 (slope_dualv w x)) as [|C]; auto. exfalso.
      destruct (dualv_le n w x (slope_dualv w x) Hn HW Lx) as [H _]. specialize (H (Rle_refl _)).
      pose proof (sorted_abs_nonneg x) as S. pose proof (sorted_abs_length x) as SL.
      destruct (sort_down (vabs x)) as [|a s]; [simpl in SL; lia|]. destruct w as [|c w']; [simpl in Lw; lia|].
      simpl in H. pose proof (Forall_inv S). pose proof (Forall_inv Pw). simpl in *. nra.
    + intros t x r Lx Ht E. injection E as <-. f_equal. unfold slope_dualv. rewrite sort_abs_scal by auto.
      assert (E : forall l s, cumsum_from (t * s) (vscal t l) = vscal t (cumsum_from s l)).
      { unfold vscal. induction l as [|a l IH]; intros s; simpl; auto. replace (t * s + t * a) with (t * (s + a)) by ring. f_equal. auto. }
      specialize (E (sort_down (vabs x)) 0). rewrite Rmult_0_r in E. unfold cumsum. rewrite E.
      assert (Z : forall p q, vzip Rdiv (vscal t p) q = vscal t (vzip Rdiv p q)).
      { unfold vscal. induction p as [|a p IH]; intros [|b q]; simpl; auto. f_equal; auto. unfold Rdiv. ring. }
      rewrite Z.
      assert (V : forall l, vmax (vscal t l) = t * vmax l).
      { intros [|a l]; [simpl; lra|]. unfold vscal. simpl. induction l as [|b l IHl]; simpl; auto. rewrite IHl. apply RmaxRmult. auto. }
      apply V.
    + f_equal. unfold slope_dualv. rewrite vabs_zeros, sort_down_zeros.
      assert (E : forall m l, vzip Rdiv (cumsum_from 0 (zeros m)) l = zeros (Nat.min m (length l))).
      { unfold zeros. induction m; intros [|b l]; simpl; auto. rewrite Rplus_0_r. f_equal; auto. unfold Rdiv. ring. }
      unfold cumsum. rewrite E, cumsum_from_length. unfold zeros. rewrite Lw, Nat.min_id. apply (vmax_const n 0 Hn).
  - intros x u r s Lx Lu Ex Eu. injection Ex as <-. injection Eu as <-.
    eapply Rle_trans; [apply dot_abs_le; congruence|]. eapply Rle_trans; [apply rearrange_any; vlen|].
    pose proof (abel_le (sort_down (vabs x)) (sort_down (vabs u)) w (slope_dualv w u) 0 0) as A. rewrite !Rmult_0_l, !Rplus_0_l in A.
    unfold slope_norm. rewrite (Rmult_comm (dot w _)). apply A; auto using sort_down_sorted, sorted_abs_nonneg.
    + rewrite !sorted_abs_length. congruence.
    + rewrite sorted_abs_length. congruence.
    + lra.
    + apply (dualv_le n w u (slope_dualv w u)); auto. lra.
  - intros u Lu. unfold slope_dual_fun. unfold slope_dualv.
    assert (La : length (sort_down (vabs u)) = length w) by (rewrite sorted_abs_length; congruence).
    set (rr := vzip Rdiv (cumsum (sort_down (vabs u))) (cumsum w)).
    assert (Hne : rr <> []).
    { intros E. apply (f_equal (@length R)) in E. unfold rr in E. rewrite vzip_length, cumsum_length in E by (rewrite !cumsum_length; auto). simpl in E. lia. }
    destruct (ratio_nth _ _ 0 0 (vmax rr) La (vmax_in rr Hne)) as (k & Hk & Ek). rewrite !Rplus_0_l in Ek.
    pose proof (vsum_firstn_pos k w ltac:(lia) Pw) as HW0. set (W := vsum (firstn k w)) in *.
    set (y := repeat (/ W) k ++ zeros (length w - k)).
    assert (Iw : 0 < / W) by (apply Rinv_0_lt_compat; auto).
    assert (Ly : length y = length w) by (unfold y; rewrite app_length, repeat_length, zeros_length; lia).
    destruct (place (vabs u) (sort_down (vabs u)) y (sort_down_perm _) ltac:(congruence)) as (y' & Ly' & Py & Dy).
    assert (Yn : all_nonneg y').
    { eapply perm_forall; [apply Permutation_sym; exact Py|]. apply Forall_app. split; apply Forall_forall; intros a Ha; apply repeat_spec in Ha; subst; lra. }
    assert (Lyu : length y' = length u) by (rewrite Ly'; vlen).
    destruct (sg_vec u y' Lyu Yn) as [A1 A2].
    exists (vmul (map sg u) y'), (slope_norm w (vmul (map sg u) y')). split; [vlen|]. split; [reflexivity|]. split.
    + unfold slope_norm. rewrite A1. rewrite (sort_down_unique y' y); [|apply decreasing_step; lra|auto].
      unfold y. rewrite dot_firstn by lia. fold W. right. field. lra.
    + rewrite A2, Dy, Ek. unfold y. rewrite <- La. rewrite dot_firstn by lia. unfold Rdiv. ring.
Qed.

Theorem slope_polar_sym : forall n w, (1 <= n)%nat -> slope_weights n w -> polar_pair n (slope_dual_fun w) (slope_fun w).
Proof.
  intros n w Hn HW. apply polar_swap; [apply slope_polar; auto|]. pose proof HW as (Lw & Pw & Dw). intros x Lx. unfold slope_fun.
  destruct (place (vabs x) (sort_down (vabs x)) w (sort_down_perm _) ltac:(rewrite sorted_abs_length; congruence)) as (y & Ly & Py & Dy).
  assert (Yn : all_nonneg y) by (eapply perm_forall; [apply Permutation_sym; exact Py|apply weights_pos_nonneg; auto]).
  assert (Lyu : length y = length x) by (rewrite Ly; vlen).
  destruct (sg_vec x y Lyu Yn) as [A1 A2].
  exists (vmul (map sg x) y), (slope_dualv w (vmul (map sg x) y)). split; [vlen|]. split; [reflexivity|]. split.
  - apply (dualv_le n); auto; [vlen|]. rewrite A1. rewrite (sort_down_unique y w) by auto.
    clear - Pw. assert (H : forall S w, cum_le 1 S S w w). { intros S w'. revert S. induction w'; simpl; auto. intros. split; [lra|auto]. } apply H.
  - rewrite A2, Dy. apply dot_comm.
Qed.

(** ** Methods *)
Lemma weights_scal : forall n w c, slope_weights n w -> 0 <= c -> nonneg_weights n (vscal c w).
Proof.
  intros n w c (Lw & Pw & Dw) Hc. split; [vlen|]. split; [|apply decreasing_scal; auto].
  unfold vscal. apply Forall_map. eapply Forall_impl; [|exact Pw]. simpl. intros. nra.
Qed.
Theorem slope_lprox_correct : forall n iso argsort w x L lam, iso_contract iso -> argsort_contract argsort -> slope_weights n w -> length x = n ->
  0 < L -> 0 <= lam -> exists p, slope_lagrange_prox iso argsort SSlope w x L lam = Ok p /\
    is_unique_argmin n (prox_objective L x (gmode (slope_fun w) (Lagrange lam))) p.
Proof.
  intros n iso argsort w x L lam Hi Ha HW Hx HL Hl. unfold slope_lagrange_prox.
  assert (Hc : 0 <= lam / L) by (apply Rmult_le_pos; [auto|left; apply Rinv_0_lt_compat; auto]).
  replace (map (fun w0 => w0 * lam / L) w) with (vscal (lam / L) w).
  2:{ unfold vscal. apply map_ext. intros a. unfold Rdiv. ring. }
  destruct (basic_map_cert n iso (argsort (vabs x)) x (vscal (lam / L) w) Hi Hx (weights_scal _ _ _ HW Hc) (Ha _)) as (p & E & Lp & H1 & H2).
  exists p. split; auto. apply gauge_prox_cert with (r := slope_norm w p); auto.
  - intros v s Lv Es. injection Es as <-. rewrite <- slope_norm_wscal. auto.
  - rewrite <- slope_norm_wscal. auto.
Qed.
Theorem slope_bprox_correct : forall n iso argsort w h' x b, iso_contract iso -> argsort_contract argsort -> slope_weights n w -> length x = n ->
  polar_pair n (slope_fun w) h' ->
  0 <= b -> exists p, slope_bound_prox iso argsort SSlopeConj w x b = Ok p /\ is_proj n (gball h' b) x p.
Proof.
  intros n iso argsort w h' x b Hi Ha HW Hx P Hb. unfold slope_bound_prox.
  replace (map (fun w0 => w0 * b) w) with (vscal b w) by (unfold vscal; apply map_ext; intros; ring).
  destruct (basic_map_cert n iso (argsort (vabs x)) x (vscal b w) Hi Hx (weights_scal _ _ _ HW Hb) (Ha _)) as (p & E & Lp & H1 & H2).
  rewrite E. exists (vsub x p). split; auto. apply gauge_moreau with (h := slope_fun w) (r := slope_norm w p); auto.
  - intros v s Lv Es. injection Es as <-. rewrite <- slope_norm_wscal. auto.
  - rewrite <- slope_norm_wscal. auto.
Qed.

(** the dual norm, whatever function computes it *)
Lemma dual_unique : forall n w u d, (1 <= n)%nat -> slope_weights n w -> length u = n -> is_slope_dual n w u d -> d = slope_dualv w u.
Proof.
  intros n w u d Hn HW Hu [D1 (v & Lv & D2 & D3)]. pose proof (slope_polar n w Hn HW) as P. apply Rle_antisym.
  - rewrite <- D3. pose proof (po_holder _ _ _ P v u _ _ Lv Hu eq_refl eq_refl) as H.
    pose proof (ga_nonneg _ _ (po_gauge' _ _ _ P) u _ Hu eq_refl). nra.
  - pose proof (po_attain _ _ _ P u Hu) as (x & r & Lx & Er & Hr & <-). apply D1; auto. injection Er as <-. auto.
Qed.
Lemma dualv_is_dual : forall n w u, (1 <= n)%nat -> slope_weights n w -> length u = n -> is_slope_dual n w u (slope_dualv w u).
Proof.
  intros n w u Hn HW Hu. pose proof (slope_polar n w Hn HW) as P. split.
  - intros v Lv Hv. pose proof (po_holder _ _ _ P v u _ _ Lv Hu eq_refl eq_refl) as H.
    pose proof (ga_nonneg _ _ (po_gauge' _ _ _ P) u _ Hu eq_refl). nra.
  - pose proof (po_attain _ _ _ P u Hu) as (x & r & Lx & Er & Hr & E). exists x. split; auto. injection Er as <-. auto.
Qed.
Lemma polar_ext : forall n h h' k k', (forall x, length x = n -> h x = k x) -> (forall x, length x = n -> h' x = k' x) -> polar_pair n h h' -> polar_pair n k k'.
Proof.
  intros n h h' k k' E E' [[A1 A2 A3] [B1 B2 B3] Ho At].
  assert (SL : forall t x, length x = n -> length (vscal t x) = n) by (intros; vlen).
  constructor; [constructor|constructor| |].
  - intros x r Lx. rewrite <- E by auto. eauto.
  - intros t x r Lx Ht. rewrite <- !E by auto. auto.
  - rewrite <- E by (apply zeros_length). auto.
  - intros x r Lx. rewrite <- E' by auto. eauto.
  - intros t x r Lx Ht. rewrite <- !E' by auto. auto.
  - rewrite <- E' by (apply zeros_length). auto.
  - intros x u r s Lx Lu. rewrite <- E, <- E' by auto. auto.
  - intros u Lu. rewrite <- E' by auto. specialize (At u Lu). destruct (h' u).
    + destruct At as (x & r' & Lx & Ex & Ha & Hb). exists x, r'. rewrite <- E by auto. auto.
    + destruct At as (x & Lx & Ex & Ha). exists x. rewrite <- E by auto. auto.
Qed.
Lemma slope_polar_d : forall c n w d, (1 <= n)%nat -> slope_weights n w -> dual_of n w d -> polar_pair n (slope_sfun c w d) (slope_sfun (slope_pair c) w d).
Proof.
  intros c n w d Hn HW Hd. destruct c; simpl.
  - apply (polar_ext n (slope_fun w) (slope_dual_fun w)); auto using slope_polar. intros x Lx. unfold slope_dual_fun. f_equal. symmetry. apply (dual_unique n); auto.
  - apply (polar_ext n (slope_dual_fun w) (slope_fun w)); auto using slope_polar_sym. intros x Lx. unfold slope_dual_fun. f_equal. symmetry. apply (dual_unique n); auto.
Qed.

(** values *)
Lemma slope_seminorm_correct : forall c n w d x lam, (1 <= n)%nat -> slope_weights n w -> dual_of n w d -> length x = n ->
  rmap Fin (slope_seminorm c w x lam) = Ok (ext_scale lam (slope_sfun c w d x)).
Proof.
  intros c n w d x lam Hn HW Hd Hx. pose proof HW as (Lw & Pw & Dw). unfold slope_seminorm. rewrite rev_sort. destruct c; simpl.
  - do 3 f_equal. unfold slope_norm.
    pose proof (sorted_abs_nonneg x) as S. apply weights_pos_nonneg in Pw. clear - S Pw. revert w Pw. induction S as [|a s Ha Hs IH]; intros w Pw.
    + unfold dot, vmul. destruct w; auto.
    + destruct Pw as [|b w Hb Pw]; auto. rewrite dot_cons. unfold vmul, vabs in *. cbn [vzip map]. rewrite vsum_cons, IH by auto. rewrite Rabs_right; [ring|]. nra.
  - set (rr := vzip Rdiv (cumsum (sort_down (vabs x))) (cumsum w)).
    assert (Lrr : length rr = n). { unfold rr. rewrite vzip_length, cumsum_length by (rewrite !cumsum_length, sorted_abs_length; congruence). rewrite sorted_abs_length; auto. }
    assert (Hne : rr <> []) by (intros E; rewrite E in Lrr; simpl in Lrr; lia).
    assert (E : vabs rr = rr).
    { unfold rr, cumsum. pose proof (sorted_abs_nonneg x) as S. clear - S Pw.
      assert (K : forall s w Sa Sw, 0 <= Sa -> 0 <= Sw -> all_nonneg s -> Forall (fun a => 0 < a) w ->
        vabs (vzip Rdiv (cumsum_from Sa s) (cumsum_from Sw w)) = vzip Rdiv (cumsum_from Sa s) (cumsum_from Sw w)).
      { unfold vabs. induction s as [|a s IH]; intros [|b w'] Sa Sw H1 H2 H3 H4; auto. cbn [cumsum_from vzip map]. pose proof (Forall_inv H3). pose proof (Forall_inv H4). simpl in *.
        rewrite IH; [|lra|lra|exact (Forall_inv_tail H3)|exact (Forall_inv_tail H4)]. f_equal. apply Rabs_right.
        apply Rle_ge. apply Rmult_le_pos; [lra|left; apply Rinv_0_lt_compat; lra]. }
      apply K; auto; lra. }
    rewrite E, np_max_vmax by auto. simpl. do 3 f_equal. symmetry. rewrite (dual_unique n w x (d x)); auto.
Qed.
Lemma seminorm_val : forall c n w d x lam, (1 <= n)%nat -> slope_weights n w -> dual_of n w d -> length x = n ->
  exists r, slope_sfun c w d x = Fin r /\ slope_seminorm c w x lam = Ok (lam * r).
Proof.
  intros c n w d x lam Hn HW Hd Hx. pose proof (slope_seminorm_correct c n w d x lam Hn HW Hd Hx) as H.
  assert (exists r, slope_sfun c w d x = Fin r) as (r & E) by (destruct c; simpl; eexists; reflexivity).
  exists r. split; auto. rewrite E in H. destruct (slope_seminorm c w x lam); simpl in H; [|discriminate]. injection H as ->. auto.
Qed.
Lemma slope_feasibility : forall c n w d x b, (1 <= n)%nat -> slope_weights n w -> dual_of n w d -> length x = n -> 0 <= b ->
  (gball (slope_sfun c w d) b x -> slope_constraint c w x b = Ok (Fin 0)) /\
  (slope_constraint c w x b = Ok (Fin 0) -> gball (slope_sfun c w d) (b * (1 + / 10 ^ 5)) x) /\
  (slope_constraint c w x b = Ok (Fin 0) \/ slope_constraint c w x b = Ok PInf).
Proof.
  intros c n w d x b Hn HW Hd Hx Hb. unfold slope_constraint, gball. destruct (seminorm_val c n w d x 1 Hn HW Hd Hx) as (r & Er & Ev). rewrite Er, Ev.
  change (/ 10 ^ 5) with tol. pose proof tol_pos. cbn [rmap rbind ext_le].
  assert (0 <= b * tol) by nra. destruct (Rle_dec (1 * r) (b * (1 + tol))); (split; [|split]); intros; auto; try discriminate; try (exfalso; lra); lra.
Qed.

(** ** Objects *)

Lemma nondec_opp : forall w, decreasing w -> nondecreasing (vopp w).
Proof.
  unfold vopp, vscal. induction w as [|a w IH]; intros H; [exact I|]. destruct w as [|b w]; [exact I|]. destruct H as [H1 H2]. specialize (IH H2).
  split; [lra|exact IH].
Qed.
Lemma slope_check_ok : forall n w, slope_weights n w -> slope_check w = Ok tt.
Proof.
  intros n w (Lw & Pw & Dw). unfold slope_check. rewrite (np_sort_unique (vopp w) (vopp w)) by auto using nondec_opp, Permutation_refl.
  assert (A : forall v, allclose v v = true).
  { unfold allclose. induction v as [|a v IH]; auto. cbn [combine map forallb]. rewrite IH. cbn [fst snd]. destruct (Rle_dec _ _) as [|C]; auto. exfalso. apply C.
    rewrite Rminus_eq_0, Rabs_R0. assert (0 < / 10 ^ 8) by (apply Rinv_0_lt_compat; lra). assert (0 < / 10 ^ 5) by (apply Rinv_0_lt_compat; lra). pose proof (Rabs_pos a). nra. }
  rewrite A. replace (forallb _ w) with true; auto. symmetry. apply forallb_forall. intros a Ha. rewrite Forall_forall in Pw. specialize (Pw a Ha). simpl in Pw. destruct (Rlt_dec 0 a); auto; lra.
Qed.
Theorem new_slope_ok : forall c n w m o q, slope_weights n w -> mode_ok m ->
  new_slope c w (lag_of m) (bnd_of m) o q = Ok (mk_slope c w (mk_moded (lag_of m) (bnd_of m) (new_base n o q))).
Proof. intros c n w m o q HW Hm. unfold new_slope. rewrite (slope_check_ok n) by auto. simpl. destruct HW as (-> & _). rewrite new_moded_ok by auto. auto. Qed.

Theorem slope_proximal_correct : forall n iso argsort d a m p, iso_contract iso -> argsort_contract argsort -> slope_wf n a m -> dual_of n (s_weights a) d ->
  s_class a = SSlope /\ (exists lam, m = Lagrange lam) \/ s_class a = SSlopeConj /\ (exists b, m = Bound b) ->
  q_shape n p -> 0 < coef (b_quadratic (m_base (s_moded a))) + coef p -> some_array (m_base (s_moded a)) p ->
  exists v, slope_proximal iso argsort a (AQuad p) = Ok v /\ prox_spec n (gmode (slope_sfun (s_class a) (s_weights a) d) m) (m_base (s_moded a)) p v.
Proof.
  intros n iso argsort d a m p Hi Ha (Hn & HW & Hwf) Hd Hc Hp HL Hv. unfold slope_proximal. apply moded_proximal_correct; auto.
  pose proof Hwf as (_ & _ & Hm & _). intros x L Hx HLp. destruct Hc as [[-> [lam ->]]|[-> [b ->]]]; simpl in Hm.
  - apply slope_lprox_correct; auto.
  - apply slope_bprox_correct; auto. apply (slope_polar_d SSlope); auto.
Qed.
Theorem slope_conjugate_correct : forall n d a m, slope_wf n a m -> dual_of n (s_weights a) d -> coef (b_quadratic (m_base (s_moded a))) = 0 ->
  exists e, slope_conjugate a = Ok e /\ s_class e = slope_pair (s_class a) /\ s_weights e = s_weights a /\ slope_wf n e (dual_mode m) /\
    (forall u, length u = n -> is_fenchel n (moded_doc n (slope_sfun (s_class a) (s_weights a) d) (s_moded a) m) u
                                             (moded_doc n (slope_sfun (s_class e) (s_weights e) d) (s_moded e) (dual_mode m) u)) /\
    exists f, slope_conjugate e = Ok f /\ s_class f = s_class a /\ slope_wf n f m /\
      forall v, length v = n -> moded_doc n (slope_sfun (s_class f) (s_weights f) d) (s_moded f) m v = moded_doc n (slope_sfun (s_class a) (s_weights a) d) (s_moded a) m v.
Proof.
  intros n d a m (Hn & HW & Hwf) Hd Hc.
  destruct (moded_conjugate_correct n _ _ _ _ Hwf Hc (slope_polar_d (s_class a) n _ d Hn HW Hd)) as (e & E1 & E2 & E3 & f & F1 & F2 & F3).
  exists (mk_slope (slope_pair (s_class a)) (s_weights a) e). unfold slope_conjugate. rewrite E1, (slope_check_ok n) by auto. simpl.
  split; [reflexivity|]. split; [reflexivity|]. split; [reflexivity|]. split; [split; [auto|split; auto]|]. split; [exact E3|].
  exists (mk_slope (slope_pair (slope_pair (s_class a))) (s_weights a) f). cbn [s_moded s_class s_weights]. rewrite F1, (slope_check_ok n) by auto. simpl.
  assert (PP : slope_pair (slope_pair (s_class a)) = s_class a) by (destruct (s_class a); auto). rewrite PP.
  split; [reflexivity|]. split; [reflexivity|]. split; [split; [auto|split; auto]|]. exact F3.
Qed.
Theorem slope_lagrange_value : forall n d a lam x chk, slope_wf n a (Lagrange lam) -> dual_of n (s_weights a) d -> length x = n ->
  slope_objective a x chk = Ok (moded_doc n (slope_sfun (s_class a) (s_weights a) d) (s_moded a) (Lagrange lam) x).
Proof.
  intros n d a lam x chk (Hn & HW & Hwf) Hd Hx. unfold slope_objective. apply moded_objective_correct; auto.
  intros y Hy. apply (slope_seminorm_correct _ n); auto.
Qed.

Lemma dual_exists : forall n w, (1 <= n)%nat -> slope_weights n w -> exists d, dual_of n w d.
Proof. intros n w Hn HW. exists (slope_dualv w). intros u Hu. apply dualv_is_dual; auto. Qed.
Lemma slope_not_implemented : forall iso argsort w x b L lam,
  slope_bound_prox iso argsort SSlope w x b = Err NotImplementedError /\ slope_lagrange_prox iso argsort SSlopeConj w x L lam = Err NotImplementedError.
Proof. auto. Qed.
Lemma slope_check_leaks : exists w, ~ decreasing w /\ slope_check w = Ok tt.
Proof.
  set (e := / 10 ^ 9). assert (He : 0 < e < / 10 ^ 8) by (unfold e; split; [apply Rinv_0_lt_compat; lra|apply Rinv_lt_contravar; lra]).
  assert (T5 : 0 < / 10 ^ 5) by (apply Rinv_0_lt_compat; lra).
  exists [e; 2 * e]. split; [simpl; lra|]. unfold slope_check, allclose.
  rewrite (np_sort_unique (vopp [e; 2 * e]) (vopp [2 * e; e])); [|simpl; lra|simpl; apply perm_swap].
  unfold vopp. cbn [map combine forallb fst snd].
  destruct (Rle_dec _ _) as [_|C]. 2:{ exfalso. apply C. rewrite Rabs_right by lra. pose proof (Rabs_pos (- (2 * e))). nra. }
  destruct (Rle_dec _ _) as [_|C]. 2:{ exfalso. apply C. rewrite Rabs_left by lra. pose proof (Rabs_pos (- e)). nra. }
  cbn [andb]. destruct (Rlt_dec 0 e); [|lra]. destruct (Rlt_dec 0 (2 * e)); [|lra]. auto.
Qed.

Lemma sort_opp : forall w, np_sort (vopp w) = vopp (sort_down w).
Proof. intros. apply np_sort_unique; [apply nondec_opp, sort_down_sorted|]. unfold vopp. apply Permutation_map, sort_down_perm. Qed.
Lemma slope_check_accepts : forall w, slope_check w = Ok tt ->
  Forall (fun a => 0 < a) w /\ (forall i, (i < length w)%nat -> Rabs (nth i w 0 - nth i (sort_down w) 0) <= / 10 ^ 8 + / 10 ^ 5 * nth i (sort_down w) 0).
Proof.
  intros w H. unfold slope_check in H. destruct (allclose _ _) eqn:A; [|discriminate]. destruct (forallb _ w) eqn:B; [|discriminate].
  assert (P : Forall (fun a => 0 < a) w).
  { rewrite forallb_forall in B. apply Forall_forall. intros a Ha. specialize (B a Ha). destruct (Rlt_dec 0 a); auto. discriminate. }
  split; auto. rewrite sort_opp in A.
  assert (Q : Forall (fun a => 0 < a) (sort_down w)) by (eapply perm_forall; [apply sort_down_perm|auto]).
  pose proof (sort_down_length w) as L. revert A Q L. generalize (sort_down w) as s. unfold allclose, vopp. clear. induction w as [|a w IH]; intros [|b s] A Q L i Hi; simpl in L, Hi; try lia.
  cbn [map combine forallb fst snd] in A. apply andb_prop in A. destruct A as [A1 A2]. destruct i as [|i]; cbn [nth].
  - destruct (Rle_dec _ _) as [C|]; [|discriminate]. pose proof (Forall_inv Q) as Qb. cbv beta in Qb. rewrite (Rabs_Ropp b), (Rabs_right b) in C by lra.
    rewrite <- Rabs_Ropp. replace (- (a - b)) with (- a - - b) by ring. auto.
  - apply IH; [exact A2|exact (Forall_inv_tail Q)|lia|lia].
Qed.

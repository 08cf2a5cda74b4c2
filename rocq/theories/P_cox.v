(** The cumulative sums of the Cox kernels. *)
From Coq Require Import Reals List Lra Lia Arith Bool Permutation.
From Verif Require Import M_affine P_affine M_buffer Vec Spec M_quad M_loss SpecLoss P_quad P_sep P_cv M_cox SpecCox.
Import ListNotations.
Local Open Scope R_scope.

(** ** Ranks and sorted orders *)
Lemma filter_perm_length : forall {A} (p : A -> bool) l l', Permutation l l' -> length (filter p l) = length (filter p l').
Proof. intros A p l l' P. induction P; cbn; auto; try destruct (p x); try destruct (p y); cbn; auto; congruence. Qed.
Lemma filter_map_length : forall {A B} (f : A -> B) p l, length (filter p (map f l)) = length (filter (fun a => p (f a)) l).
Proof. intros A B f p l. induction l as [|a r IH]; cbn; auto. destruct (p (f a)); cbn; auto. Qed.
Lemma filter_length_le : forall {A} (p : A -> bool) l, (length (filter p l) <= length l)%nat.
Proof. intros A p l. induction l as [|a r IH]; cbn; auto. destruct (p a); cbn; lia. Qed.
(** a mask on positions that once false stays false is the mask of a prefix *)
Lemma prefix_count : forall n (p : nat -> bool), (forall a b, (a <= b < n)%nat -> p b = true -> p a = true) ->
  forall k, (k < n)%nat -> (p k = true <-> (k < length (filter p (seq 0 n)))%nat).
Proof.
  induction n as [|n IH]; intros p D k Hk; [lia|]. rewrite seq_S, filter_app, app_length. cbn [filter plus].
  assert (D' : forall a b, (a <= b < n)%nat -> p b = true -> p a = true) by (intros; apply (D a b); auto; lia).
  destruct (p n) eqn:E.
  - assert (A : length (filter p (seq 0 n)) = n).
    { assert (F : forall m, (m <= n)%nat -> length (filter p (seq 0 m)) = m).
      { induction m as [|m IHm]; intros Hm; auto. rewrite seq_S, filter_app, app_length, IHm by lia. cbn [filter plus]. rewrite (D m n) by (auto; lia). cbn. lia. }
      apply F. auto. }
    rewrite A. cbn [length]. split; intros; [lia|]. apply (D k n); auto; lia.
  - cbn [length]. rewrite Nat.add_0_r. destruct (Nat.eq_dec k n) as [->|N]; [|apply IH; auto; lia].
    split; intros H; [congruence|]. assert (B := filter_length_le p (seq 0 n)). rewrite seq_length in B. lia.
Qed.
Section Sorted.
Variables (T : vec) (ord : list nat).
Let n := length T.
Hypothesis S : sorts T ord.
Let o k := nth k ord 0%nat.
Lemma ord_length : length ord = n. Proof. destruct S as [P _]. apply Permutation_length in P. rewrite seq_length in P. auto. Qed.
Lemma ord_in : forall k, (k < n)%nat -> (o k < n)%nat.
Proof. intros k Hk. destruct S as [P _]. assert (I : In (o k) (seq 0 n)). { apply (Permutation_in _ P). apply nth_In. rewrite ord_length. auto. } apply in_seq in I. lia. Qed.
Lemma ord_inj : forall a b, (a < n)%nat -> (b < n)%nat -> o a = o b -> a = b.
Proof.
  intros a b Ha Hb E. destruct S as [P _]. assert (N : NoDup ord) by (apply (Permutation_NoDup (Permutation_sym P)), seq_NoDup).
  apply (proj1 (NoDup_nth ord 0%nat) N); auto; rewrite ord_length; auto.
Qed.
Lemma ord_surj : forall i, (i < n)%nat -> exists k, (k < n)%nat /\ o k = i.
Proof.
  intros i Hi. destruct S as [P _]. assert (I : In i ord) by (apply (Permutation_in _ (Permutation_sym P)), in_seq; fold n; lia).
  apply (In_nth _ _ 0%nat) in I. destruct I as (k & Hk & E). rewrite ord_length in Hk. eauto.
Qed.
Lemma ord_map : map o (seq 0 n) = ord.
Proof.
  apply (nth_ext _ _ 0%nat 0%nat); [rewrite map_length, seq_length, ord_length; auto|]. intros k Hk. rewrite map_length, seq_length in Hk.
  rewrite (nth_indep _ 0%nat (o 0)) by (rewrite map_length, seq_length; auto). rewrite (map_nth o), seq_nth by auto. auto.
Qed.
Lemma ord_sum : forall F, sum_over n (fun k => F (o k)) = sum_over n F.
Proof. intros F. unfold sum_over. rewrite <- (map_map o F), ord_map. apply vsum_perm, Permutation_map. apply S. Qed.
Lemma ord_count : forall p : R -> bool, length (filter p T) = length (filter (fun k => p (nth (o k) T 0)) (seq 0 n)).
Proof.
  intros p. rewrite <- (filter_map_length (fun k => nth (o k) T 0) p). rewrite <- (map_map o (fun i => nth i T 0)), ord_map.
  rewrite (filter_perm_length p _ _ (Permutation_map (fun i => nth i T 0) (proj1 S))), map_nth_seq. auto.
Qed.
Lemma below_prefix : forall a k, (k < n)%nat -> (nth (o k) T 0 < a <-> (k < length (filter (fun b => if Rlt_dec b a then true else false) T))%nat).
Proof.
  intros a k Hk. rewrite ord_count. rewrite <- (prefix_count n (fun k => if Rlt_dec (nth (o k) T 0) a then true else false)); auto.
  - destruct (Rlt_dec (nth (o k) T 0) a); split; auto; try discriminate; tauto.
  - intros x y L. assert (M := proj2 S x y L). fold (o x) in M. fold (o y) in M. destruct (Rlt_dec (nth (o y) T 0) a); [|discriminate]. intros _. destruct (Rlt_dec (nth (o x) T 0) a); auto; lra.
Qed.
Lemma upto_prefix : forall a k, (k < n)%nat -> (nth (o k) T 0 <= a <-> (k < length (filter (fun b => if Rle_dec b a then true else false) T))%nat).
Proof.
  intros a k Hk. rewrite ord_count. rewrite <- (prefix_count n (fun k => if Rle_dec (nth (o k) T 0) a then true else false)); auto.
  - destruct (Rle_dec (nth (o k) T 0) a); split; auto; try discriminate; tauto.
  - intros x y L. assert (M := proj2 S x y L). fold (o x) in M. fold (o y) in M. destruct (Rle_dec (nth (o y) T 0) a); [|discriminate]. intros _. destruct (Rle_dec (nth (o x) T 0) a); auto; lra.
Qed.
Lemma rank_min_nth : forall i, (i < n)%nat -> nth i (rank_min T) 0%nat = length (filter (fun b => if Rlt_dec b (nth i T 0%R) then true else false) T).
Proof.
  intros i Hi. unfold rank_min. set (f := fun a => length (filter (fun b => if Rlt_dec b a then true else false) T)).
  rewrite (nth_indep _ 0%nat (f 0)) by (rewrite map_length; auto). rewrite (map_nth f). auto.
Qed.
Lemma rank_max_nth : forall i, (i < n)%nat -> nth i (rank_max T) 0%nat = (length (filter (fun b => if Rle_dec b (nth i T 0%R) then true else false) T) - 1)%nat.
Proof.
  intros i Hi. unfold rank_max. set (f := fun a => (length (filter (fun b => if Rle_dec b a then true else false) T) - 1)%nat).
  rewrite (nth_indep _ 0%nat (f 0)) by (rewrite map_length; auto). rewrite (map_nth f). auto.
Qed.
Lemma rank_min_lt : forall i, (i < n)%nat -> (nth i (rank_min T) 0 < n)%nat.
Proof.
  intros i Hi. rewrite rank_min_nth by auto. destruct (ord_surj i Hi) as (k & Hk & E). assert (B := below_prefix (nth i T 0) k Hk). rewrite E in B.
  assert (A : ~ (k < length (filter (fun b => if Rlt_dec b (nth i T 0%R) then true else false) T))%nat) by (intros H; apply B in H; lra). lia.
Qed.
Lemma rank_max_pos : forall i, (i < n)%nat -> (0 < length (filter (fun b => if Rle_dec b (nth i T 0%R) then true else false) T) <= n)%nat.
Proof.
  intros i Hi. destruct (ord_surj i Hi) as (k & Hk & E). assert (B := upto_prefix (nth i T 0) k Hk). rewrite E in B. assert (A := proj1 B (Rle_refl _)).
  assert (C := filter_length_le (fun b => if Rle_dec b (nth i T 0) then true else false) T). fold n in C. lia.
Qed.
Lemma rank_max_lt : forall i, (i < n)%nat -> (nth i (rank_max T) 0 < n)%nat.
Proof. intros i Hi. rewrite rank_max_nth by auto. assert (A := rank_max_pos i Hi). lia. Qed.

(** sums over prefixes and suffixes of the order *)
Lemma sum_prefix : forall m F, (m <= n)%nat -> sum_over m F = sum_over n (fun k => if lt_dec k m then F k else 0).
Proof.
  intros m F. induction n as [|p IH]; intros Hm.
  - replace m with 0%nat by lia. auto.
  - rewrite (P_sep.sum_over_S p). destruct (Nat.eq_dec m (Datatypes.S p)) as [->|N].
    + rewrite P_sep.sum_over_S. destruct (lt_dec p (Datatypes.S p)); [|lia]. f_equal. apply sum_over_ext. intros i Hi. destruct (lt_dec i (Datatypes.S p)); auto; lia.
    + rewrite IH by lia. destruct (lt_dec p m); [lia|]. ring.
Qed.
Lemma sum_upto : forall F i, (i < n)%nat -> sum_over (Datatypes.S (nth i (rank_max T) 0%nat)) (fun k => F (o k)) = sum_over n (fun j => if Rle_dec (nth j T 0) (nth i T 0) then F j else 0).
Proof.
  intros F i Hi. rewrite rank_max_nth by auto. assert (A := rank_max_pos i Hi). rewrite <- (ord_sum (fun j => if Rle_dec (nth j T 0) (nth i T 0) then F j else 0)).
  rewrite sum_prefix by lia. apply sum_over_ext. intros k Hk. assert (B := upto_prefix (nth i T 0) k Hk).
  destruct (lt_dec k _) as [L|L]; destruct (Rle_dec (nth (o k) T 0) (nth i T 0)) as [R|R]; auto; exfalso; [apply R, B; lia|apply B in R; lia].
Qed.
Lemma sum_from : forall F i, (i < n)%nat -> sum_over (n - nth i (rank_min T) 0)%nat (fun q => F (o (n - 1 - q)%nat)) = sum_over n (fun j => if Rle_dec (nth i T 0) (nth j T 0) then F j else 0).
Proof.
  intros F i Hi. assert (Lr := rank_min_lt i Hi). rewrite <- (ord_sum (fun j => if Rle_dec (nth i T 0) (nth j T 0) then F j else 0)).
  assert (Rv : forall p G, sum_over p (fun q => G (p - 1 - q)%nat) = sum_over p G).
  { clear. intros p G. induction p as [|p IH]; auto. rewrite (P_sep.sum_over_S p G), <- IH. unfold sum_over at 1. rewrite <- cons_seq. cbn [map]. rewrite vsum_cons, <- seq_shift, map_map.
    replace (Datatypes.S p - 1 - 0)%nat with p by lia. rewrite Rplus_comm. f_equal. apply (sum_over_ext p). intros q Hq. f_equal. lia. }
  rewrite <- (Rv n). rewrite sum_prefix by lia. apply sum_over_ext. intros q Hq. assert (B := below_prefix (nth i T 0) (n - 1 - q)%nat ltac:(lia)). rewrite <- rank_min_nth in B by auto.
  destruct (lt_dec q _) as [L|L]; destruct (Rle_dec (nth i T 0) (nth (o (n - 1 - q)%nat) T 0)) as [R|R]; auto; exfalso; [apply R; apply Rnot_lt_le; intros C; apply B in C; lia|].
  assert (C : (n - 1 - q < nth i (rank_min T) 0)%nat) by lia. apply B in C. lra.
Qed.
End Sorted.

(** ** Loops that write an array *)
Lemma fill_loop : forall n (F : nat -> R) (a : vec), length a = n -> fold_left (fun a i => set_at i (F i) a) (seq 0 n) a = map F (seq 0 n).
Proof.
  intros n F a L. assert (G : forall k, (k <= n)%nat -> let b := fold_left (fun a i => set_at i (F i) a) (seq 0 k) a in length b = n /\ forall i, (i < k)%nat -> nth i b 0 = F i).
  { induction k as [|k IH]; intros Hk; cbv zeta; [cbn; split; auto; intros; lia|]. rewrite seq_S, fold_left_app. cbn [fold_left plus]. destruct (IH ltac:(lia)) as [Lb Hb].
    split; [rewrite set_at_length; auto|]. intros i Hi. destruct (Nat.eq_dec i k) as [->|N]; [apply nth_set_at_same; lia|]. rewrite nth_set_at_other by auto. apply Hb. lia. }
  destruct (G n (le_n n)) as [Lb Hb]. apply (nth_ext _ _ 0 0); [rewrite map_length, seq_length; auto|]. intros i Hi. rewrite Lb in Hi. rewrite Hb by auto.
  rewrite (nth_indep _ 0 (F 0%nat)) by (rewrite map_length, seq_length; auto). rewrite (map_nth F), seq_nth by auto. auto.
Qed.
Lemma rloop_app : forall {A} (body : A -> nat -> res A) l1 l2 st, rloop body (l1 ++ l2) st = rbind (rloop body l1 st) (rloop body l2).
Proof. intros A body l1. induction l1 as [|i r IH]; intros; cbn; auto. destruct (body st i); cbn; auto. Qed.
Section Kernels.
Variables (T : vec) (ord : list nat).
Let n := length T.
Hypothesis S : sorts T ord.
Let o k := nth k ord 0%nat.
Lemma update_exp_spec : forall eta cw e0 a0, length e0 = n -> length a0 = n -> let '(e, acc) := update_exp eta cw ord n e0 a0 in
  (forall i, (i < n)%nat -> nth i e 0 = nth i cw 0 * exp (nth i eta 0)) /\
  (forall i, (i < n)%nat -> nth (nth i (rank_min T) 0%nat) acc 0 = at_risk T cw eta i).
Proof.
  intros eta cw e0 a0 Le La. unfold update_exp. set (step := fun (st : R * vec * vec) idx => _).
  set (v := fun i => nth i cw 0 * exp (nth i eta 0)).
  assert (G : forall k, (k <= n)%nat -> exists e acc, fold_left step (seq 0 k) (0, e0, a0) = (sum_over k (fun q => v (o (n - 1 - q)%nat)), e, acc) /\ length e = n /\ length acc = n /\
     (forall q, (q < k)%nat -> nth (o (n - 1 - q)%nat) e 0 = v (o (n - 1 - q)%nat)) /\ (forall q, (q < k)%nat -> nth (n - 1 - q)%nat acc 0 = sum_over (Datatypes.S q) (fun q => v (o (n - 1 - q)%nat)))).
  { induction k as [|k IH]; intros Hk.
    - exists e0, a0. cbn. repeat split; auto; intros; lia.
    - destruct (IH ltac:(lia)) as (e & acc & E & L1 & L2 & H1 & H2). rewrite seq_S, fold_left_app, E. cbn [fold_left plus]. unfold step at 1. fold (o (n - 1 - k)%nat).
      assert (Ev : exp (nth (o (n - 1 - k)%nat) eta 0) * nth (o (n - 1 - k)%nat) cw 0 = v (o (n - 1 - k)%nat)) by (unfold v; ring).
      cbv zeta. fold (o (n - 1 - k)%nat). rewrite Ev. eexists; eexists. rewrite P_sep.sum_over_S. split; [reflexivity|]. rewrite !set_at_length. split; [auto|]. split; [auto|].
      assert (Ik : (o (n - 1 - k) < n)%nat) by (apply (ord_in T ord S); fold n; lia). split; intros q Hq.
      + destruct (Nat.eq_dec q k) as [->|N]; [apply nth_set_at_same; lia|]. rewrite nth_set_at_other; [apply H1; lia|].
        intros C. apply (ord_inj T ord S) in C; fold n; lia.
      + destruct (Nat.eq_dec q k) as [->|N]; [rewrite nth_set_at_same by lia; rewrite P_sep.sum_over_S; auto|]. rewrite nth_set_at_other by lia. apply H2. lia. }
  destruct (G n (le_n n)) as (e & acc & E & L1 & L2 & H1 & H2). match goal with |- context [fold_left step ?l ?s] => change (fold_left step l s) with (fold_left step (seq 0 n) (0, e0, a0)) end. rewrite E. split.
  - intros i Hi. destruct (ord_surj T ord S i Hi) as (k & Hk & Ek). fold n in Hk. fold (o k) in Ek. assert (A := H1 (n - 1 - k)%nat ltac:(lia)). replace (n - 1 - (n - 1 - k))%nat with k in A by lia. rewrite Ek in A. exact A.
  - intros i Hi. assert (Lr := rank_min_lt T ord S i Hi). fold n in Lr. set (r := nth i (rank_min T) 0%nat) in *. assert (A := H2 (n - 1 - r)%nat ltac:(lia)).
    replace (n - 1 - (n - 1 - r))%nat with r in A by lia. rewrite A. replace (Datatypes.S (n - 1 - r)) with (n - r)%nat by lia. apply (sum_from T ord S v i Hi).
Qed.
Lemma update_expZ_spec : forall z e a0, length a0 = n -> forall i, (i < n)%nat ->
  nth (nth i (rank_min T) 0%nat) (update_expZ z e ord n a0) 0 = sum_over n (fun j => if Rle_dec (nth i T 0) (nth j T 0) then nth j z 0 * nth j e 0 else 0).
Proof.
  intros z e a0 La. unfold update_expZ. set (step := fun (st : R * vec) idx => _). set (v := fun i => nth i z 0 * nth i e 0).
  assert (G : forall k, (k <= n)%nat -> exists acc, fold_left step (seq 0 k) (0, a0) = (sum_over k (fun q => v (o (n - 1 - q)%nat)), acc) /\ length acc = n /\
     (forall q, (q < k)%nat -> nth (n - 1 - q)%nat acc 0 = sum_over (Datatypes.S q) (fun q => v (o (n - 1 - q)%nat)))).
  { induction k as [|k IH]; intros Hk.
    - exists a0. cbn. repeat split; auto; intros; lia.
    - destruct (IH ltac:(lia)) as (acc & E & L2 & H2). rewrite seq_S, fold_left_app, E. cbn [fold_left plus]. unfold step at 1. cbv zeta. fold (o (n - 1 - k)%nat). fold (v (o (n - 1 - k)%nat)).
      eexists. rewrite P_sep.sum_over_S. split; [reflexivity|]. rewrite !set_at_length. split; [auto|]. intros q Hq.
      destruct (Nat.eq_dec q k) as [->|N]; [rewrite nth_set_at_same by lia; rewrite P_sep.sum_over_S; auto|]. rewrite nth_set_at_other by lia. apply H2. lia. }
  destruct (G n (le_n n)) as (acc & E & L2 & H2). match goal with |- context [fold_left step ?l ?s] => change (fold_left step l s) with (fold_left step (seq 0 n) (0, a0)) end. rewrite E. cbn [snd]. intros i Hi. assert (Lr := rank_min_lt T ord S i Hi). fold n in Lr. set (r := nth i (rank_min T) 0%nat) in *. assert (A := H2 (n - 1 - r)%nat ltac:(lia)).
  replace (n - 1 - (n - 1 - r))%nat with r in A by lia. rewrite A. replace (Datatypes.S (n - 1 - r)) with (n - r)%nat by lia. apply (sum_from T ord S v i Hi).
Qed.
(** a loop that accumulates u (ord idx), when no denominator is zero, and one that meets a zero *)
Lemma cum_loop : forall (d u : nat -> R) a0, length a0 = n -> (forall i, (i < n)%nat -> d i <> 0) -> exists out,
  rmap snd (rloop (fun (st : R * vec) idx => let '(cur, out) := st in let i := o idx in if Req_EM_T (d i) 0 then Err NaNResult else let cur1 := cur + u i in Ok (cur1, set_at idx cur1 out)) (seq 0 n) (0, a0)) = Ok out /\ length out = n /\
  forall i, (i < n)%nat -> nth (nth i (rank_max T) 0%nat) out 0 = sum_over n (fun j => if Rle_dec (nth j T 0) (nth i T 0) then u j else 0).
Proof.
  intros d u a0 La Hd. set (body := fun (st : R * vec) idx => _).
  assert (G : forall k, (k <= n)%nat -> exists out, rloop body (seq 0 k) (0, a0) = Ok (sum_over k (fun q => u (o q)), out) /\ length out = n /\ (forall q, (q < k)%nat -> nth q out 0 = sum_over (Datatypes.S q) (fun q => u (o q)))).
  { induction k as [|k IH]; intros Hk.
    - exists a0. cbn. repeat split; auto; intros; lia.
    - destruct (IH ltac:(lia)) as (out & E & L & H). rewrite seq_S, rloop_app, E. cbn [rbind rloop plus]. unfold body at 1. cbv zeta.
      destruct (Req_EM_T (d (o k)) 0) as [C|_]; [exfalso; apply (Hd (o k)); auto; apply (ord_in T ord S); auto|]. cbn [rbind].
      eexists. rewrite P_sep.sum_over_S. split; [reflexivity|]. rewrite set_at_length. split; auto. intros q Hq.
      destruct (Nat.eq_dec q k) as [->|N]; [rewrite nth_set_at_same by lia; rewrite P_sep.sum_over_S; auto|]. rewrite nth_set_at_other by lia. apply H. lia. }
  destruct (G n (le_n n)) as (out & E & L & H). exists out. rewrite E. split; [reflexivity|]. split; auto. intros i Hi. assert (Lr := rank_max_lt T ord S i Hi). rewrite H by auto. apply (sum_upto T ord S u i Hi).
Qed.
Lemma cum_loop_nan : forall (d u : nat -> R) a0 i, (i < n)%nat -> d i = 0 ->
  rmap snd (rloop (fun (st : R * vec) idx => let '(cur, out) := st in let i := o idx in if Req_EM_T (d i) 0 then Err NaNResult else let cur1 := cur + u i in Ok (cur1, set_at idx cur1 out)) (seq 0 n) (0, a0)) = Err NaNResult.
Proof.
  intros d u a0 i Hi Z. set (body := fun (st : R * vec) idx => _). destruct (ord_surj T ord S i Hi) as (k & Hk & Ek). fold n in Hk. fold (o k) in Ek.
  assert (G : forall l st, In k l -> rloop body l st = Err NaNResult).
  { induction l as [|q r IH]; intros [c out] I; [destruct I|]. cbn [rloop]. destruct (Nat.eq_dec q k) as [->|N].
    - unfold body at 1. cbv zeta. rewrite Ek. destruct (Req_EM_T (d i) 0); [reflexivity|contradiction].
    - destruct I as [->|I]; [congruence|]. unfold body at 1. cbv zeta. destruct (Req_EM_T (d (o q)) 0); [reflexivity|]. cbn [rbind]. apply IH. auto. }
  rewrite G; [reflexivity|]. apply in_seq. lia.
Qed.
End Kernels.
Lemma sum_loop : forall (d u : nat -> R) m, (forall i, (i < m)%nat -> 0 < d i) -> rloop (fun cur idx => if Rle_dec (d idx) 0 then Err NaNResult else Ok (cur + u idx)) (seq 0 m) 0 = Ok (sum_over m u).
Proof.
  intros d u m H. induction m as [|m IH]; [reflexivity|]. rewrite seq_S, rloop_app, IH by auto. cbn [rbind rloop plus].
  destruct (Rle_dec (d m) 0) as [C|_]; [specialize (H m ltac:(lia)); lra|]. rewrite P_sep.sum_over_S. reflexivity.
Qed.

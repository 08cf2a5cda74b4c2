(** The ranks reported by check_KKT, and the candidate sets of BASIL. *)
From Coq Require Import Reals List Lra Lia Arith Bool.
From Verif Require Import M_affine SpecAffine P_affine P_affine2 M_loss SpecLoss SpecSmooth P_smooth Vec Spec SpecConvex M_quad M_prox M_semi M_weighted P_quad P_calc P_sep P_feas M_problem M_cv SpecCv P_cv M_path SpecPath P_path P_path2 P_path3 P_path4 P_path5 P_path6.
Import ListNotations.
Local Open Scope R_scope.

Lemma filter_map_len : forall A B (f : A -> B) (p : B -> bool) l, length (filter p (map f l)) = length (filter (fun a => p (f a)) l).
Proof. intros A B f p l. induction l as [|a l IH]; cbn [map filter]; auto. destruct (p (f a)); cbn [length]; auto. Qed.
Lemma three_way : forall (e : nat -> R) t (l : list nat),
  (length (filter (fun i => gtb t (e i)) l) + length (filter (fun i => if Req_EM_T (e i) t then true else false) l) + length (filter (fun i => if Rlt_dec t (e i) then true else false) l))%nat = length l.
Proof.
  intros e t l. induction l as [|i l IH]; cbn [filter length]; auto. unfold gtb in *. destruct (Rlt_dec (e i) t), (Req_EM_T (e i) t), (Rlt_dec t (e i)); cbn [length]; try lra; lia.
Qed.
Lemma rank_place : forall n e j, (j < n)%nat -> INR n - rankdata (map e (seq 0 n)) j = place n e j.
Proof.
  intros n e j Hj. unfold rankdata, place, above, level, count. rewrite (nth_map_seq R e) by auto. rewrite !filter_map_len.
  assert (E : filter (fun a => is0 (e a - e j)) (seq 0 n) = filter (fun i => if Req_EM_T (e i) (e j) then true else false) (seq 0 n)).
  { apply filter_ext. intros i. unfold is0. destruct (Req_EM_T (e i - e j) 0), (Req_EM_T (e i) (e j)); auto; lra. }
  rewrite E. pose proof (three_way e (e j) (seq 0 n)) as T. rewrite seq_length in T. apply (f_equal INR) in T. rewrite !plus_INR in T. lra.
Qed.
Lemma inactive_excess : forall w g s lam j, inactive_term w g s lam j = if Req_EM_T (nth j s 0) 0 then if Rlt_dec 0 (nth j w 0) then Rabs (nth j g 0 / (lam * nth j w 0)) else 0 else 0.
Proof. intros. unfold inactive_term, is0, gtb. destruct (Req_EM_T _ 0), (Rlt_dec 0 _); auto. Qed.
Lemma excess_term : forall w g s lam j, 0 < lam -> inactive_term w g s lam j = excess_of w g s lam j.
Proof.
  intros w g s lam j Hl. rewrite inactive_excess. unfold excess_of. destruct (Req_EM_T _ 0); auto. destruct (Rlt_dec 0 (nth j w 0)); auto. unfold Rdiv. rewrite Rabs_mult. f_equal. apply Rabs_right. apply Rle_ge. left. apply Rinv_0_lt_compat. nra.
Qed.
Lemma count_ext : forall n p q, (forall i, (i < n)%nat -> p i = q i) -> count n p = count n q.
Proof. intros n p q H. unfold count. f_equal. apply filter_ext_in. intros i Hi. apply in_seq in Hi. apply H. lia. Qed.
Theorem ranks_are_places : forall w g s lam tol j, 0 < lam -> (j < length s)%nat -> let e := excess_of w g s lam in
  nth j (snd (check_KKT w g s lam tol)) 0 = if Rle_dec (e j) (1 + tol) then -1 else place (length s) e j.
Proof.
  intros w g s lam tol j Hl Hj e. cbn [check_KKT snd]. unfold inactive_ranks. set (terms := map (inactive_term w g s lam) (seq 0 (length s))).
  rewrite (nth_map_seq R (fun j => if Rle_dec (nth j terms 0) (1 + tol) then -1 else INR (length s) - rankdata terms j)) by auto.
  assert (ET : terms = map e (seq 0 (length s))) by (unfold terms, e; apply map_ext; intros; apply excess_term; auto). rewrite ET. rewrite (nth_map_seq R e) by auto. rewrite rank_place by auto. auto.
Qed.
Lemma place_nonneg : forall n e j, (j < n)%nat -> 0 <= place n e j.
Proof.
  intros n e j Hj. unfold place. assert (1 <= level n e j)%nat.
  { unfold level, count. destruct (filter _ (seq 0 n)) as [|i l] eqn:F; [|cbn; lia]. exfalso. assert (In j []); [|auto]. rewrite <- F. apply filter_In. split; [apply in_seq; lia|]. destruct (Req_EM_T (e j) (e j)); auto. }
  apply le_INR in H. pose proof (pos_INR (above n e j)). simpl in H. lra.
Qed.
(** larger excess, smaller place *)
Theorem place_order : forall n e i j, (i < n)%nat -> (j < n)%nat -> (e j < e i <-> place n e i < place n e j) /\ (e i = e j <-> place n e i = place n e j).
Proof.
  intros n e. assert (K : forall i j, (i < n)%nat -> (j < n)%nat -> e j < e i -> place n e i < place n e j).
  { intros i j Hi Hj H. unfold place. assert (C : (above n e i + level n e i <= above n e j)%nat).
    { unfold above, level, count. generalize (seq 0 n). intros l. induction l as [|k l IH]; cbn [filter length]; [lia|].
      destruct (Rlt_dec (e i) (e k)), (Req_EM_T (e k) (e i)), (Rlt_dec (e j) (e k)); cbn [length]; try lra; lia. }
    assert (L : (1 <= level n e i)%nat /\ (1 <= level n e j)%nat).
    { assert (Q : forall m, (m < n)%nat -> (1 <= level n e m)%nat); [|auto]. intros m Hm. unfold level, count. destruct (filter _ (seq 0 n)) as [|z l] eqn:F; [|cbn; lia]. exfalso. assert (In m []); [|auto]. rewrite <- F. apply filter_In. split; [apply in_seq; lia|]. destruct (Req_EM_T (e m) (e m)); auto. }
    destruct L as [L1 L2]. apply le_INR in C, L1, L2. rewrite plus_INR in C. simpl in L1, L2. lra. }
  assert (Q : forall i j, e i = e j -> place n e i = place n e j) by (intros i j E; unfold place, above, level; rewrite E; auto).
  intros i j Hi Hj. pose proof (K i j Hi Hj). pose proof (K j i Hj Hi). pose proof (Q i j). destruct (Rtotal_order (e i) (e j)) as [L|[L|L]].
  - split; split; intros; try lra; specialize (H0 L); lra.
  - specialize (H1 L). split; split; intros; lra.
  - specialize (H L). split; split; intros; lra.
Qed.
Theorem candidates : forall P, good_path P -> forall nvar sol grad ls cand j, 0 < minimum ls -> length sol = lp_size P -> (j < lp_size P)%nat ->
  let e := excess_of (lp_weights P) grad sol (lp_alpha P * minimum ls) in
  let nfail := count (lp_size P) (fun i => if Rlt_dec (1 + kkt_tol) (e i) then true else false) in
  (In j (basil_set P nvar sol grad ls cand) <->
    (1 + kkt_tol < e j /\ place (lp_size P) e j < INR (Nat.min nvar nfail)) \/ nth j (lp_weights P) 0 = 0 \/ In j cand).
Proof.
  intros P GP nvar sol grad ls cand j Hm Ls Hj e nfail. set (lam := lp_alpha P * minimum ls) in *. assert (Hl : 0 < lam) by (unfold lam; pose proof (gp_alpha _ GP); nra).
  unfold basil_set. fold lam. set (ranks := snd (check_KKT (lp_weights P) grad sol lam kkt_tol)).
  assert (RK : forall i, (i < lp_size P)%nat -> nth i ranks 0 = if Rle_dec (e i) (1 + kkt_tol) then -1 else place (lp_size P) e i).
  { intros i Hi. unfold ranks. rewrite ranks_are_places by (auto; lia). fold e. rewrite Ls. auto. }
  assert (RL : ranks = map (fun i => nth i ranks 0) (seq 0 (lp_size P))).
  { apply (nth_ext _ _ 0 0); [rewrite map_length, seq_length; unfold ranks; cbn [check_KKT snd]; unfold inactive_ranks; rewrite map_length, seq_length; auto|].
    intros i Hi. unfold ranks in Hi. cbn [check_KKT snd] in Hi. unfold inactive_ranks in Hi. rewrite map_length, seq_length, Ls in Hi. rewrite (nth_map_seq R (fun i => nth i ranks 0)) by auto. auto. }
  assert (NF : length (filter (fun r => if Rle_dec 0 r then true else false) ranks) = nfail).
  { rewrite RL, filter_map_len. apply count_ext. intros i Hi. rewrite RK by auto. pose proof (place_nonneg (lp_size P) e i Hi). destruct (Rle_dec (e i) (1 + kkt_tol)), (Rlt_dec (1 + kkt_tol) (e i)); try lra.
    - destruct (Rle_dec 0 (-1)); [lra|auto].
    - destruct (Rle_dec 0 _); [auto|lra]. }
  rewrite NF. rewrite union_In, union_In. unfold unpenalized. rewrite !filter_In, in_seq. rewrite RK by auto.
  pose proof (place_nonneg (lp_size P) e j Hj) as PN. assert (KT : 0 < kkt_tol) by (unfold kkt_tol; lra).
  assert (FI : (if Rle_dec 0 (if Rle_dec (e j) (1 + kkt_tol) then -1 else place (lp_size P) e j) then gtb (INR (Nat.min nvar nfail)) (if Rle_dec (e j) (1 + kkt_tol) then -1 else place (lp_size P) e j) else false) = true <-> 1 + kkt_tol < e j /\ place (lp_size P) e j < INR (Nat.min nvar nfail)).
  { unfold gtb. destruct (Rle_dec (e j) (1 + kkt_tol)).
    - destruct (Rle_dec 0 (-1)); [lra|]. split; [discriminate|intros; lra].
    - destruct (Rle_dec 0 _); [|tauto]. destruct (Rlt_dec _ _); split; intros; try discriminate; auto; try lra. }
  rewrite FI. unfold is0. destruct (Req_EM_T (nth j (lp_weights P) 0) 0); intuition (try discriminate; try lia; auto).
Qed.

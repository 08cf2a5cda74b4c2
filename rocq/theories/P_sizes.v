(** Proofs for C106: transforms applied to vectors of the wrong length. *)
From Coq Require Import Reals List Lra Lia Arith Bool.
From Verif Require Import Vec Spec M_affine SpecAffine P_affine P_affine2 M_dense SpecDense P_dense P_dense1 P_dense2 P_dense3.
Import ListNotations.
Local Open Scope R_scope.

Lemma firstn_pre : forall {A} k (x z : list A), (k <= length x)%nat -> firstn k (x ++ z) = firstn k x.
Proof. intros A k x z H. rewrite firstn_app. replace (k - length x)%nat with 0%nat by lia. cbn. apply app_nil_r. Qed.
Lemma skipn_pre : forall {A} k (x z : list A), (k <= length x)%nat -> skipn k (x ++ z) = skipn k x ++ z.
Proof. intros A k x z H. rewrite skipn_app. replace (k - length x)%nat with 0%nat by lia. reflexivity. Qed.
Lemma accumulate_pre : forall F size ts (x z : vec) out, length x = list_sum (map size ts) -> accumulate F size ts (A1 (x ++ z)) out = accumulate F size ts (A1 x) out.
Proof.
  intros F size. induction ts as [|t ts IH]; intros x z out L; auto. rewrite !accumulate_cons. change (list_sum (map size (t :: ts))) with (size t + list_sum (map size ts))%nat in L. cbn [take drop].
  rewrite firstn_pre, skipn_pre by (unfold vec in *; lia). destruct (flat _ _); auto. cbn [rbind]. destruct (F t a); auto. cbn [rbind]. destruct (iadd out a0); auto. cbn [rbind]. apply IH. rewrite skipn_length. unfold vec in *. lia.
Qed.
Lemma split_pre : forall F from to ts (x z : vec), length x = list_sum (map from ts) -> split_fill F from to ts (A1 (x ++ z)) = split_fill F from to ts (A1 x).
Proof.
  intros F from to. induction ts as [|t ts IH]; intros x z L; auto. rewrite !split_fill_cons. change (list_sum (map from (t :: ts))) with (from t + list_sum (map from ts))%nat in L. cbn [take drop].
  rewrite firstn_pre, skipn_pre by (unfold vec in *; lia). rewrite IH; auto. rewrite skipn_length. unfold vec in *. lia.
Qed.
Lemma gather_pre : forall idx (x z : vec), Forall (fun i => (i < length x)%nat) idx -> gather idx (x ++ z) = gather idx x.
Proof. intros idx x z F. unfold gather. apply map_ext_in. intros i Hi. rewrite Forall_forall in F. apply app_nth1. auto. Qed.
Lemma index_pre : forall idx (x z : vec), Forall (fun i => (i < length x)%nat) idx -> index idx (A1 (x ++ z)) = index idx (A1 x).
Proof.
  intros idx x z F. unfold index. cbn [alen]. assert (E : forall y : vec, (length x <= length y)%nat -> forallb (fun i => Nat.ltb i (length y)) idx = true).
  { intros y H. apply forallb_forall. intros i Hi. rewrite Forall_forall in F. apply Nat.ltb_lt. specialize (F i Hi). cbn in F. unfold vec in *. lia. }
  rewrite !E by (rewrite ?app_length; unfold vec in *; lia). rewrite gather_pre; auto.
Qed.
Lemma long_ignored : forall (x z : vec),
  (forall ts, length x = list_sum (map e_in ts) -> (forall m, m <> Adj -> ap m (EHstack ts) (A1 (x ++ z)) = ap m (EHstack ts) (A1 x)) /\ (forall m, m <> Adj -> ap m (EProduct ts) (A1 (x ++ z)) = ap m (EProduct ts) (A1 x))) /\
  (forall ts, length x = list_sum (map e_out ts) -> ap Adj (EVstack ts) (A1 (x ++ z)) = ap Adj (EVstack ts) (A1 x) /\ ap Adj (EProduct ts) (A1 (x ++ z)) = ap Adj (EProduct ts) (A1 x)) /\
  (forall idx t m, m <> Adj -> Forall (fun i => (i < length x)%nat) idx -> ap m (ESelector idx (length x) t) (A1 (x ++ z)) = ap m (ESelector idx (length x) t) (A1 x)).
Proof.
  intros x z. split; [|split].
  - intros ts L. split; intros m Hm; (destruct m; [| |congruence]); cbn [ap]; rewrite ?accumulate_pre, ?split_pre; auto.
  - intros ts L. split; cbn [ap]; rewrite ?accumulate_pre, ?split_pre; auto.
  - intros idx t m Hm F. destruct m; [| |congruence]; cbn [ap]; rewrite index_pre; auto.
Qed.
(** ** Too short *)
Lemma flat_bad : forall k (v : vec), length v <> k -> flat k (A1 v) = Err ValueError.
Proof. intros k v H. cbn. apply Nat.eqb_neq in H. unfold vec in *. rewrite H. auto. Qed.
Lemma accumulate_short : forall (F : tr -> arr -> res arr) size k ts (x out : vec),
  (forall t v, In t ts -> length v = size t -> exists w, F t (A1 v) = Ok (A1 w) /\ length w = k) -> length out = k -> (length x < list_sum (map size ts))%nat ->
  accumulate F size ts (A1 x) (A1 out) = Err ValueError.
Proof.
  intros F size k. induction ts as [|t ts IH]; intros x out H Lo L; [cbn in L; lia|]. rewrite accumulate_cons. change (list_sum (map size (t :: ts))) with (size t + list_sum (map size ts))%nat in L. cbn [take drop].
  destruct (Nat.eq_dec (length (firstn (size t) x)) (size t)) as [E|E].
  - rewrite flat_vec by auto. cbn [rbind]. destruct (H t _ (or_introl eq_refl) E) as (w & Ew & Lw). rewrite Ew. cbn [rbind]. rewrite iadd_vec by congruence. cbn [rbind]. apply IH; [intros; apply H; auto; right; auto|rewrite vadd_length; congruence|].
    rewrite firstn_length in E. rewrite skipn_length. unfold vec in *. lia.
  - rewrite flat_bad by auto. reflexivity.
Qed.
Lemma split_short : forall (F : tr -> arr -> res arr) from to ts (x : vec),
  (forall t v, In t ts -> length v = from t -> exists w, F t (A1 v) = Ok (A1 w) /\ length w = to t) -> (forall t v, In t ts -> (length v < from t)%nat -> F t (A1 v) = Err ValueError) ->
  (length x < list_sum (map from ts))%nat -> split_fill F from to ts (A1 x) = Err ValueError.
Proof.
  intros F from to. induction ts as [|t ts IH]; intros x H B L; [cbn in L; lia|]. rewrite split_fill_cons. change (list_sum (map from (t :: ts))) with (from t + list_sum (map from ts))%nat in L. cbn [take drop].
  destruct (Nat.eq_dec (length (firstn (from t) x)) (from t)) as [E|E].
  - destruct (H t _ (or_introl eq_refl) E) as (w & Ew & Lw). rewrite Ew. cbn [rbind]. rewrite assign_vec by auto. cbn [rbind]. rewrite IH; auto; [intros; apply H; auto; right; auto|intros; apply B; auto; right; auto|].
    rewrite firstn_length in E. rewrite skipn_length. unfold vec in *. lia.
  - rewrite B; [reflexivity|left; auto|]. rewrite firstn_length in *. unfold vec in *. lia.
Qed.
Lemma sizes_sum : forall ps, (forall p, In p ps -> denotes (fst p) (snd p)) -> list_sum (map e_in (map fst ps)) = list_sum (map t_in (map snd ps)) /\ list_sum (map e_out (map fst ps)) = list_sum (map t_out (map snd ps)).
Proof.
  intros ps H. rewrite !map_map. split; f_equal; apply map_ext_in; intros p Hp; apply denotes_sizes; auto.
Qed.
Lemma off_ok : forall off r y, add_stack_off off r = Ok y -> exists o, off = Ok o.
Proof. intros off r y H. destruct off; [eauto|discriminate]. Qed.
Lemma off_err : forall o e, add_stack_off (Ok o) (Err e) = Err e. Proof. reflexivity. Qed.
Lemma block_lin : forall m ps k, (forall p, In p ps -> denotes (fst p) (snd p)) -> (forall p, In p ps -> dst m (snd p) = k) ->
  forall t v, In t (map fst ps) -> length v = (match m with Adj => e_out t | _ => e_in t end) -> exists w, ap m t (A1 v) = Ok (A1 w) /\ length w = k.
Proof.
  intros m ps k D K t v Ht Lv. apply in_map_iff in Ht. destruct Ht as (p & <- & Hp). destruct (denotes_sizes _ _ (D p Hp)) as [S1 S2]. assert (L : length v = src m (snd p)) by (destruct m; cbn [src]; congruence).
  exists (act m (snd p) v). split; [apply ap_vec; auto|]. rewrite (act_length m (fst p)); auto.
Qed.
Lemma hstack_short : forall ps S m x, denotes (EHstack (map fst ps)) S -> (forall p, In p ps -> denotes (fst p) (snd p)) -> hstack (map snd ps) = Ok S -> m <> Adj -> (length x < t_in S)%nat ->
  ap m (EHstack (map fst ps)) (A1 x) = Err ValueError.
Proof.
  intros ps S m x DS D E Hm L. destruct (hstack_form _ _ E) as (k & off & K & _). assert (KI := proj1 (denotes_sizes _ _ DS)). change (list_sum (map e_in (map fst ps)) = t_in S) in KI.
  assert (A : accumulate (fun t b => ap Lin t b) e_in (map fst ps) (A1 x) (A1 (zeros (match map fst ps with t :: _ => e_out t | [] => 0%nat end))) = Err ValueError).
  { apply (accumulate_short _ _ k); [|rewrite zeros_length; destruct ps as [|p l]; [cbn in *; lia|cbn [map]; destruct (denotes_sizes _ _ (D p (or_introl eq_refl))) as [_ S2]; rewrite S2; apply K; cbn; auto]|rewrite KI; auto].
    apply (block_lin Lin ps k D). intros p Hp. cbn [dst]. apply K. apply in_map. auto. }
  destruct m; [exact A| |congruence]. assert (Y := ap_vec _ _ DS Aff (zeros (t_in S)) (zeros_length _)). cbn [ap] in Y |- *. destruct (off_ok _ _ _ Y) as [o Eo]. rewrite Eo, A. apply off_err.
Qed.
Lemma vstack_short : forall ps S x, denotes (EVstack (map fst ps)) S -> (forall p, In p ps -> denotes (fst p) (snd p)) -> vstack (map snd ps) = Ok S -> (length x < t_out S)%nat ->
  ap Adj (EVstack (map fst ps)) (A1 x) = Err ValueError.
Proof.
  intros ps S x DS D E L. destruct (vstack_form _ _ E) as (k & off & K & _). assert (KI := proj2 (denotes_sizes _ _ DS)). change (list_sum (map e_out (map fst ps)) = t_out S) in KI. cbn [ap].
  apply (accumulate_short _ _ k); [|rewrite zeros_length; destruct ps as [|p l]; [cbn in *; lia|cbn [map]; destruct (denotes_sizes _ _ (D p (or_introl eq_refl))) as [S1 _]; rewrite S1; apply K; cbn; auto]|rewrite KI; auto].
  apply (block_lin Adj ps k D). intros p Hp. cbn [dst]. apply K. apply in_map. auto.
Qed.
Lemma product_short : forall ps m x, (forall p, In p ps -> denotes (fst p) (snd p)) -> m <> Adj -> (length x < t_in (product (map snd ps)))%nat -> ap m (EProduct (map fst ps)) (A1 x) = Err ValueError.
Proof.
  intros ps m x D Hm L. assert (DS := d_product ps D). assert (KI := proj1 (denotes_sizes _ _ DS)). change (list_sum (map e_in (map fst ps)) = t_in (product (map snd ps))) in KI.
  assert (A : split_fill (fun t b => rbind (flat (e_in t) b) (ap Lin t)) e_in e_out (map fst ps) (A1 x) = Err ValueError).
  { apply split_short; [| |rewrite KI; auto].
    - intros t v Ht Lv. rewrite flat_vec by auto. cbn [rbind]. apply in_map_iff in Ht. destruct Ht as (p & <- & Hp). destruct (denotes_sizes _ _ (D p Hp)) as [S1 S2]. exists (act Lin (snd p) v). split; [apply ap_vec; auto; cbn; congruence|]. rewrite (act_length Lin (fst p)); auto. cbn. congruence.
    - intros t v _ H. rewrite flat_bad by lia. reflexivity. }
  destruct m; [cbn [ap]; rewrite A; reflexivity| |congruence].
  assert (Y := ap_vec _ _ DS Aff (zeros (t_in (product (map snd ps)))) (zeros_length _)). cbn [ap] in Y |- *. destruct (off_ok _ _ _ Y) as [o Eo]. rewrite Eo, A. apply off_err.
Qed.
Lemma short_raises : forall t S x m, denotes t S -> (exists ts, t = EHstack ts \/ t = EProduct ts) -> m <> Adj -> (length x < src m S)%nat -> ap m t (A1 x) = Err ValueError.
Proof.
  intros t S x m DS [ts [-> | ->]] Hm L; inversion DS; subst.
  - apply (hstack_short ps S); auto. destruct m; cbn [src] in L; auto; congruence.
  - apply product_short; auto. destruct m; cbn [src] in L; auto; congruence.
Qed.
Lemma short_adjoint_raises : forall ts S x, denotes (EVstack ts) S -> (length x < t_out S)%nat -> ap Adj (EVstack ts) (A1 x) = Err ValueError.
Proof. intros ts S x DS L. inversion DS; subst. apply (vstack_short ps S); auto. Qed.
(** ** The classes with no parts *)
Lemma matrix_raises : forall D n o m x, length x <> (match m with Adj => length D | _ => n end) -> ap m (EMatrix D n o) (A1 x) = Err ValueError.
Proof. intros D n o m x H. unfold vec in *. destruct m; cbn [ap]; unfold dots, tdots; cbn [alen]; destruct (Nat.eqb _ _) eqn:E; try reflexivity; apply Nat.eqb_eq in E; exfalso; apply H; exact E. Qed.
Lemma selector_raises : forall idx n t m x i, m <> Adj -> In i idx -> (length x <= i)%nat -> ap m (ESelector idx n t) (A1 x) = Err IndexError.
Proof.
  intros idx n t m x i Hm Hi L. assert (E : index idx (A1 x) = Err IndexError). { unfold index. cbn [alen]. destruct (forallb _ idx) eqn:F; auto. rewrite forallb_forall in F. specialize (F i Hi). apply Nat.ltb_lt in F. unfold vec in *. lia. }
  destruct m; [| |congruence]; cbn [ap]; rewrite E; reflexivity.
Qed.
Lemma bf_raises : forall (a x : vec) op, length a <> length x -> length a <> 1%nat -> broadcast_first a (A1 x) op = Err ValueError.
Proof.
  intros a x op H H1. unfold broadcast_first, col, bcast. cbn [as_rows bdim Nat.eqb rbind]. rewrite !map_length. unfold bdim. destruct (Nat.eqb (length a) (length x)) eqn:E1; [apply Nat.eqb_eq in E1; tauto|].
  destruct (Nat.eqb (length a) 1) eqn:E2; [apply Nat.eqb_eq in E2; tauto|]. destruct (Nat.eqb (length x) 1) eqn:E3; [|reflexivity]. cbn [rbind]. cbn [flat]. rewrite map_length, seq_length, Nat.mul_1_r. rewrite E1. reflexivity.
Qed.
Lemma diagonal_raises : forall d o m x, length x <> length d -> length d <> 1%nat -> ap m (EDiagonal d o) (A1 x) = Err ValueError.
Proof. intros d o m x H H1. cbn [ap]. rewrite bf_raises; auto. Qed.
Lemma shift_raises : forall a x, length x <> length a -> length a <> 1%nat -> ap Aff (EShift a) (A1 x) = Err ValueError.
Proof. intros a x H H1. cbn [ap add_off]. apply bf_raises; auto. Qed.
Lemma seq_nth_map : forall (f : R -> R) (x : vec), map (fun i => f (nth i x 0)) (seq 0 (length x)) = map f x.
Proof. intros f x. rewrite <- (map_map (fun i => nth i x 0) f). f_equal. apply nth_ext with (d := 0) (d' := 0); rewrite map_length, seq_length; auto. intros i Hi. rewrite (nth_indep _ _ (nth 0 x 0)) by (rewrite map_length, seq_length; auto). rewrite (map_nth (fun i => nth i x 0)), seq_nth by auto. auto. Qed.
Lemma concat_single : forall {A} (f : A -> R) l, concat (map (fun i => [f i]) l) = map f l.
Proof. intros A f l. induction l as [|a l IH]; auto. cbn. rewrite IH. auto. Qed.
Lemma any_length : forall m (x : vec) a,
  (forall n, ap m (EIdentity n) (A1 x) = Ok (A1 x) /\ ap m (ECentering n) (A1 x) = Ok (A1 (center x))) /\
  ap m (EScaler x) (A1 [a]) = Ok (A1 (map (fun c => c * a) x)) /\ ap m (EDiagonal [a] None) (A1 x) = Ok (A1 (map (fun c => a * c) x)) /\
  ap Aff (EShift [a]) (A1 x) = Ok (A1 (map (fun c => a + c) x)).
Proof.
  intros m x a. split; [intros n; destruct m; split; reflexivity|].
  assert (P : map (pick 0 x) (seq 0 (length x)) = x). { rewrite <- (map_id x) at 3. rewrite <- (seq_nth_map (fun c => c) x). apply map_ext_in. intros i Hi. apply in_seq in Hi. unfold pick. destruct (Nat.eqb (length x) 1) eqn:E; auto. apply Nat.eqb_eq in E. replace i with 0%nat by lia. auto. }
  assert (B1 : forall n, bdim n 1 = Ok n). { intros n. unfold bdim. destruct (Nat.eqb n 1) eqn:E; auto. }
  assert (B2 : forall n, bdim 1 n = Ok n). { intros n. unfold bdim. destruct (Nat.eqb 1 n) eqn:E; auto. apply Nat.eqb_eq in E. subst. auto. }
  assert (S : bcast Rmult (A1 x) (A1 [a]) = Ok (A1 (map (fun c => c * a) x))). { unfold bcast. cbn [length]. rewrite B1. cbn [rmap]. do 2 f_equal. transitivity (map (fun c => c * a) (map (pick 0 x) (seq 0 (length x)))); [rewrite map_map; reflexivity|rewrite P; reflexivity]. }
  assert (F : forall op, broadcast_first [a] (A1 x) op = Ok (A1 (map (fun c => op a c) x))).
  { intros op. unfold broadcast_first, bcast, col. cbn [as_rows rbind]. rewrite B1. cbn [rbind]. rewrite map_length. cbn [map length]. rewrite B2. cbn [rbind flat]. rewrite map_length, seq_length, Nat.mul_1_r. destruct (Nat.eqb _ _) eqn:E0; [|exfalso; apply Nat.eqb_neq in E0; apply E0; apply map_length]. do 2 f_equal. rewrite ?map_length.
    rewrite <- (seq_nth_map (fun c => op a c) x). rewrite <- concat_single. f_equal. apply map_ext_in. intros i Hi. apply in_seq in Hi. cbn [seq map].
    assert (N : forall k, (k < length x)%nat -> nth k (map (fun c : R => [c]) x) [] = [nth k x 0]). { intros k Hk. rewrite (nth_indep _ [] [0]) by (rewrite map_length; auto). apply (map_nth (fun c : R => [c])). }
    assert (Q : pick [] (map (fun c : R => [c]) x) i = [nth i x 0]). { unfold pick. destruct (Nat.eqb _ 1) eqn:E; [|apply N; lia]. apply Nat.eqb_eq in E. rewrite map_length in E. replace i with 0%nat by lia. apply N. lia. }
    rewrite Q. reflexivity. }
  split; [destruct m; exact S|]. split; [destruct m; cbn [ap]; rewrite F; reflexivity|]. cbn [ap add_off]. apply F.
Qed.

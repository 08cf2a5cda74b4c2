(** Proofs about transforms applied to two-dimensional arrays: vectors first. *)
From Coq Require Import Reals List Lra Lia Arith Bool.
From Verif Require Import Vec Spec P_quad P_cones M_affine SpecAffine P_affine M_dense SpecDense.
Import ListNotations.
Local Open Scope R_scope.

Lemma denotes_built : forall t T, denotes t T -> built T.
Proof.
  induction 1; try (econstructor; eauto; fail).
  - apply (b_vstack (map snd ps)); auto. intros t Ht. apply in_map_iff in Ht. destruct Ht as (p & <- & Hp). auto.
  - apply (b_hstack (map snd ps)); auto. intros t Ht. apply in_map_iff in Ht. destruct Ht as (p & <- & Hp). auto.
  - apply b_product. intros t Ht. apply in_map_iff in Ht. destruct Ht as (p & <- & Hp). auto.
  - apply (b_composition (map snd ps)); auto. intros t Ht. apply in_map_iff in Ht. destruct Ht as (p & <- & Hp). auto.
  - apply (b_affine_sum (map snd ps) (Some w)); auto. intros t Ht. apply in_map_iff in Ht. destruct Ht as (p & <- & Hp). auto.
Qed.
Lemma act_length : forall m t T x, denotes t T -> length x = src m T -> length (act m T x) = dst m T.
Proof.
  intros m t T x D L. destruct (built_good _ (denotes_built _ _ D)) as [(L1 & L2 & _) (A1 & A2) _]. destruct m; cbn in *; auto.
  rewrite A2 by auto. rewrite vadd_length; [auto|]. rewrite L1; auto.
Qed.
Lemma last_map : forall (A B : Type) (f : A -> B) l a b, l <> [] -> last (map f l) b = f (last l a).
Proof. induction l as [|x l IH]; intros a b H; [congruence|]. destruct l as [|y l]; auto. cbn [map last] in *. apply (IH a b). discriminate. Qed.
Lemma residual_form : forall T S, residual T = Ok S -> t_in T = t_out T /\ S = mk_transform (fun x => vsub x (t_lin T x)) (fun x => vsub x (t_aff T x)) (fun u => vsub u (t_adj T u)) (Some None) (t_in T) (t_out T).
Proof. intros T S E. unfold residual in E. destruct (Nat.eqb (t_in T) (t_out T)) eqn:Q; [|discriminate]. injection E as <-. apply Nat.eqb_eq in Q. auto. Qed.
Lemma selector_form : forall idx n T S, selector idx n T = Ok S -> exists o, S = mk_transform (fun x => t_lin T (gather idx x)) (fun x => t_aff T (gather idx x)) (fun u => scatter idx (t_adj T u) (zeros n)) (Some o) n (t_out T).
Proof. intros idx n T S E. unfold selector in E. destruct (t_off T) as [o|]; [|discriminate]. injection E as <-. eauto. Qed.
Lemma sum_sizes : forall (f : tr -> nat) (g : transform -> nat) ps, (forall p, In p ps -> f (fst p) = g (snd p)) -> list_sum (map f (map fst ps)) = list_sum (map g (map snd ps)).
Proof. induction ps as [|p ps IH]; intros H; auto. change ((f (fst p) + list_sum (map f (map fst ps)))%nat = (g (snd p) + list_sum (map g (map snd ps)))%nat). rewrite (H p), IH; auto; [intros; apply H; right; auto|left; auto]. Qed.
Lemma denotes_sizes : forall t T, denotes t T -> e_in t = t_in T /\ e_out t = t_out T.
Proof.
  induction 1; cbn [e_in e_out]; tc; try (destruct IHdenotes as [I1 I2]); auto.
  - destruct (selector_form _ _ _ _ H3) as [o ->]. auto.
  - destruct (vstack_form _ _ H1) as (n & off & Hn & _ & ->). cbn [t_in t_out]. assert (S := sum_sizes e_out t_out ps (fun p Hp => proj2 (H0 p Hp))). split; auto.
    destruct ps as [|p ps]; [discriminate|]. cbn. rewrite (proj1 (H0 p (or_introl eq_refl))). apply Hn. left; auto.
  - destruct (hstack_form _ _ H1) as (m & off & Hm & _ & ->). cbn [t_in t_out]. assert (S := sum_sizes e_in t_in ps (fun p Hp => proj1 (H0 p Hp))). split; auto.
    destruct ps as [|p ps]; [discriminate|]. cbn. rewrite (proj2 (H0 p (or_introl eq_refl))). apply Hm. left; auto.
  - split; unfold product; cbn [t_in t_out]; apply sum_sizes; intros p Hp; apply H0; auto.
  - destruct (residual_form _ _ H0) as [_ ->]. auto.
  - destruct ps as [|p ps]; [discriminate|]. cbn [map] in H2. unfold composition in H2. injection H2 as <-. cbn [t_in t_out]. split; [|cbn; apply H0; left; auto].
    assert (E1 : last (map e_in (map fst (p :: ps))) 0%nat = e_in (fst (last (p :: ps) p))) by (rewrite map_map; apply (last_map _ _ (fun q => e_in (fst q)) (p :: ps) p 0%nat); discriminate).
    assert (E2 : last (map snd (p :: ps)) (snd p) = snd (last (p :: ps) p)) by (apply (last_map _ _ snd (p :: ps) p); discriminate).
    refine (eq_trans E1 (eq_trans _ (f_equal t_in (eq_sym E2)))).
    apply H0. clear. revert p. induction ps as [|q ps IH]; intros p; [left; auto|]. right. change (last (p :: q :: ps) p) with (last (q :: ps) p).
    assert (E : forall a, last (q :: ps) p = last (q :: ps) a). { intros a. clear IH. revert q. induction ps as [|r ps IH]; intros q; auto. apply (IH r). } rewrite (E q). apply IH.
  - unfold affine_sum in H2. destruct (negb _); [discriminate|]. destruct ps as [|p ps]; [discriminate|]. cbn [map] in H2. injection H2 as <-. cbn. apply H0. left; auto.
Qed.

(** ** Elementwise operations on arrays of the same shape *)
Lemma bdim_same : forall n, bdim n n = Ok n. Proof. intros n. unfold bdim. rewrite Nat.eqb_refl. auto. Qed.
Lemma pick_nth : forall (A : Type) (d : A) l i, (i < length l)%nat -> pick d l i = nth i l d.
Proof. intros A d l i H. unfold pick. destruct (Nat.eqb_spec (length l) 1); auto. replace i with 0%nat by lia. auto. Qed.
Lemma vzip_seq : forall op (a b : vec), length a = length b -> map (fun i => op (nth i a 0) (nth i b 0)) (seq 0 (length a)) = vzip op a b.
Proof.
  intros op a b L. apply nth_ext_R; [rewrite map_length, seq_length, vzip_length; auto|]. intros i Hi. rewrite map_length, seq_length in Hi.
  rewrite (nth_vzip _ _ _ _ 0 0 0) by auto. rewrite (nth_indep _ 0 (op (nth 0 a 0) (nth 0 b 0))) by (rewrite map_length, seq_length; auto).
  rewrite (map_nth (fun i => op (nth i a 0) (nth i b 0))), seq_nth by auto. auto.
Qed.
Lemma bcast_vec : forall op a b, length a = length b -> bcast op (A1 a) (A1 b) = Ok (A1 (vzip op a b)).
Proof.
  intros op a b L. cbn [bcast]. rewrite L, bdim_same. cbn. rewrite <- (vzip_seq op a b L), L. f_equal. f_equal. apply map_ext_in. intros i Hi. apply in_seq in Hi. rewrite !pick_nth by lia. auto.
Qed.
Lemma iadd_vec : forall a b, length a = length b -> iadd (A1 a) (A1 b) = Ok (A1 (vadd a b)).
Proof. intros a b L. unfold iadd. rewrite bcast_vec by auto. cbn. rewrite vzip_length, Nat.eqb_refl by auto. auto. Qed.
Lemma flat_vec : forall k v, length v = k -> flat k (A1 v) = Ok (A1 v). Proof. intros k v <-. cbn. rewrite Nat.eqb_refl. auto. Qed.
Lemma assign_vec : forall k v, length v = k -> assign k (A1 v) = Ok v. Proof. intros k v <-. cbn. rewrite Nat.eqb_refl. auto. Qed.
Lemma nth_seq_map : forall (A : Type) (f : nat -> A) n i d, (i < n)%nat -> nth i (map f (seq 0 n)) d = f i.
Proof. intros A f n i d H. rewrite (nth_indep _ d (f 0%nat)) by (rewrite map_length, seq_length; auto). rewrite (map_nth f), seq_nth by auto. auto. Qed.
Lemma nth_map_gen : forall (A B : Type) (f : A -> B) l i d d', (i < length l)%nat -> nth i (map f l) d = f (nth i l d').
Proof. intros A B f l i d d' H. rewrite (nth_indep _ d (f d')) by (rewrite map_length; auto). apply map_nth. Qed.
Lemma bcast_mat : forall op n c U V, is_matrix n c U -> is_matrix n c V -> exists W, bcast op (A2 c U) (A2 c V) = Ok (A2 c W) /\ is_matrix n c W /\ forall j, (j < c)%nat -> column W j = vzip op (column U j) (column V j).
Proof.
  intros op n c U V [LU FU] [LV FV]. cbn [bcast as_rows]. rewrite LU, LV, !bdim_same. cbn [rbind]. eexists. split; [reflexivity|]. rewrite Forall_forall in FU, FV. split; [split|].
  - rewrite map_length, seq_length. auto.
  - apply Forall_forall. intros r Hr. apply in_map_iff in Hr. destruct Hr as (i & <- & _). rewrite map_length, seq_length. auto.
  - intros j Hj. unfold column at 1. rewrite map_map. assert (CU : length (column U j) = n) by (unfold column; rewrite map_length; exact LU). assert (CV : length (column V j) = n) by (unfold column; rewrite map_length; exact LV). rewrite <- vzip_seq by congruence. rewrite CU. apply map_ext_in. intros i Hi. apply in_seq in Hi.
    rewrite nth_seq_map by auto. assert (HU : (i < @length vec U)%nat) by (unfold vec in *; lia). assert (HV : (i < @length vec V)%nat) by (unfold vec in *; lia).
    rewrite (pick_nth _ [] U i HU), (pick_nth _ [] V i HV). unfold column. rewrite (nth_map_gen _ _ _ U i 0 [] HU), (nth_map_gen _ _ _ V i 0 [] HV).
    rewrite !pick_nth; auto; [rewrite FV; auto; apply nth_In; auto|rewrite FU; auto; apply nth_In; auto].
Qed.
Lemma bdim_one : forall c, bdim 1 c = Ok c.
Proof. intros c. unfold bdim. destruct (Nat.eqb_spec 1 c); subst; auto. Qed.
Lemma bcast_col : forall op a n c U, length a = n -> is_matrix n c U -> exists W, bcast op (col a) (A2 c U) = Ok (A2 c W) /\ is_matrix n c W /\ forall j, (j < c)%nat -> column W j = vzip op a (column U j).
Proof.
  intros op a n c U La [LU FU]. unfold col. cbn [bcast as_rows]. rewrite bdim_one, map_length, La, LU, bdim_same. cbn [rbind]. eexists. split; [reflexivity|]. rewrite Forall_forall in FU. split; [split|].
  - rewrite map_length, seq_length. auto.
  - apply Forall_forall. intros r Hr. apply in_map_iff in Hr. destruct Hr as (i & <- & _). rewrite map_length, seq_length. auto.
  - intros j Hj. assert (CU : length (column U j) = n) by (unfold column; rewrite map_length; exact LU). unfold column at 1. rewrite map_map. rewrite <- vzip_seq by congruence. rewrite La. apply map_ext_in. intros i Hi. apply in_seq in Hi.
    rewrite nth_seq_map by auto. assert (HU : (i < @length vec U)%nat) by (unfold vec in *; lia). assert (HA : (i < @length vec (map (fun a0 => [a0]) a))%nat) by (rewrite map_length; unfold vec in *; lia).
    rewrite (pick_nth _ [] U i HU), (pick_nth _ [] _ i HA). unfold column. rewrite (nth_map_gen _ _ _ U i 0 [] HU). rewrite (nth_map_gen _ _ _ a i [] 0) by (rewrite map_length in HA; exact HA). cbn [pick length Nat.eqb nth].
    f_equal. rewrite pick_nth; auto. rewrite FU; auto. apply nth_In; auto.
Qed.
Lemma concat_column : forall W, Forall (fun r => length r = 1%nat) W -> concat W = column W 0.
Proof. induction W as [|r W IH]; intros H; auto. inversion H as [|x l Hr HW]; subst. cbn. rewrite IH by auto. destruct r as [|a [|b r]]; try discriminate. auto. Qed.
Lemma bf_mat : forall op a n c U, length a = n -> is_matrix n c U -> exists W, broadcast_first a (A2 c U) op = Ok (A2 c W) /\ is_matrix n c W /\ forall j, (j < c)%nat -> column W j = vzip op a (column U j).
Proof.
  intros op a n c U La M. destruct (bcast_col op a n c U La M) as (W & E & MW & C). exists W. split; auto. unfold broadcast_first. rewrite E. cbn [rbind]. destruct M as [M1 M2]. destruct MW as [W1 W2]. rewrite M1, W1, !Nat.eqb_refl. auto.
Qed.
Lemma col_matrix : forall v, is_matrix (length v) 1 (map (fun a => [a]) v).
Proof. intros v. split; [apply map_length|]. apply Forall_forall. intros r Hr. apply in_map_iff in Hr. destruct Hr as (a & <- & _). auto. Qed.
Lemma col_column : forall v, column (map (fun a => [a]) v) 0 = v.
Proof. intros v. unfold column. rewrite map_map. cbn. apply map_id. Qed.
Lemma bf_vec : forall op a v, length a = length v -> broadcast_first a (A1 v) op = Ok (A1 (vzip op a v)).
Proof.
  intros op a v L. destruct (bcast_col op a (length v) 1 _ L (col_matrix v)) as (W & E & [W1 W2] & C). unfold broadcast_first. unfold col at 2. rewrite E. cbn [rbind flat]. rewrite W1, Nat.mul_1_r, Nat.eqb_refl. rewrite concat_column by auto. rewrite C by lia. rewrite col_column. auto.
Qed.
Definition off_of (m : mode) (o : option vec) (v : vec) : vec := match m with Aff => with_offset o v | _ => v end.
Lemma add_off_vec : forall m o v, (m = Aff -> forall a, o = Some a -> length a = length v) -> add_off m o (A1 v) = Ok (A1 (off_of m o v)).
Proof. intros m o v H. destruct m; auto. destruct o as [a|]; auto. unfold add_off. rewrite bf_vec by auto. auto. Qed.
Lemma add_off_mat : forall m o n c U, (m = Aff -> forall a, o = Some a -> length a = n) -> is_matrix n c U -> exists W, add_off m o (A2 c U) = Ok (A2 c W) /\ is_matrix n c W /\ by_columns (off_of m o) c U W.
Proof.
  intros m o n c U H M. assert (T : exists W, Ok (A2 c U) = Ok (A2 c W) /\ is_matrix n c W /\ by_columns (fun v => v) c U W) by (exists U; split; [auto|split; [auto|intros j _; auto]]).
  destruct m; auto. destruct o as [a|]; auto. destruct (bf_mat Rplus a n c U (H eq_refl a eq_refl) M) as (W & E & MW & C). exists W. split; auto.
Qed.

(** ** Loops on vectors *)
Lemma fill_cons : forall F size t ts, fill F size (t :: ts) = rbind (rbind (F t) (assign (size t))) (fun v => rbind (fill F size ts) (fun vs => Ok (v ++ vs))).
Proof. reflexivity. Qed.
Lemma accumulate_cons : forall F size t ts x out, accumulate F size (t :: ts) x out = rbind (flat (size t) (take (size t) x)) (fun b => rbind (F t b) (fun v => rbind (iadd out v) (accumulate F size ts (drop (size t) x)))).
Proof. reflexivity. Qed.
Lemma split_fill_cons : forall F from to t ts x, split_fill F from to (t :: ts) x = rbind (rbind (F t (take (from t) x)) (assign (to t))) (fun v => rbind (split_fill F from to ts (drop (from t) x)) (fun vs => Ok (v ++ vs))).
Proof. reflexivity. Qed.
Lemma total_cons : forall F t ts out, total F (t :: ts) out = rbind (F t) (fun v => rbind (iadd out v) (total F ts)). Proof. reflexivity. Qed.
Lemma from_right_cons : forall F t ts x, from_right F (t :: ts) x = rbind (from_right F ts x) (F t). Proof. reflexivity. Qed.
Lemma from_left_cons : forall F t ts x, from_left F (t :: ts) x = rbind (F t x) (from_left F ts). Proof. reflexivity. Qed.
Lemma wtotal_cons : forall F t ts w ws, wtotal F (t :: ts) (w :: ws) = rbind (wtotal F ts ws) (fun acc => rbind (F t) (fun v =>
      let wv := amap (Rmult w) v in match acc with None => Ok (Some wv) | Some a => rmap Some (iadd a wv) end)).
Proof. reflexivity. Qed.
Lemma fill_vec : forall ps (F : tr -> res arr) (G : transform -> vec) size (sz : transform -> nat), (forall p, In p ps -> F (fst p) = Ok (A1 (G (snd p))) /\ length (G (snd p)) = sz (snd p) /\ size (fst p) = sz (snd p)) ->
  fill F size (map fst ps) = Ok (concat (map G (map snd ps))).
Proof.
  intros ps F G size sz. induction ps as [|p l IH]; intros H; auto. destruct (H p (or_introl eq_refl)) as (E & L & S). cbn [map]. rewrite fill_cons.
  rewrite E. cbn [rbind]. rewrite assign_vec by congruence. cbn [rbind]. rewrite IH by (intros; apply H; right; auto). auto.
Qed.
Fixpoint acc_blocks (G : transform -> vec -> vec) (sz : transform -> nat) (k : nat) (l : list transform) (x : vec) : vec :=
  match l with [] => zeros k | T :: l' => vadd (G T (firstn (sz T) x)) (acc_blocks G sz k l' (skipn (sz T) x)) end.
Lemma accumulate_vec : forall ps (F : tr -> arr -> res arr) (G : transform -> vec -> vec) size (sz : transform -> nat) k x out,
  (forall p v, In p ps -> length v = sz (snd p) -> F (fst p) (A1 v) = Ok (A1 (G (snd p) v)) /\ length (G (snd p) v) = k) -> (forall p, In p ps -> size (fst p) = sz (snd p)) ->
  length x = list_sum (map sz (map snd ps)) -> length out = k ->
  accumulate F size (map fst ps) (A1 x) (A1 out) = Ok (A1 (vadd out (acc_blocks G sz k (map snd ps) x))).
Proof.
  intros ps F G size sz k. induction ps as [|p l IH]; intros x out H S Lx Lo.
  - cbn. f_equal. f_equal. symmetry. apply vadd_zeros_r. auto.
  - cbn [map acc_blocks] in *. rewrite accumulate_cons, (S p (or_introl eq_refl)). change (list_sum (sz (snd p) :: map sz (map snd l))) with (sz (snd p) + list_sum (map sz (map snd l)))%nat in Lx. destruct (firstn_skipn_len _ _ _ Lx) as [X1 X2].
    cbn [take drop]. rewrite flat_vec by auto. cbn [rbind]. destruct (H p (firstn (sz (snd p)) x) (or_introl eq_refl) X1) as [E L]. rewrite E. cbn [rbind]. rewrite iadd_vec by congruence. cbn [rbind].
    rewrite IH; auto; [|intros; apply H; auto; right; auto|intros; apply S; right; auto|rewrite vadd_length; congruence]. f_equal. f_equal. apply vadd_assoc; [congruence|].
    assert (Q : forall (l : list (tr * transform)) (x : vec), (forall p v, In p l -> length v = sz (snd p) -> length (G (snd p) v) = k) -> length x = list_sum (map sz (map snd l)) ->
       length (acc_blocks G sz k (map snd l) x) = k).
    { clear. induction l as [|p l IH]; intros x H L; [apply zeros_length|]. cbn [map acc_blocks] in *. change (list_sum (sz (snd p) :: map sz (map snd l))) with (sz (snd p) + list_sum (map sz (map snd l)))%nat in L. destruct (firstn_skipn_len _ _ _ L) as [X1 X2].
      assert (L1 := H p _ (or_introl eq_refl) X1). rewrite vadd_length; [auto|]. rewrite L1. symmetry. apply IH; auto. intros; apply H; auto; right; auto. }
    rewrite Q; auto. intros q v Hq Lv. apply H; auto. right; auto.
Qed.
Lemma split_fill_vec : forall ps (F : tr -> arr -> res arr) (G : transform -> vec -> vec) from to (si so : transform -> nat) x,
  (forall p v, In p ps -> length v = si (snd p) -> F (fst p) (A1 v) = Ok (A1 (G (snd p) v)) /\ length (G (snd p) v) = so (snd p)) -> (forall p, In p ps -> from (fst p) = si (snd p) /\ to (fst p) = so (snd p)) ->
  length x = list_sum (map si (map snd ps)) -> split_fill F from to (map fst ps) (A1 x) = Ok (blocks G si (map snd ps) x).
Proof.
  intros ps F G from to si so. induction ps as [|p l IH]; intros x H S Lx; auto. cbn [map blocks] in *. rewrite split_fill_cons. destruct (S p (or_introl eq_refl)) as [S1 S2]. rewrite S1, S2.
  change (list_sum (si (snd p) :: map si (map snd l))) with (si (snd p) + list_sum (map si (map snd l)))%nat in Lx. destruct (firstn_skipn_len _ _ _ Lx) as [X1 X2]. cbn [take drop]. destruct (H p _ (or_introl eq_refl) X1) as [E L]. rewrite E. cbn [rbind].
  rewrite assign_vec by auto. cbn [rbind]. rewrite IH; auto; [intros; apply H; auto; right; auto|intros; apply S; right; auto].
Qed.
Lemma total_vec : forall ps (F : tr -> res arr) (G : transform -> vec) k out, (forall p, In p ps -> F (fst p) = Ok (A1 (G (snd p))) /\ length (G (snd p)) = k) -> length out = k ->
  total F (map fst ps) (A1 out) = Ok (A1 (vadd out (fold_right (fun T acc => vadd (G T) acc) (zeros k) (map snd ps)))).
Proof.
  intros ps F G k. induction ps as [|p l IH]; intros out H Lo.
  - cbn. rewrite vadd_zeros_r; auto.
  - cbn [map fold_right]. rewrite total_cons. destruct (H p (or_introl eq_refl)) as [E L]. rewrite E. cbn [rbind]. rewrite iadd_vec by congruence. cbn [rbind]. rewrite IH; [|intros; apply H; right; auto|rewrite vadd_length; congruence].
    f_equal. f_equal. apply vadd_assoc; [congruence|]. rewrite Lo. symmetry. assert (H' : forall p, In p l -> length (G (snd p)) = k) by (intros; apply H; right; auto). clear - H'. induction l as [|q l IH]; [apply zeros_length|].
    cbn [map fold_right]. assert (L := H' q (or_introl eq_refl)). assert (L2 := IH (fun p Hp => H' p (or_intror Hp))). rewrite vadd_length; congruence.
Qed.
Lemma wtotal_vec : forall ps ws (F : tr -> res arr) (G : transform -> vec) k, (forall p, In p ps -> F (fst p) = Ok (A1 (G (snd p))) /\ length (G (snd p)) = k) -> length ws = length ps -> ps <> [] ->
  wtotal F (map fst ps) ws = Ok (Some (A1 (fold_right (fun q acc => vadd acc (vscal (snd q) (G (fst q)))) (zeros k) (combine (map snd ps) ws)))) /\
  length (fold_right (fun q acc => vadd acc (vscal (snd q) (G (fst q)))) (zeros k) (combine (map snd ps) ws)) = k.
Proof.
  intros ps. induction ps as [|p l IH]; intros ws F G k H Lw N; [congruence|]. destruct ws as [|w ws]; [discriminate|]. injection Lw as Lw. cbn [map combine fold_right fst snd]. rewrite wtotal_cons. destruct (H p (or_introl eq_refl)) as [E L].
  destruct l as [|q l].
  - destruct ws; [|discriminate]. cbn [wtotal map rbind combine fold_right]. rewrite E. cbn [rbind amap]. rewrite vadd_comm. rewrite vadd_zeros_r by (rewrite vscal_length; auto). rewrite vscal_length. auto.
  - destruct (IH ws F G k) as [IE IL]; [intros; apply H; right; auto|auto|discriminate|]. rewrite IE, E. cbn [rbind amap]. fold (vscal w (G (snd p))). rewrite iadd_vec by (rewrite IL, vscal_length; auto). cbn [rmap]. split; auto. rewrite vadd_length; [auto|]. rewrite IL, vscal_length. auto.
Qed.

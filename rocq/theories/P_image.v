(** Differences over a lattice. *)
From Coq Require Import Reals List Lra Lia Arith.
From Verif Require Import Vec Spec SpecLoss P_quad P_sep P_cv M_image SpecImage.
Import ListNotations.
Local Open Scope R_scope.

Lemma nth_map_seq : forall (F : nat -> R) n i d, (i < n)%nat -> nth i (map F (seq 0 n)) d = F i.
Proof. intros F n i d H. rewrite (nth_indep _ d (F 0%nat)) by (rewrite map_length, seq_length; auto). rewrite map_nth, seq_nth by auto. auto. Qed.
Lemma sp_length : forall nrow T x, length (sp_mul nrow T x) = nrow. Proof. intros. unfold sp_mul. rewrite map_length, seq_length. auto. Qed.
Definition row_of (T : sparse) (x : vec) (r : nat) : R := vsum (map (fun t => if Nat.eqb (fst (fst t)) r then snd t * nth (snd (fst t)) x 0 else 0) T).
Lemma sp_nth : forall nrow T x r, (r < nrow)%nat -> nth r (sp_mul nrow T x) 0 = row_of T x r.
Proof. intros. unfold sp_mul. apply (nth_map_seq (row_of T x)). auto. Qed.
Lemma row_app : forall T T' x r, row_of (T ++ T') x r = row_of T x r + row_of T' x r.
Proof. intros. unfold row_of. rewrite map_app, vsum_app. auto. Qed.
Lemma block_row : forall n verts idx da db s x r,
  row_of (block n idx verts da db s) x r = if ((idx <=? r) && (r <? idx + length verts))%nat%bool then s * pixel n x (fst (nth (r - idx) verts (0, 0)%nat) + da, snd (nth (r - idx) verts (0, 0)%nat) + db)%nat else 0.
Proof.
  intros n verts. induction verts as [|v verts IH]; intros idx da db s x r.
  - unfold row_of, block, vsum. cbn [length seq combine map fold_right]. rewrite Nat.add_0_r. destruct (Nat.leb_spec idx r); destruct (Nat.ltb_spec r idx); cbn [andb]; auto; lia.
  - unfold row_of, block in *. cbn [length seq combine map fst snd]. rewrite vsum_cons, IH. cbn [length].
    destruct (Nat.eqb_spec idx r) as [->|N].
    + replace ((S r <=? r) && (r <? S r + length verts))%nat%bool with false by (destruct (Nat.leb_spec (S r) r); [lia|auto]). replace ((r <=? r) && (r <? r + S (length verts)))%nat%bool with true by (destruct (Nat.leb_spec r r); destruct (Nat.ltb_spec r (r + S (length verts))); auto; lia).
      rewrite Nat.sub_diag. cbn [nth]. unfold pixel. cbn [fst snd]. ring.
    + destruct (Nat.leb_spec (S idx) r) as [A|A].
      * replace (idx <=? r)%nat with true by (symmetry; apply Nat.leb_le; lia). replace (S idx + length verts)%nat with (idx + S (length verts))%nat by lia. cbn [andb]. destruct (Nat.ltb_spec r (idx + S (length verts))); [|ring].
        replace (r - idx)%nat with (S (r - S idx)) by lia. cbn [nth]. ring.
      * replace (idx <=? r)%nat with false by (symmetry; apply Nat.leb_gt; lia). cbn [andb]. ring.
Qed.
Definition edges_from (verts : list (nat * nat)) (da db : nat) : list ((nat * nat) * (nat * nat)) := map (fun v => (v, (fst v + da, snd v + db)%nat)) verts.
Lemma edges_length : forall verts da db, length (edges_from verts da db) = length verts. Proof. intros. apply map_length. Qed.
Lemma rows_edges : forall n verts idx da db x r,
  row_of (edge_rows n idx verts da db) x r = if ((idx <=? r) && (r <? idx + length verts))%nat%bool then nth (r - idx) (map (edge_diff n x) (edges_from verts da db)) 0 else 0.
Proof.
  intros. unfold edge_rows. rewrite row_app, !block_row. destruct (Nat.leb_spec idx r) as [A|A]; cbn [andb]; [|ring]. destruct (Nat.ltb_spec r (idx + length verts)) as [B|B]; [|ring].
  unfold edges_from. rewrite map_map. rewrite (nth_indep _ 0 ((fun v => edge_diff n x (v, (fst v + da, snd v + db)%nat)) (0, 0)%nat)) by (rewrite map_length; lia). rewrite (map_nth (fun v => edge_diff n x (v, (fst v + da, snd v + db)%nat))). unfold edge_diff. cbn [fst snd]. rewrite !Nat.add_0_r. destruct (nth (r - idx) verts (0, 0)%nat). cbn [fst snd]. unfold pixel. ring.
Qed.
(** Consecutive blocks of rows, then zero rows *)
Fixpoint stack_rows (n idx : nat) (bs : list (list (nat * nat) * (nat * nat))) : sparse :=
  match bs with [] => [] | (verts, (da, db)) :: bs' => edge_rows n idx verts da db ++ stack_rows n (idx + length verts) bs' end.
Definition all_edges (bs : list (list (nat * nat) * (nat * nat))) : list ((nat * nat) * (nat * nat)) := flat_map (fun b => edges_from (fst b) (fst (snd b)) (snd (snd b))) bs.
Lemma stack_row : forall n bs idx x r,
  row_of (stack_rows n idx bs) x r = if (idx <=? r)%nat then nth (r - idx) (map (edge_diff n x) (all_edges bs)) 0 else 0.
Proof.
  intros n bs. induction bs as [|[verts [da db]] bs IH]; intros idx x r.
  - unfold row_of, vsum. cbn. destruct (idx <=? r)%nat; auto. destruct (r - idx)%nat; auto.
  - cbn [stack_rows all_edges flat_map fst snd]. rewrite row_app, rows_edges, IH. fold (all_edges bs). rewrite map_app. destruct (Nat.leb_spec idx r) as [A|A]; cbn [andb].
    + destruct (Nat.ltb_spec r (idx + length verts)) as [B|B].
      * replace (idx + length verts <=? r)%nat with false by (symmetry; apply Nat.leb_gt; lia). rewrite app_nth1 by (rewrite map_length, edges_length; lia). ring.
      * replace (idx + length verts <=? r)%nat with true by (symmetry; apply Nat.leb_le; lia). rewrite app_nth2 by (rewrite map_length, edges_length; lia). rewrite map_length, edges_length. replace (r - (idx + length verts))%nat with (r - idx - length verts)%nat by lia. ring.
    + replace (idx + length verts <=? r)%nat with false by (symmetry; apply Nat.leb_gt; lia). ring.
Qed.
Lemma stack_mul : forall n bs nrow x, (length (all_edges bs) <= nrow)%nat -> sp_mul nrow (stack_rows n 0 bs) x = map (edge_diff n x) (all_edges bs) ++ zeros (nrow - length (all_edges bs)).
Proof.
  intros n bs nrow x H. apply (nth_ext _ _ 0 0); [rewrite sp_length, app_length, map_length, zeros_length; lia|]. intros r Hr. rewrite sp_length in Hr. rewrite sp_nth, stack_row by auto. cbn [Nat.leb]. rewrite Nat.sub_0_r.
  destruct (Nat.lt_ge_cases r (length (all_edges bs))) as [A|A].
  - rewrite app_nth1 by (rewrite map_length; auto). auto.
  - rewrite nth_overflow by (rewrite map_length; auto). rewrite app_nth2 by (rewrite map_length; auto). unfold zeros. rewrite nth_repeat. auto.
Qed.
(** The transpose is the adjoint. *)
Lemma vsum_scal : forall c (l : vec), vsum (map (fun a => c * a) l) = c * vsum l.
Proof. induction l as [|a l IH]; [unfold vsum; cbn; ring|]. cbn [map]. rewrite !vsum_cons, IH. ring. Qed.
Definition in_shape (nrow ncol : nat) (T : sparse) : Prop := Forall (fun t => (fst (fst t) < nrow)%nat /\ (snd (fst t) < ncol)%nat) T.
Lemma sum_one : forall n r F, (r < n)%nat -> sum_over n (fun i => if Nat.eqb r i then F i else 0) = F r.
Proof. intros n r F H. rewrite (sum_over_single n r) by (auto; intros m Hm N; destruct (Nat.eqb_spec r m); congruence). rewrite Nat.eqb_refl. auto. Qed.
Lemma sp_dot : forall nrow ncol T x u, in_shape nrow ncol T -> length u = nrow -> dot (sp_mul nrow T x) u = vsum (map (fun t => snd t * nth (snd (fst t)) x 0 * nth (fst (fst t)) u 0) T).
Proof.
  intros nrow ncol T x u H L. rewrite (dot_index nrow) by (auto; apply sp_length). rewrite (sum_over_ext _ _ (fun r => row_of T x r * nth r u 0)) by (intros; rewrite sp_nth by auto; auto).
  induction T as [|[[r c] a] T IH].
  - unfold row_of. cbn. unfold vsum. cbn. rewrite (sum_over_ext _ _ (fun _ => 0 * 0)) by (intros; ring). rewrite sum_over_scal. ring.
  - inversion H as [|? ? H1 H2]; subst. cbn [map fst snd] in *. rewrite vsum_cons, <- IH by auto. rewrite <- (sum_one (length u) r (fun r => a * nth c x 0 * nth r u 0)) by tauto. rewrite <- sum_over_plus. apply sum_over_ext. intros i Hi. unfold row_of. cbn [map fst snd]. rewrite vsum_cons. destruct (Nat.eqb r i); ring.
Qed.
Lemma sp_adjoint : forall nrow ncol T x u, in_shape nrow ncol T -> length x = ncol -> length u = nrow -> dot (sp_mul nrow T x) u = dot x (sp_mul ncol (sp_T T) u).
Proof.
  intros nrow ncol T x u H Lx Lu. rewrite (sp_dot nrow ncol) by auto. rewrite (dot_comm x). rewrite (sp_dot ncol nrow).
  - unfold sp_T. rewrite map_map. f_equal. apply map_ext. intros [[r c] a]. cbn. ring.
  - unfold sp_T, in_shape. rewrite Forall_map. eapply Forall_impl; [|exact H]. cbn. tauto.
  - auto.
Qed.
Lemma csr_ok : forall nrow ncol T, in_shape nrow ncol T -> csr nrow ncol T = Ok T.
Proof.
  intros nrow ncol T H. unfold csr. replace (forallb _ T) with true; auto. symmetry. apply forallb_forall. intros t Ht. unfold in_shape in H. rewrite Forall_forall in H. destruct (H t Ht). apply andb_true_intro. split; apply Nat.ltb_lt; auto.
Qed.
Lemma block_shape : forall n verts idx da db s nrow ncol, (idx + length verts <= nrow)%nat -> Forall (fun v => ((fst v + da) * n + (snd v + db) < ncol)%nat) verts -> in_shape nrow ncol (block n idx verts da db s).
Proof.
  intros n verts. induction verts as [|v verts IH]; intros idx da db s nrow ncol H F; [constructor|]. inversion F; subst. unfold block. cbn [length seq combine map fst snd] in *. constructor; [cbn; lia|]. apply (IH (S idx)); auto. lia.
Qed.
Definition blocks_fit (m n : nat) (bs : list (list (nat * nat) * (nat * nat))) : Prop := Forall (fun e => lattice_edge m n e) (all_edges bs).
Lemma pixel_index : forall m n v, in_lattice m n v -> (fst v * n + snd v < m * n)%nat.
Proof. intros m n [a b] [A B]. cbn in *. nia. Qed.
Lemma stack_shape : forall m n bs idx nrow, (idx + length (all_edges bs) <= nrow)%nat -> blocks_fit m n bs -> in_shape nrow (m * n) (stack_rows n idx bs).
Proof.
  intros m n bs. induction bs as [|[verts [da db]] bs IH]; intros idx nrow H F; [constructor|]. unfold blocks_fit in F. cbn [all_edges flat_map fst snd stack_rows] in *. fold (all_edges bs) in *. rewrite app_length, edges_length in H. apply Forall_app in F. destruct F as [F1 F2].
  unfold in_shape. apply Forall_app. split; [|apply IH; auto; lia]. unfold edges_from in F1. rewrite Forall_map in F1. unfold edge_rows. apply Forall_app. split; apply block_shape; try lia; eapply Forall_impl; [|exact F1| |exact F1]; intros v (A & B & _); apply pixel_index in A, B; cbn [fst snd] in *; rewrite ?Nat.add_0_r; auto.
Qed.

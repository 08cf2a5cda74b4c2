(** Differences over a lattice: every edge once, gradients pixel by pixel, and the adjoint. *)
From Coq Require Import Reals List Lra Lia Arith.
From Verif Require Import Vec Spec SpecLoss P_quad P_sep P_cv M_image SpecImage P_image.
Import ListNotations.
Local Open Scope R_scope.

Lemma in_vertices : forall r c a0 b0 a b, In (a, b) (vertices r c a0 b0) <-> (a0 <= a < a0 + r /\ b0 <= b < b0 + c)%nat.
Proof.
  intros. unfold vertices. rewrite in_map_iff. split.
  - intros ([i j] & E & H). apply in_prod_iff in H. rewrite !in_seq in H. cbn in E. inversion E; subst. lia.
  - intros H. exists (a - a0, b - b0)%nat. split; [cbn; f_equal; lia|]. apply in_prod_iff. rewrite !in_seq. lia.
Qed.
Lemma vertices_length : forall r c a0 b0, length (vertices r c a0 b0) = (r * c)%nat.
Proof. intros. unfold vertices. rewrite map_length, prod_length, !seq_length. auto. Qed.
Lemma nodup_app : forall {A} (u v : list A), NoDup u -> NoDup v -> (forall z, In z u -> ~ In z v) -> NoDup (u ++ v).
Proof.
  induction u as [|a u IH]; intros v Hu Hv Hd; auto. inversion Hu; subst. cbn. constructor; [rewrite in_app_iff; intros [C|C]; [auto|exact (Hd a (or_introl eq_refl) C)]|]. apply IH; auto. intros z Hz. apply Hd. right. auto.
Qed.
Lemma nodup_prod : forall (l l' : list nat), NoDup l -> NoDup l' -> NoDup (list_prod l l').
Proof.
  induction l as [|a l IH]; intros l' H H'; cbn; [constructor|]. inversion H; subst. apply nodup_app; auto; [apply FinFun.Injective_map_NoDup; auto; intros x y E; congruence|].
  intros [x y] Hz Hz'. apply in_map_iff in Hz. destruct Hz as (y' & E & _). inversion E; subst. apply in_prod_iff in Hz'. tauto.
Qed.
Lemma nodup_vertices : forall r c a0 b0, NoDup (vertices r c a0 b0).
Proof. intros. unfold vertices. apply FinFun.Injective_map_NoDup; [intros [a b] [c' d] E; cbn in E; inversion E; f_equal; lia|]. apply nodup_prod; apply seq_NoDup. Qed.
Lemma in_edges : forall verts da db u v, In (u, v) (edges_from verts da db) <-> In u verts /\ v = (fst u + da, snd u + db)%nat.
Proof.
  intros. unfold edges_from. rewrite in_map_iff. split; [intros (w & E & H); inversion E; subst; auto|]. intros [H ->]. exists u. auto.
Qed.
Lemma nodup_edges : forall verts da db, NoDup verts -> NoDup (edges_from verts da db).
Proof. intros. unfold edges_from. apply FinFun.Injective_map_NoDup; auto. intros u v E. congruence. Qed.

Definition small_blocks (m n : nat) : list (list (nat * nat) * (nat * nat)) :=
  [(vertices (m - 1) (n - 1) 0 0, (1, 0)); (vertices (m - 1) (n - 1) 0 0, (0, 1)); (vertices 1 (n - 1) (m - 1) 0, (0, 1)); (vertices (m - 1) 1 0 (n - 1), (1, 0))]%nat.
Definition first_blocks (m n : nat) : list (list (nat * nat) * (nat * nat)) :=
  [(vertices (m - 1) (n - 1) 0 0, (1, 0)); (vertices 1 (n - 1) (m - 1) 0, (0, 1)); (vertices (m - 1) 1 0 (n - 1), (1, 0))]%nat.
Definition second_blocks (m n : nat) : list (list (nat * nat) * (nat * nat)) := [(vertices (m - 1) (n - 1) 0 0, (0, 1))]%nat.
Lemma all_edges_app : forall b b', all_edges (b ++ b') = all_edges b ++ all_edges b'.
Proof. intros. unfold all_edges. apply flat_map_app. Qed.
Lemma edge_cases : forall m n u v, (1 <= m)%nat -> (1 <= n)%nat -> lattice_edge m n (u, v) <->
  (In (u, v) (edges_from (vertices (m - 1) (n - 1) 0 0) 1 0) \/ In (u, v) (edges_from (vertices (m - 1) (n - 1) 0 0) 0 1) \/ In (u, v) (edges_from (vertices 1 (n - 1) (m - 1) 0) 0 1) \/ In (u, v) (edges_from (vertices (m - 1) 1 0 (n - 1)) 1 0)).
Proof.
  intros m n [a b] [c d] Hm Hn. rewrite !in_edges, !in_vertices. unfold lattice_edge, in_lattice. cbn [fst snd]. split.
  - intros ((A1 & A2) & (B1 & B2) & [E|E]); inversion E; subst.
    + destruct (Nat.eq_dec b (n - 1)) as [->|N]; [right; right; right|left]; (split; [lia|f_equal; lia]).
    + destruct (Nat.eq_dec a (m - 1)) as [->|N]; [right; right; left|right; left]; (split; [lia|f_equal; lia]).
  - intros [[A E]|[[A E]|[[A E]|[A E]]]]; inversion E; subst; repeat split; try lia; ((left; f_equal; lia) || (right; f_equal; lia)).
Qed.
Lemma small_edges : forall m n, (1 <= m)%nat -> (1 <= n)%nat -> NoDup (all_edges (small_blocks m n)) /\ forall e, In e (all_edges (small_blocks m n)) <-> lattice_edge m n e.
Proof.
  intros m n Hm Hn. unfold all_edges, small_blocks. cbn [flat_map fst snd]. rewrite app_nil_r. split.
  - repeat (apply nodup_app; [apply nodup_edges, nodup_vertices| |]); try (apply nodup_edges, nodup_vertices); intros [[a b] v] H C; rewrite ?in_app_iff in C; rewrite !in_edges, ?in_vertices in *; cbn [fst snd] in *;
      destruct H as [H E]; repeat match goal with C : _ \/ _ |- _ => destruct C as [C|C] end; rewrite ?in_vertices in C; destruct C as [C E']; subst v; inversion E'; lia.
  - intros [u v]. rewrite !in_app_iff, edge_cases by auto. tauto.
Qed.
Lemma formD_edges : forall m n, (1 <= m)%nat -> (1 <= n)%nat -> NoDup (all_edges (first_blocks m n) ++ all_edges (second_blocks m n)) /\ forall e, In e (all_edges (first_blocks m n) ++ all_edges (second_blocks m n)) <-> lattice_edge m n e.
Proof.
  intros m n Hm Hn. rewrite <- all_edges_app. unfold all_edges, first_blocks, second_blocks. cbn [flat_map fst snd app]. rewrite app_nil_r. split.
  - repeat (apply nodup_app; [apply nodup_edges, nodup_vertices| |]); try (apply nodup_edges, nodup_vertices); intros [[a b] v] H C; rewrite ?in_app_iff in C; rewrite !in_edges, ?in_vertices in *; cbn [fst snd] in *;
      destruct H as [H E]; repeat match goal with C : _ \/ _ |- _ => destruct C as [C|C] end; rewrite ?in_vertices in C; destruct C as [C E']; subst v; inversion E'; lia.
  - intros [u v]. rewrite !in_app_iff, edge_cases by auto. tauto.
Qed.
Lemma small_count : forall m n, length (all_edges (small_blocks m n)) = (2 * (m - 1) * (n - 1) + (m - 1) + (n - 1))%nat.
Proof. intros. unfold all_edges, small_blocks. cbn [flat_map fst snd]. rewrite !app_length, !edges_length, !vertices_length. cbn [length]. lia. Qed.
Lemma first_count : forall m n, (1 <= m)%nat -> (1 <= n)%nat -> length (all_edges (first_blocks m n)) = (m * n - 1)%nat.
Proof. intros m n Hm Hn. unfold all_edges, first_blocks. cbn [flat_map fst snd]. rewrite !app_length, !edges_length, !vertices_length. cbn [length]. nia. Qed.
Lemma second_count : forall m n, length (all_edges (second_blocks m n)) = ((m - 1) * (n - 1))%nat.
Proof. intros m n. unfold all_edges, second_blocks. cbn [flat_map fst snd]. rewrite !app_length, !edges_length, !vertices_length. cbn [length]. lia. Qed.
Lemma stack_form : forall m n, formD m n = (if (Nat.eqb m 0 || Nat.eqb n 0)%bool then Err ValueError else csr (formD_rows m n) (m * n) (stack_rows n 0 (first_blocks m n ++ second_blocks m n)))
  /\ formD_smaller m n = (if (Nat.eqb m 0 || Nat.eqb n 0)%bool then Err ValueError else csr (2 * (m - 1) * (n - 1) + (m - 1) + (n - 1))%nat (m * n) (stack_rows n 0 (small_blocks m n))).
Proof. intros m n. unfold formD, formD_smaller, first_blocks, second_blocks, small_blocks. cbn [app stack_rows]. rewrite !app_nil_r. cbn [Nat.add]. split; reflexivity. Qed.
Lemma not_empty : forall m n, (1 <= m)%nat -> (1 <= n)%nat -> (Nat.eqb m 0 || Nat.eqb n 0)%bool = false.
Proof. intros m n Hm Hn. destruct m, n; try lia; auto. Qed.
Lemma formD_ok : forall m n, (1 <= m)%nat -> (1 <= n)%nat -> formD m n = Ok (stack_rows n 0 (first_blocks m n ++ second_blocks m n)) /\ in_shape (formD_rows m n) (m * n) (stack_rows n 0 (first_blocks m n ++ second_blocks m n)).
Proof.
  intros m n Hm Hn. assert (S : in_shape (formD_rows m n) (m * n) (stack_rows n 0 (first_blocks m n ++ second_blocks m n))).
  { apply stack_shape; [rewrite all_edges_app, app_length, first_count, second_count by auto; unfold formD_rows; nia|]. unfold blocks_fit. rewrite all_edges_app. apply Forall_forall. intros e He. apply formD_edges in He; auto. }
  split; auto. rewrite (proj1 (stack_form m n)), not_empty by auto. apply csr_ok. auto.
Qed.
(** formD_smaller: one row for each edge of the lattice, in no particular order. *)
Theorem small_rows : forall m n, (1 <= m)%nat -> (1 <= n)%nat -> exists T es, formD_smaller m n = Ok T /\ NoDup es /\ (forall e, In e es <-> lattice_edge m n e) /\
  let nrow := (2 * (m - 1) * (n - 1) + (m - 1) + (n - 1))%nat in length es = nrow /\ forall x, sp_mul nrow T x = map (edge_diff n x) es.
Proof.
  intros m n Hm Hn. exists (stack_rows n 0 (small_blocks m n)), (all_edges (small_blocks m n)). destruct (small_edges m n Hm Hn) as [N I]. split; [|split; auto; split; auto].
  - rewrite (proj2 (stack_form m n)), not_empty by auto. apply csr_ok. apply stack_shape; [rewrite small_count; lia|]. apply Forall_forall. intros e He. apply I. auto.
  - cbv zeta. split; [apply small_count|]. intros x. rewrite stack_mul by (rewrite small_count; lia). rewrite small_count, Nat.sub_diag. cbn [zeros repeat]. apply app_nil_r.
Qed.
(** formD: the same rows in another order, and zero rows after them. *)
Theorem formD_values : forall m n, (1 <= m)%nat -> (1 <= n)%nat -> exists T es, formD m n = Ok T /\ NoDup es /\ (forall e, In e es <-> lattice_edge m n e) /\
  forall x, sp_mul (formD_rows m n) T x = map (edge_diff n x) es ++ zeros ((m - 1) + (n - 1)).
Proof.
  intros m n Hm Hn. destruct (formD_ok m n Hm Hn) as [E S]. destruct (formD_edges m n Hm Hn) as [N I]. eexists. exists (all_edges (first_blocks m n) ++ all_edges (second_blocks m n)). split; [exact E|]. split; auto. split; auto.
  intros x. assert (L : length (all_edges (first_blocks m n ++ second_blocks m n)) = (m * n - 1 + (m - 1) * (n - 1))%nat) by (rewrite all_edges_app, app_length, first_count, second_count by auto; auto).
  rewrite stack_mul by (rewrite L; unfold formD_rows; nia). rewrite L, all_edges_app. do 2 f_equal. unfold formD_rows. nia.
Qed.

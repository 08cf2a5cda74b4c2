(** The image2d_differences transform. *)
From Coq Require Import Reals List Lra Lia Arith.
From Verif Require P_multi2.
From Verif Require Import Vec Spec SpecLoss P_quad P_sep P_cv M_image SpecImage P_image P_image2.
Import ListNotations.
Local Open Scope R_scope.

Lemma two_rows_length : forall k v, length (two_rows_T k v) = (2 * k)%nat. Proof. intros. unfold two_rows_T. rewrite map_length, seq_length. auto. Qed.
Lemma two_cols_length : forall k v, length (two_cols_T k v) = (2 * k)%nat. Proof. intros. unfold two_cols_T. rewrite map_length, seq_length. auto. Qed.
Lemma two_rows_nth : forall k v r c, (r < k)%nat -> (c < 2)%nat -> nth (r * 2 + c) (two_rows_T k v) 0 = nth (c * k + r) v 0.
Proof.
  intros k v r c Hr Hc. unfold two_rows_T. rewrite (nth_map_seq (fun q => nth ((q mod 2) * k + q / 2) v 0)) by lia. replace (r * 2 + c)%nat with (c + r * 2)%nat by lia. rewrite Nat.mod_add, Nat.div_add, Nat.mod_small, Nat.div_small by lia. auto.
Qed.
Lemma two_cols_nth : forall k u r c, (r < k)%nat -> (c < 2)%nat -> nth (c * k + r) (two_cols_T k u) 0 = nth (r * 2 + c) u 0.
Proof.
  intros k u r c Hr Hc. unfold two_cols_T. rewrite (nth_map_seq (fun q => nth (2 * (q mod k) + q / k) u 0)) by nia. replace (c * k + r)%nat with (r + c * k)%nat by lia. rewrite Nat.mod_add, Nat.div_add, Nat.mod_small, Nat.div_small by lia. f_equal. lia.
Qed.
Lemma two_adjoint : forall k v u, length v = (2 * k)%nat -> length u = (2 * k)%nat -> dot (two_rows_T k v) u = dot v (two_cols_T k u).
Proof.
  intros k v u Lv Lu. rewrite !(dot_index (2 * k)) by (auto; first [apply two_rows_length|apply two_cols_length]). rewrite (P_multi2.sum_over_mul 2 k (fun i => nth i v 0 * nth i (two_cols_T k u) 0)). replace (2 * k)%nat with (k * 2)%nat by lia. rewrite P_multi2.sum_over_mul, sum_over_swap. apply sum_over_ext. intros c Hc. apply sum_over_ext. intros r Hr.
  rewrite two_rows_nth, two_cols_nth by auto. auto.
Qed.
Definition vertex_list (m n : nat) : list (nat * nat) := map fst (all_edges (first_blocks m n)).
Lemma vertex_list_eq : forall m n, vertex_list m n = vertices (m - 1) (n - 1) 0 0 ++ vertices 1 (n - 1) (m - 1) 0 ++ vertices (m - 1) 1 0 (n - 1).
Proof.
  intros. unfold vertex_list, all_edges, first_blocks. cbn [flat_map fst snd]. rewrite app_nil_r, !map_app. unfold edges_from. rewrite !map_map. cbn [fst]. rewrite !map_id. auto.
Qed.
Lemma vertex_list_spec : forall m n, (1 <= m)%nat -> (1 <= n)%nat -> NoDup (vertex_list m n) /\ forall v, In v (vertex_list m n) <-> in_lattice m n v /\ v <> (m - 1, n - 1)%nat.
Proof.
  intros m n Hm Hn. rewrite vertex_list_eq. split.
  - repeat (apply nodup_app; [apply nodup_vertices| |]); try apply nodup_vertices; intros [a b] H C; rewrite ?in_app_iff in C; rewrite !in_vertices in *; lia.
  - intros [a b]. rewrite !in_app_iff, !in_vertices. unfold in_lattice. cbn [fst snd]. split.
    + intros H. split; [lia|]. intros E. inversion E. lia.
    + intros [H N]. destruct (Nat.eq_dec a (m - 1)) as [->|]; destruct (Nat.eq_dec b (n - 1)) as [->|]; try congruence; lia.
Qed.
Lemma im_values : forall m n off, (1 <= m)%nat -> (1 <= n)%nat -> exists I, im_new m n off = Ok I /\ im_m I = m /\ im_n I = n /\ im_off I = off /\
  im_DT I = sp_T (im_D I) /\ in_shape (formD_rows m n) (m * n) (im_D I) /\
  forall x, sp_mul (formD_rows m n) (im_D I) x = map (edge_diff n x) (all_edges (first_blocks m n)) ++ map (edge_diff n x) (all_edges (second_blocks m n)) ++ zeros ((m - 1) + (n - 1)).
Proof.
  intros m n off Hm Hn. destruct (formD_ok m n Hm Hn) as [E S]. unfold im_new. rewrite E. cbn [rbind]. eexists. split; [reflexivity|]. cbn [im_m im_n im_off im_D im_DT]. do 4 (split; auto). split; auto.
  intros x. assert (L : length (all_edges (first_blocks m n ++ second_blocks m n)) = (m * n - 1 + (m - 1) * (n - 1))%nat) by (rewrite all_edges_app, app_length, first_count, second_count by auto; auto).
  rewrite stack_mul by (rewrite L; unfold formD_rows; nia). rewrite L, all_edges_app, map_app, app_assoc. do 2 f_equal. unfold formD_rows. nia.
Qed.
(** Row r of linear_map(x) is the gradient at one pixel: both differences that start there, or the one that exists and zero. *)
Theorem im_gradient : forall m n off, (1 <= m)%nat -> (1 <= n)%nat -> exists I vs, im_new m n off = Ok I /\ NoDup vs /\ length vs = (m * n - 1)%nat /\
  (forall v, In v vs <-> in_lattice m n v /\ v <> (m - 1, n - 1)%nat) /\
  forall x, length x = (m * n)%nat -> exists y, im_linear I x = Ok y /\ length y = (2 * (m * n - 1))%nat /\
    forall r, (r < m * n - 1)%nat -> nth (r * 2) y 0 * nth (r * 2) y 0 + nth (r * 2 + 1) y 0 * nth (r * 2 + 1) y 0 = grad2 m n x (nth r vs (0, 0)%nat).
Proof.
  intros m n off Hm Hn. destruct (im_values m n off Hm Hn) as (I & EI & Em & En & _ & _ & _ & V). exists I, (vertex_list m n). destruct (vertex_list_spec m n Hm Hn) as [ND IN].
  assert (LV : length (vertex_list m n) = (m * n - 1)%nat) by (unfold vertex_list; rewrite map_length, first_count; auto). split; auto. split; auto. split; auto. split; auto. intros x Lx. unfold im_linear. rewrite Em, En, Lx, Nat.eqb_refl.
  eexists. split; [reflexivity|]. split; [apply two_rows_length|]. intros r Hr. rewrite <- (Nat.add_0_r (r * 2)). rewrite two_rows_nth by lia. rewrite Nat.add_0_r, two_rows_nth by lia. rewrite V. replace (0 * (m * n - 1) + r)%nat with r by lia. replace (1 * (m * n - 1) + r)%nat with (m * n - 1 + r)%nat by lia.
  set (F := map (edge_diff n x) (all_edges (first_blocks m n))). assert (LF : length F = (m * n - 1)%nat) by (unfold F; rewrite map_length, first_count; auto).
  rewrite app_nth1 by (rewrite LF; auto). rewrite app_nth2 by (rewrite LF; lia). rewrite LF. replace (m * n - 1 + r - (m * n - 1))%nat with r by lia.
  rewrite vertex_list_eq. unfold F, all_edges, first_blocks, second_blocks. cbn [flat_map fst snd]. rewrite !app_nil_r, !map_app. unfold edges_from. rewrite !map_map.
  assert (NM : forall (G : nat * nat -> R) l k, (k < length l)%nat -> nth k (map G l) 0 = G (nth k l (0, 0)%nat)). { intros G l k Hk. rewrite (nth_indep _ 0 (G (0, 0)%nat)) by (rewrite map_length; auto). apply map_nth. }
  set (A := vertices (m - 1) (n - 1) 0 0). set (B := vertices 1 (n - 1) (m - 1) 0). set (C := vertices (m - 1) 1 0 (n - 1)).
  assert (LA : length A = ((m - 1) * (n - 1))%nat) by apply vertices_length. assert (LB : length B = (n - 1)%nat) by (unfold B; rewrite vertices_length; lia). assert (LC : length C = (m - 1)%nat) by (unfold C; rewrite vertices_length; lia).
  assert (Z : (length A <= r)%nat -> nth r (map (fun v => edge_diff n x (v, (fst v + 0, snd v + 1)%nat)) A ++ zeros (m - 1 + (n - 1))) 0 = 0).
  { intros Hr'. rewrite app_nth2 by (rewrite map_length; auto). unfold zeros. apply nth_repeat. }
  destruct (Nat.lt_ge_cases r (length A)) as [HA|HA].
  - rewrite !app_nth1 by (rewrite ?map_length; auto). rewrite !NM by auto. pose proof (nth_In A (0, 0)%nat HA) as HI. destruct (nth r A (0, 0)%nat) as [a b]. apply in_vertices in HI. unfold grad2, edge_diff. cbn [fst snd].
    replace (S a <? m)%nat with true by (symmetry; apply Nat.ltb_lt; lia). replace (S b <? n)%nat with true by (symmetry; apply Nat.ltb_lt; lia). rewrite !Nat.add_0_r, !Nat.add_1_r. ring.
  - rewrite Z by auto. rewrite (app_nth2 (map _ A)) by (rewrite map_length; auto). rewrite (app_nth2 A) by auto. rewrite map_length. destruct (Nat.lt_ge_cases (r - length A) (length B)) as [HB|HB].
    + rewrite !app_nth1 by (rewrite ?map_length; auto). rewrite !NM by auto. pose proof (nth_In B (0, 0)%nat HB) as HI. destruct (nth (r - length A) B (0, 0)%nat) as [a b]. apply in_vertices in HI. unfold grad2, edge_diff. cbn [fst snd].
      replace (S a <? m)%nat with false by (symmetry; apply Nat.ltb_ge; lia). replace (S b <? n)%nat with true by (symmetry; apply Nat.ltb_lt; lia). rewrite !Nat.add_0_r, !Nat.add_1_r. ring.
    + rewrite (app_nth2 (map _ B)) by (rewrite map_length; auto). rewrite (app_nth2 B) by auto. rewrite map_length. assert (HC : (r - length A - length B < length C)%nat) by nia. rewrite !NM by auto. pose proof (nth_In C (0, 0)%nat HC) as HI. destruct (nth (r - length A - length B) C (0, 0)%nat) as [a b]. apply in_vertices in HI. unfold grad2, edge_diff. cbn [fst snd].
      replace (S a <? m)%nat with true by (symmetry; apply Nat.ltb_lt; lia). replace (S b <? n)%nat with false by (symmetry; apply Nat.ltb_ge; lia). rewrite !Nat.add_0_r, !Nat.add_1_r. ring.
Qed.
(** adjoint_map is the adjoint of linear_map; affine_map adds the offset. *)
Theorem im_adjoint_spec : forall m n off I x u, (1 <= m)%nat -> (1 <= n)%nat -> im_new m n off = Ok I -> length x = (m * n)%nat -> length u = (2 * (m * n - 1))%nat ->
  exists y a, im_linear I x = Ok y /\ im_adjoint I u = Ok a /\ length y = length u /\ length a = (m * n)%nat /\ dot y u = dot x a /\
    (forall o, off = Some o -> length o = length u -> im_affine I x = Ok (vadd y o)) /\ (off = None -> im_affine I x = Ok y).
Proof.
  intros m n off I x u Hm Hn E Lx Lu. destruct (im_values m n off Hm Hn) as (I' & EI & Em & En & Eo & ET & S & _). rewrite E in EI. inversion EI; subst I'. clear EI.
  assert (EL : im_linear I x = Ok (two_rows_T (m * n - 1) (sp_mul (formD_rows m n) (im_D I) x))) by (unfold im_linear; rewrite Em, En, Lx, Nat.eqb_refl; auto).
  assert (EA : im_adjoint I u = Ok (sp_mul (m * n) (im_DT I) (two_cols_T (m * n - 1) u))) by (unfold im_adjoint; rewrite Em, En, Lu; unfold formD_rows; rewrite Nat.eqb_refl; auto).
  eexists. eexists. split; [exact EL|]. split; [exact EA|]. split; [rewrite two_rows_length; auto|]. split; [apply sp_length|]. split; [|split].
  - rewrite two_adjoint by (rewrite ?sp_length; auto). rewrite (sp_adjoint (formD_rows m n) (m * n)) by (auto; rewrite two_cols_length; auto). rewrite ET. auto.
  - intros o Ho Lo. unfold im_affine. rewrite Eo, Ho, EL. cbn [rbind]. rewrite Lo, Lu, two_rows_length, Nat.eqb_refl. auto.
  - intros Ho. unfold im_affine. rewrite Eo, Ho. auto.
Qed.

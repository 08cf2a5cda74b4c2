(** Sparse group block paths: a largest multiplier of zero, and one path in full. *)
From Coq Require Import Reals List Lra Lia Psatz Bool ZArith Permutation Sorted.
From Verif Require P_sgl7 P_sgb3 P_path2.
From Verif Require Import M_affine SpecAffine P_affine P_affine2 Vec Spec SpecAtom SpecConvex M_quad M_prox M_semi SpecPart SpecGroup M_mixed M_weighted M_group SpecSgl M_sgl SpecBlock M_block SpecSgb M_sgb P_quad P_prox P_calc P_part P_weighted P_gauge P_group P_group2 P_sgl P_search P_sgl2 P_sgl3 P_sgl5
  M_loss SpecLoss SpecSmooth P_smooth P_fista M_problem M_cv SpecCv P_cv M_path SpecPath P_path P_path2 P_path3 P_path4 P_path5 P_path6 M_gpath SpecGpath SpecSgpath P_gpath P_gpath2 P_gpath3 P_gpath4 P_sgpath P_sgpath2 P_sgpath3 P_sgpath4 P_sgpath5 P_sgpath6 P_sgpath7 M_sbpath SpecSbpath P_cones P_block P_sgb P_sbpath P_sbpath2 P_sbpath3.
Import ListNotations.
Local Open Scope R_scope.

Theorem lambda_max_zero : forall order grad func X l1_alpha enet alpha fuel prop nstep, let l := / 10 ^ 11 in let B := gq_base (sb_path order grad func X 1 1 l l l1_alpha enet alpha fuel) in
  good_path B -> (20 < fuel)%nat -> (2 <= nstep)%nat -> path_gradient B [0] (t_lin X [0]) 1 = [/ 10 ^ 10] ->
  (exists ls, sb_lagrange_sequence 1 1 l l (path_gradient B [0] (t_lin X [0]) 1) prop nstep alpha fuel = Ok ls /\ length ls = nstep /\ forall i, nth i ls 0 = 0) /\
  forall lam, 0 < lam -> alpha * lam < 5 -> ~ forall v, length v = 1%nat -> block_objective B 1 1 l l lam [0] <= block_objective B 1 1 l l lam v.
Proof.
  intros order grad func X l1_alpha enet alpha fuel prop nstep l B GP Hf Hn Eg. destruct P_sgb3.block_gauge_wrong as (HD & Ez). rewrite Eg. split.
  - unfold sb_lagrange_sequence, l. rewrite Ez by auto. cbn [rbind]. eexists. split; [reflexivity|]. rewrite map_length, rev_length, map_length, linspace_length. split; auto. intros i. destruct (Nat.lt_ge_cases i nstep) as [Hi|Hi].
    + rewrite sequence_nth by lia. unfold Rdiv. ring.
    + apply nth_overflow. rewrite map_length, rev_length, map_length, linspace_length. auto.
  - intros lam Hl H5 M. assert (Hpos : 0 <= l) by (unfold l; lra). apply (zero_optimal_iff order grad func X 1 1 l l l1_alpha enet alpha fuel GP Hpos Hpos lam Hl) in M. change (sb_at order grad func X 1 1 l l l1_alpha enet alpha fuel 1 (zeros (1 * 1))) with (path_gradient B [0] (t_lin X [0]) 1) in M. rewrite Eg in M.
    destruct HD as (_ & _ & HD). specialize (HD (alpha * lam)). assert (0 <= alpha * lam). { destruct (gp_alpha _ GP) as (Ha & _). change (lp_alpha B) with alpha in Ha. nra. } specialize (HD H M). lra.
Qed.
(** ** one entry, y = 3, weights 1 and 1 *)
Definition one_path (order : list ext -> list nat) : gpath := sb_path order (fun v => vsub v [3]) (fun v => / 2 * sqn (vsub v [3])) (matrix [[1]] 1 None) 1 1 1 1 None [0] 1 30.
Lemma one_good : forall order, good_path (gq_base (one_path order)).
Proof. intros order. change (gq_base (one_path order)) with (gauss_path [[1]] 1 [3] [1] [0] 1). apply gauss_good; auto; try lra; repeat constructor; lra. Qed.
Lemma one_smooth : forall order x, smooth_part (gq_base (one_path order)) 1 [x] = half_dist [3] [x].
Proof. intros. unfold smooth_part, half_dist. cbn. unfold sqn, dot, vsum. cbn. field. Qed.
Lemma one_minimum : forall x, half_dist [3] [1] + 1 * block_pen 1 1 1 1 [1] <= half_dist [3] [x] + 1 * block_pen 1 1 1 1 [x].
Proof.
  intros x. rewrite !one_block. unfold half_dist. cbn [vsub vzip]. unfold sqn, dot, vsum. cbn [vmul vzip fold_right]. rewrite (Rabs_pos_eq 1) by lra. assert (A := Rle_abs x). assert (0 <= (x - 1) * (x - 1)) by apply Rle_0_sqr. lra.
Qed.
Theorem one_case : forall order, sorts order -> let B := gq_base (one_path order) in good_path B /\ block_solves B 1 1 1 1 1 [0%Z] [1] /\ embed (lp_size B) (features (row_labels 1 1) [0%Z]) [1] = [1] /\
  exists q, sb_check order 1 1 1 1 (path_gradient B [1] (t_lin (matrix [[1]] 1 None) [1]) 1) [1] (1 * 1) kkt_tol 30 = Ok q /\ passes q.
Proof.
  intros order So B. split; [apply one_good|]. assert (Em : forall x, embed (lp_size B) (features (row_labels 1 1) [0%Z]) [x] = [x]) by reflexivity. split; [|split; [apply Em|]].
  - split; [reflexivity|]. split; [eexists; reflexivity|]. intros [|x [|]] Lx; try discriminate. rewrite !Em. unfold block_objective, B. rewrite !one_smooth. change (lp_alpha (gq_base (one_path order))) with 1. cbn [ext_le]. assert (M := one_minimum x). lra.
  - assert (G := path_gradient_right B (one_good order) 1 [1] eq_refl). change (lp_size B) with (1 * 1)%nat in G. change (lp_X B) with (matrix [[1]] 1 None) in G.
    apply (sb_complete order 1 1 1 1 _ [1] (1 * 1) kkt_tol 30 (smooth_part B 1)); auto; try lia; try lra; try (unfold kkt_tol; lra).
    + cbn [repeat]. unfold resolved, resolution, kkt_tol. rewrite P_sgl7.norm1, Rabs_pos_eq by lra. lra.
    + intros [|x [|]] Lx; try discriminate. unfold B. rewrite !one_smooth. assert (M := one_minimum x). lra.
Qed.

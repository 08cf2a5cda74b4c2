(** Proofs about regreg/atoms/sparse_group_block.py: proximal maps, values, conjugates, copies. *)
From Coq Require Import Reals List Lra Lia Psatz Bool Arith.
From Verif Require Import Vec Spec SpecAtom M_quad M_prox M_semi M_shift M_mode SpecBase SpecMode SpecModed SpecWeighted SpecPart SpecLinear SpecSgl SpecBlock M_sgl M_block SpecBatom M_sgb SpecSgb
  P_quad P_prox P_feas P_semi P_conj P_shift P_gauge P_part P_mixed P_linear P_group P_sgl P_search P_sgl2 P_sgl3 P_sgl4 P_sgl6 P_block P_block2 P_block3.
Import ListNotations.
Local Open Scope R_scope.

Definition row_pen (l1 l2 : R) (y : vec) : ext := ext_add (Fin (l1 * ell1 y)) (Fin (l2 * ell2 y)).
Lemma bpen_rows : forall r c l1 l2 x, length x = (r * c)%nat -> sparse_block r c l1 l2 x = row_sum (row_pen l1 l2) r c x.
Proof.
  intros r c l1 l2 x L. unfold sparse_block, row_sum. rewrite <- (concat_rows r c x L) at 1. generalize (rows r c x). intros l. induction l as [|row l IH].
  - cbn. f_equal. ring.
  - cbn [map concat]. unfold ext_sum in *. cbn [fold_right]. rewrite <- IH. unfold row_pen. cbn [ext_add]. f_equal. unfold ell1. rewrite map_app, vsum_app. unfold vsum. cbn [fold_right]. ring.
Qed.

(** ** One row *)
Definition soft (k : R) (row : vec) : vec := map (fun a => sgn a * Rmax (Rabs a - k) 0) row.
Lemma soft_length : forall k row, length (soft k row) = length row. Proof. intros. apply map_length. Qed.
Lemma soft_gap : forall k a, 0 <= k -> Rabs (a - sgn a * Rmax (Rabs a - k) 0) <= k /\ forall f, 0 <= f -> (a - sgn a * Rmax (Rabs a - k) 0) * (f * (sgn a * Rmax (Rabs a - k) 0)) = k * Rabs (f * (sgn a * Rmax (Rabs a - k) 0)).
Proof.
  intros k a Hk. unfold sgn. destruct (Rlt_dec 0 a) as [P|P]; [|destruct (Rlt_dec a 0) as [N|N]].
  - rewrite (Rabs_right a) by lra. unfold Rmax. destruct (Rle_dec (a - k) 0).
    + split; [rewrite Rabs_right; lra|]. intros f Hf. replace (f * (1 * 0)) with 0 by ring. rewrite Rabs_R0. ring.
    + split; [rewrite Rabs_right; lra|]. intros f Hf. rewrite (Rabs_right (f * _)) by nra. ring.
  - rewrite (Rabs_left a) by lra. unfold Rmax. destruct (Rle_dec (- a - k) 0).
    + split; [rewrite Rabs_left1; lra|]. intros f Hf. replace (f * (-1 * 0)) with 0 by ring. rewrite Rabs_R0. ring.
    + split; [rewrite Rabs_left1; lra|]. intros f Hf. rewrite (Rabs_left1 (f * _)) by nra. ring.
  - assert (a = 0) by lra. subst a. rewrite Rabs_R0. split; [replace (0 - 0 * Rmax (0 - k) 0) with 0 by ring; rewrite Rabs_R0; lra|]. intros f Hf. replace (f * (0 * Rmax (0 - k) 0)) with 0 by ring. rewrite Rabs_R0. ring.
Qed.
Lemma soft_dual : forall k row v, 0 <= k -> length v = length row -> dot (vsub row (soft k row)) v <= k * ell1 v.
Proof.
  intros k row. induction row as [|a row IH]; intros [|b v] Hk L; try discriminate.
  - unfold ell1. cbn. lra.
  - specialize (IH v Hk ltac:(simpl in L; congruence)). unfold dot, vmul, vsub, ell1, vsum, soft in *. cbn [vzip fold_right map] in *.
    destruct (soft_gap k a Hk) as [G _]. pose proof (Rle_abs ((a - sgn a * Rmax (Rabs a - k) 0) * b)) as A. rewrite Rabs_mult in A. pose proof (Rabs_pos b).
    assert (Rabs (a - sgn a * Rmax (Rabs a - k) 0) * Rabs b <= k * Rabs b) by (apply Rmult_le_compat_r; auto). lra.
Qed.
Lemma soft_aligned : forall k f row, 0 <= k -> 0 <= f -> dot (vsub row (soft k row)) (vscal f (soft k row)) = k * ell1 (vscal f (soft k row)).
Proof.
  intros k f row Hk Hf. induction row as [|a row IH].
  - unfold ell1. cbn. ring.
  - unfold dot, vmul, vsub, ell1, vsum, soft, vscal in *. cbn [vzip fold_right map] in *. destruct (soft_gap k a Hk) as [_ G]. rewrite (G f Hf), IH. ring.
Qed.
Lemma row_pcert : forall c l1 l2 t row, length row = c -> 0 <= l1 -> 0 <= l2 -> 0 <= t -> pcert c (row_pen l1 l2) t row (sgb_row (t * l1) (t * l2) row).
Proof.
  intros c l1 l2 t row Lr H1 H2 Ht. assert (T1 : 0 <= t * l1) by nra. assert (T2 : 0 <= t * l2) by nra. unfold sgb_row. fold (soft (t * l1) row). set (y := soft (t * l1) row).
  assert (Ly : length y = c) by (unfold y; rewrite soft_length; auto). set (k := Rmax (norm y - t * l2) 0 / _). pose proof (norm_nonneg y) as N.
  assert (Hk : 0 <= k <= 1 /\ (1 - k) * norm y <= t * l2 /\ ((1 - k) * norm y = t * l2 \/ k * norm y = 0)).
  { unfold k. destruct (Req_EM_T (norm y) 0) as [Z|Z].
    - rewrite Z. rewrite Rmax_right by lra. split; [lra|]. split; [lra|]. right. ring.
    - rewrite Rplus_0_r. assert (norm y > 0) by lra. unfold Rmax. destruct (Rle_dec (norm y - t * l2) 0).
      + replace (0 / norm y) with 0 by (field; lra). split; [lra|]. split; [lra|]. right. ring.
      + assert (E : (1 - (norm y - t * l2) / norm y) * norm y = t * l2) by (field; lra). split; [|split; [lra|auto]].
        split; [apply Rmult_le_pos; [lra|left; apply Rinv_0_lt_compat; lra]|]. apply Rmult_le_reg_r with (norm y); [lra|]. replace ((norm y - t * l2) / norm y * norm y) with (norm y - t * l2) by (field; lra). lra. }
  clearbody k. destruct Hk as (Hk & K1 & K2). pose proof (l2_pcert c k (t * l2) y Ly Hk K1 K2) as (_ & Lp & q & Eq & C1 & C2).
  apply (sum_pcert c (fun v => Fin (l1 * ell1 v)) (fun v => Fin (l2 * ell2 v)) t row y (vscal k y) (l1 * ell1 (vscal k y))); auto.
  - split; auto. split; auto. eexists. split; [reflexivity|]. cbn [doc_seminorm] in Eq. assert (Eq' : ell2 (vscal k y) = q) by congruence. split.
    + intros v s Lv Ev. injection Ev as <-. specialize (C1 v (ell2 v) Lv eq_refl). lra.
    + rewrite C2, Eq'. ring.
  - intros v s Lv Ev. injection Ev as <-. pose proof (soft_dual (t * l1) row v T1 ltac:(congruence)). fold y in H. lra.
  - unfold y. rewrite soft_aligned by lra. ring.
Qed.
Lemma sgb_row_length : forall l1 l2 row, length (sgb_row l1 l2 row) = length row.
Proof. intros. unfold sgb_row, vscal. rewrite !map_length. auto. Qed.

(** ** The matrix *)
Section Matrix.
Variables (r c : nat) (l1 l2 : R).
Hypothesis H1 : 0 <= l1.
Hypothesis H2 : 0 <= l2.
Let n := (r * c)%nat.
Let P := sparse_block r c l1 l2.
Lemma sgb_pcert : forall x t, length x = n -> 0 <= t -> pcert n P t x (sgb_prox r c x (t * l1) (t * l2)).
Proof.
  intros x t Lx Ht. apply pcert_ext with (h := row_sum (row_pen l1 l2) r c); [intros v Lv; symmetry; apply bpen_rows; auto|].
  apply rows_pcert; auto. pose proof (rows_lengths r c x Lx) as F. induction F as [|row l Lr F IH]; cbn [map]; constructor; auto. apply row_pcert; auto.
Qed.
Lemma block_l1 : forall x, length x = n -> ell1 x = vsum (map ell1 (rows r c x)).
Proof.
  intros x Lx. rewrite <- (concat_rows r c x Lx) at 1. generalize (rows r c x). intros l. induction l as [|y l IH]; auto. cbn [concat map vsum fold_right]. unfold ell1 in *. rewrite map_app, vsum_app. unfold vsum in *. rewrite IH. auto.
Qed.
Lemma block_l1_value : forall x, Fin (l1 * ell1 x) = ext_scale l1 (doc_seminorm CL1 x). Proof. auto. Qed.
Lemma block_split : forall x, length x = n -> P x = ext_add (ext_scale l1 (doc_seminorm CL1 x)) (ext_scale l2 (bfun L1L2 r c x)).
Proof.
  intros x Lx. unfold P, sparse_block. rewrite l1l2_value. cbn [doc_seminorm ext_scale ext_add]. do 3 f_equal. unfold row_norms. f_equal. apply map_ext. intros. apply ell2_norm.
Qed.
Lemma block_gauge : gauge n P.
Proof.
  assert (Hs : forall x, P x = Fin (l1 * ell1 x + l2 * vsum (map ell2 (rows r c x)))) by reflexivity.
  pose proof (po_gauge _ _ _ (bfun_polar L1L2 r c)) as [A B C]. fold n in A, B, C. constructor.
  - intros x s Lx E. rewrite block_split in E by auto. destruct (bfun L1L2 r c x) as [q|] eqn:Eq; [|discriminate]. cbn [doc_seminorm ext_scale ext_add] in E. injection E as <-. pose proof (A x q Lx Eq).
    assert (0 <= ell1 x) by (unfold ell1; clear; induction x; unfold vsum in *; cbn [map fold_right]; [lra|]; pose proof (Rabs_pos a); unfold vsum in *; lra). nra.
  - intros t x s Lx Ht E. rewrite block_split in E by auto. destruct (bfun L1L2 r c x) as [q|] eqn:Eq; [|discriminate]. cbn [doc_seminorm ext_scale ext_add] in E. injection E as <-.
    rewrite block_split by vlen. rewrite (B t x q) by auto. cbn [doc_seminorm ext_scale ext_add]. f_equal.
    assert (E1 : ell1 (vscal t x) = t * ell1 x) by (unfold ell1, vscal; rewrite map_map; clear -Ht; induction x; unfold vsum in *; cbn [map fold_right]; [ring|]; rewrite Rabs_mult, (Rabs_right t) by lra; unfold vsum in *; rewrite IHx; ring).
    rewrite E1. ring.
  - rewrite block_split by vlen. rewrite C. cbn [doc_seminorm ext_scale ext_add]. f_equal. assert (E1 : ell1 (zeros n) = 0) by (unfold ell1, zeros; clear; induction n; cbn [repeat map vsum fold_right]; auto; rewrite Rabs_R0; unfold vsum in *; rewrite IHn0; ring). rewrite E1. ring.
Qed.
End Matrix.

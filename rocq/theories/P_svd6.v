(** An exact decomposition for columns; two cones that compare equal and differ. *)
From Coq Require Import Reals List Lra Lia Psatz Arith Bool.
From Verif Require Import M_affine P_affine P_affine2 Vec Spec SpecLoss M_quad M_prox M_semi M_shift SpecAtom SpecBase SpecMode M_mode SpecModed SpecPart SpecBlock M_cones SpecCone P_quad P_prox P_linear P_part M_linear SpecLinear SpecSvd P_svd1 P_svd2 P_svd3 M_svd SpecSvd2 P_svd4 P_svd5.
Import ListNotations.
Local Open Scope R_scope.

Definition col_svd (r : nat) : svd_fun := fun X => if Req_EM_T (norm X) 0 then ([unit_vec r 0], [0], [[1]]) else ([vscal (/ norm X) X], [norm X], [[1]]).
Lemma one_row : forall n u, length u = n -> norm u = 1 -> orthonormal n [u].
Proof.
  intros n u L N. split; [intros [|i] H; cbn in *; [auto|lia]|]. intros [|i] [|j] Hi Hj; cbn in Hi, Hj; try lia. pose proof (norm_sq u) as Q. rewrite N in Q. unfold sqn in Q. cbn [row nth]. destruct (Nat.eq_dec 0 0); [lra|congruence].
Qed.
Lemma norm_one : norm [1] = 1. Proof. unfold norm, sqn, dot. cbn. replace (1 * 1 + 0) with 1 by ring. apply sqrt_1. Qed.
Lemma rank1_col : forall u, rank1 u [1] = u.
Proof. unfold rank1. induction u as [|a u IH]; [reflexivity|]. cbn [map concat]. rewrite IH. cbn. f_equal. ring. Qed.
Lemma usv_one : forall n u a v, length (rank1 u v) = n -> usv n [u] [a] [v] = vscal a (rank1 u v).
Proof. intros n u a v L. unfold usv. cbn [rank1s mat_tvec]. apply vadd_zeros_r. rewrite vscal_length. auto. Qed.
Theorem col_svd_ok : forall r, (1 <= r)%nat -> svd_ok r 1 (col_svd r).
Proof.
  intros r Hr X LX. assert (M : Nat.min r 1 = 1%nat) by lia. assert (LX' : length X = r) by lia. unfold col_svd. destruct (Req_EM_T (norm X) 0) as [Z|N].
  - assert (N1 : norm (unit_vec r 0) = 1) by (unfold norm; rewrite unit_sqn by lia; apply sqrt_1). split; rewrite ?M; auto.
    + apply one_row; auto. apply unit_vec_length.
    + apply one_row; auto. apply norm_one.
    + constructor; auto. lra.
    + exact I.
    + rewrite usv_one by (rewrite rank1_length, unit_vec_length; auto). rewrite rank1_col, vscal_0, unit_vec_length. rewrite <- LX'. apply norm_eq_zero; auto.
  - pose proof (norm_nonneg X). assert (N1 : norm (vscal (/ norm X) X) = 1) by (rewrite norm_scal, Rabs_pos_eq by (apply Rlt_le, Rinv_0_lt_compat; lra); field; auto). split; rewrite ?M; auto.
    + apply one_row; auto. rewrite vscal_length. auto.
    + apply one_row; auto. apply norm_one.
    + constructor; auto.
    + rewrite usv_one by (rewrite rank1_length, vscal_length; cbn [length]; lia). rewrite rank1_col, vscal_vscal. replace (norm X * / norm X) with 1 by (field; auto). rewrite vscal_1. auto.
Qed.
(** The nuclear and the operator norm of a column are its Euclidean norm. *)
Theorem col_norms : forall r X, (1 <= r)%nat -> length X = (r * 1)%nat -> nuc_norm r 1 X = norm X /\ op_norm r 1 X = norm X.
Proof.
  intros r X Hr LX. destruct (svd_at r 1 (col_svd r) (col_svd_ok r Hr) X LX) as (U & D & V & Es & Sv). destruct (D_app r 1 Hr (le_n 1) X U D V Sv) as (_ & E2 & _). rewrite (rank_one r X Hr LX U D V Sv), E2.
  unfold col_svd in Es. destruct (Req_EM_T (norm X) 0) as [Z|N]; injection Es as <- <- <-; cbn; auto.
Qed.
(** The entries 1 0 0 0 1 0 as a 2 by 3 and as a 3 by 2 matrix *)
Lemma nuc23 : nuc_norm 2 3 [1; 0; 0; 0; 1; 0] = 2.
Proof.
  assert (E : [1; 0; 0; 0; 1; 0] = usv 6 [[1; 0]; [0; 1]] [1; 1] [[1; 0; 0]; [0; 1; 0]]) by (unfold usv, rank1; cbn; repeat (f_equal; try lra)).
  rewrite E. change 6%nat with (2 * 3)%nat. rewrite nuc_usv; auto.
  - unfold ell1, vsum. cbn. rewrite Rabs_R1. lra.
  - split; [intros [|[|i]] H; cbn in *; auto; lia|]. intros [|[|i]] [|[|j]] Hi Hj; cbn in Hi, Hj; try lia; cbn; unfold dot; cbn; lra.
  - split; [intros [|[|i]] H; cbn in *; auto; lia|]. intros [|[|i]] [|[|j]] Hi Hj; cbn in Hi, Hj; try lia; cbn; unfold dot; cbn; lra.
Qed.
Lemma nuc32 : nuc_norm 3 2 [1; 0; 0; 0; 1; 0] = sqrt 2.
Proof.
  assert (S2 : 0 < sqrt 2) by (apply sqrt_lt_R0; lra). assert (Q : sqrt 2 * sqrt 2 = 2) by (apply sqrt_sqrt; lra).
  assert (E : [1; 0; 0; 0; 1; 0] = usv 6 [[/ sqrt 2; 0; / sqrt 2]] [sqrt 2] [[1; 0]]) by (unfold usv, rank1; cbn; repeat (f_equal; try (field; lra))).
  rewrite E. change 6%nat with (3 * 2)%nat. rewrite nuc_usv; auto.
  - unfold ell1, vsum. cbn. rewrite Rabs_pos_eq by lra. lra.
  - apply one_row; auto. unfold norm. replace (sqn [/ sqrt 2; 0; / sqrt 2]) with 1; [apply sqrt_1|]. unfold sqn, dot. cbn. replace (/ sqrt 2 * / sqrt 2) with (/ 2) by (rewrite <- Rinv_mult, Q; auto). lra.
  - apply one_row; auto. unfold norm. replace (sqn [1; 0]) with 1; [apply sqrt_1|]. unfold sqn, dot. cbn. lra.
Qed.
Theorem econe_eq_wrong : econe_eq (new_econe ENuclear 2 3 None None) (new_econe ENuclear 3 2 None None) = true /\
  in_econe ENuclear 3 2 [1; 0; 0; 0; 1; 0; 3 / 2] /\ ~ in_econe ENuclear 2 3 [1; 0; 0; 0; 1; 0; 3 / 2].
Proof.
  split; [reflexivity|]. unfold in_econe. cbn [removelast last]. rewrite nuc23, nuc32. split; [|lra]. assert (Q : sqrt 2 * sqrt 2 = 2) by (apply sqrt_sqrt; lra). assert (0 <= sqrt 2) by apply sqrt_pos. nra.
Qed.
Theorem nuclear_accepts : forall svd, svd_ok 1 1 svd -> ec_constraint ENuclear 1 1 svd [5; 0] = Ok (Fin 0) /\ nuc_norm 1 1 [5] = 5 /\ ~ slack_econe ENuclear 1 1 [5; 0].
Proof.
  intros svd OK. split; [apply (nuclear_test_wrong 1 svd [5] 0 (le_n 1) OK eq_refl); lra|]. assert (E : nuc_norm 1 1 [5] = 5). { rewrite (proj1 (col_norms 1 [5] (le_n 1) eq_refl)). unfold norm, sqn, dot. cbn. replace (5 * 5 + 0) with (5 * 5) by ring. apply sqrt_square. lra. }
  split; auto. unfold slack_econe. cbn [removelast last]. rewrite E. lra.
Qed.

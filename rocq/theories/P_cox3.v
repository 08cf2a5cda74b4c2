(** Convexity of the Cox partial likelihood; its Hessian is symmetric and positive semidefinite; nan. *)
From Coq Require Import Reals List Lra Lia Psatz Arith Bool Permutation.
From Verif Require Import M_affine P_affine P_affine2 M_buffer Vec Spec M_quad M_loss SpecLoss SpecConvex P_quad P_calc P_sep P_cv P_path2 M_cox SpecCox SpecCoxObj P_cox P_cox2.
Import ListNotations.
Local Open Scope R_scope.

Lemma gradient_unique : forall n f x g g', is_gradient n f x g -> is_gradient n f x g' -> g = g'.
Proof.
  intros n f x g g' [L H] [L' H']. apply (nth_ext _ _ 0 0); [congruence|]. intros i Hi. rewrite L in Hi.
  assert (A := uniqueness_limite _ _ _ _ (H (unit_vec n i) (unit_vec_length n i)) (H' (unit_vec n i) (unit_vec_length n i))). rewrite !dot_unit in A by auto. auto.
Qed.
Lemma nth_seq_map : forall n (F : nat -> R) k, (k < n)%nat -> nth k (map F (seq 0 n)) 0 = F k.
Proof. intros n F k Hk. rewrite (nth_indep _ 0 (F 0%nat)) by (rewrite map_length, seq_length; auto). rewrite (map_nth F), seq_nth by auto. auto. Qed.
Section Cox.
Variables (T : vec) (cens ord : list nat) (w : vec).
Let n := length T.
Let D := cdata_of T cens ord.
Hypothesis So : sorts T ord.
Hypothesis Lc : length cens = n.
Hypothesis Lw : length w = n.
Hypothesis Nw : nonneg w.
Let cc i := INR (nth i cens 0%nat) * nth i w 0.
Let ew eta j := nth j w 0 * exp (nth j eta 0).

Theorem gradient_ok : forall b g eta, covered T w -> sized n b -> length g = n -> length eta = n -> exists g', cox_gradient D b g eta w = Ok g' /\ is_gradient n (cox_loss T cens w) eta g'.
Proof. intros b g eta C B Lg Le. eexists. split; [apply gradient_entries; auto|]. apply entries_gradient; auto. Qed.
Theorem hessian_ok : forall b h eta G, covered T w -> sized n b -> length h = n -> length eta = n -> gradient_of n (cox_loss T cens w) G ->
  exists H, is_jacobian n G eta H /\ forall z, length z = n -> cox_hessian D b h eta z w = Ok (H z) /\ length (H z) = n.
Proof.
  intros b h eta G C B Lh Le HG. exists (fun z => map (hess_entry T cens w eta z) (seq 0 n)). split.
  - intros d i Ld Hi. rewrite (nth_indep _ 0 (hess_entry T cens w eta d 0)) by (rewrite map_length, seq_length; auto). rewrite (map_nth (hess_entry T cens w eta d)), seq_nth by auto. cbn [plus].
    apply (derive_ext (fun t => grad_entry T cens w (vadd eta (vscal t d)) i)); [|apply grad_entry_derive; auto]. intros t.
    assert (Ly : length (vadd eta (vscal t d)) = n) by (unfold vadd; rewrite vzip_length; unfold vscal; rewrite ?map_length; lia).
    rewrite (gradient_unique n _ _ _ _ (HG _ Ly) (entries_gradient T cens w Lc Lw Nw (vadd eta (vscal t d)) C Ly)). fold n.
    rewrite (nth_indep _ 0 (grad_entry T cens w (vadd eta (vscal t d)) 0)) by (rewrite map_length, seq_length; auto). rewrite (map_nth (grad_entry T cens w (vadd eta (vscal t d)))), seq_nth by auto. auto.
  - intros z Lz. split; [apply hessian_entries; auto|]. rewrite map_length, seq_length. auto.
Qed.
(** ** Convexity *)
Lemma ratio_bound : forall x y i, covered T w -> length x = n -> length y = n -> (i < n)%nat -> riskZ T w x (vsub y x) i / at_risk T w x i <= ln (at_risk T w y i) - ln (at_risk T w x i).
Proof.
  intros x y i C Lx Ly Hi. assert (Px := risk_pos T cens w Lc Lw Nw C x i Hi). assert (Py := risk_pos T cens w Lc Lw Nw C y i Hi). set (S := at_risk T w x i) in *. set (m := riskZ T w x (vsub y x) i / S).
  assert (A : S * exp m <= at_risk T w y i).
  { assert (E : S * exp m = sum_over n (fun j => exp m * ((if Rle_dec (nth i T 0) (nth j T 0) then ew x j else 0) * (1 - m)) + exp m * (if Rle_dec (nth i T 0) (nth j T 0) then nth j (vsub y x) 0 * ew x j else 0))).
    { rewrite sum_over_plus, !sum_over_scal. change (sum_over n (fun j => if Rle_dec (nth i T 0) (nth j T 0) then nth j (vsub y x) 0 * ew x j else 0)) with (riskZ T w x (vsub y x) i).
      rewrite (sum_over_ext n _ (fun j => (1 - m) * (if Rle_dec (nth i T 0) (nth j T 0) then ew x j else 0))) by (intros; ring). rewrite sum_over_scal.
      change (sum_over n (fun j => if Rle_dec (nth i T 0) (nth j T 0) then ew x j else 0)) with S. replace (riskZ T w x (vsub y x) i) with (m * S) by (unfold m; field; lra). ring. }
    rewrite E. apply P_sep.sum_over_le. intros j Hj. destruct (Rle_dec _ _); [|lra]. unfold ew. assert (W := wi_nonneg T cens w Lc Lw Nw j Hj). cbv beta in W.
    unfold vsub. rewrite (nth_zip0 _ _ _ n) by auto. replace (nth j y 0) with (nth j x 0 + (m + (nth j y 0 - nth j x 0 - m))) at 2 by ring. rewrite !exp_plus.
    assert (X := exp_ineq1_le (nth j y 0 - nth j x 0 - m)). assert (P1 := exp_pos m). assert (P2 := exp_pos (nth j x 0)).
    assert (Q : 0 <= nth j w 0 * exp (nth j x 0) * exp m) by (apply Rmult_le_pos; [apply Rmult_le_pos; lra|lra]).
    assert (Q2 := Rmult_le_compat_l _ _ _ Q X). lra. }
  assert (B : ln (S * exp m) <= ln (at_risk T w y i)). { destruct A as [A|A]; [left; apply ln_increasing; auto; apply Rmult_lt_0_compat; auto; apply exp_pos|rewrite A; lra]. }
  rewrite ln_mult in B by (auto; apply exp_pos). rewrite ln_exp in B. fold m. lra.
Qed.
Theorem cox_tangent : forall x y, covered T w -> length x = n -> length y = n -> cox_loss T cens w x + dot (map (grad_entry T cens w x) (seq 0 n)) (vsub y x) <= cox_loss T cens w y.
Proof.
  intros x y C Lx Ly. assert (Lz : length (vsub y x) = n) by (unfold vsub; rewrite vzip_length; lia).
  assert (V : dot (map (grad_entry T cens w x) (seq 0 n)) (vsub y x) = sum_over n (fun i => cc i * (riskZ T w x (vsub y x) i / at_risk T w x i - nth i (vsub y x) 0))).
  { rewrite (dot_index n) by (auto; rewrite map_length, seq_length; auto).
    transitivity (sum_over n (fun i => cc i * (riskZ T w x (vsub y x) i / at_risk T w x i)) + sum_over n (fun i => -1 * (cc i * nth i (vsub y x) 0))).
    - unfold cc, n. rewrite swapped, <- sum_over_plus. apply sum_over_ext. intros i Hi. rewrite (nth_indep _ 0 (grad_entry T cens w x 0)) by (rewrite map_length, seq_length; auto). rewrite (map_nth (grad_entry T cens w x)), seq_nth by auto. unfold grad_entry. cbn [plus]. ring.
    - rewrite <- sum_over_plus. apply sum_over_ext. intros i Hi. ring. }
  rewrite V. unfold cox_loss. fold n. rewrite <- sum_over_plus. apply P_sep.sum_over_le. intros i Hi. fold (cc i). assert (P := cc_nonneg T cens w Lc Lw Nw i Hi). cbv beta in P. fold (cc i) in P.
  assert (Q := Rmult_le_compat_l _ _ _ P (ratio_bound x y i C Lx Ly Hi)). unfold vsub at 2. rewrite (nth_zip0 _ _ _ n) by auto. lra.
Qed.
Theorem cox_convex : covered T w -> convex_on n (cox_loss T cens w).
Proof. intros C. apply (tangent_convex n _ (fun x => map (grad_entry T cens w x) (seq 0 n))); [intros; rewrite map_length, seq_length; auto|]. intros. apply cox_tangent; auto. Qed.
(** ** The quadratic form of the Hessian *)
Let cross eta x z i := sum_over n (fun j => if Rle_dec (nth i T 0) (nth j T 0) then nth j x 0 * nth j z 0 * ew eta j else 0).
Lemma hess_form : forall eta x z, covered T w -> length x = n -> length z = n -> dot x (map (hess_entry T cens w eta z) (seq 0 n)) =
  sum_over n (fun i => cc i / at_risk T w eta i * cross eta x z i - cc i / (at_risk T w eta i * at_risk T w eta i) * (riskZ T w eta x i * riskZ T w eta z i)).
Proof.
  intros eta x z C Lx Lz. rewrite (dot_index n) by (auto; rewrite map_length, seq_length; auto).
  transitivity (sum_over n (fun k => sum_over n (fun i => (if Rle_dec (nth i T 0) (nth k T 0) then cc i / at_risk T w eta i * (nth k x 0 * nth k z 0 * ew eta k) else 0)
      + (if Rle_dec (nth i T 0) (nth k T 0) then - (cc i / (at_risk T w eta i * at_risk T w eta i) * riskZ T w eta z i) * (nth k x 0 * ew eta k) else 0)))).
  - apply sum_over_ext. intros k Hk. rewrite nth_seq_map by auto.
    unfold hess_entry, outer1, outer2. fold n.
    transitivity (nth k x 0 * nth k z 0 * ew eta k * sum_over n (fun j => if Rle_dec (nth j T 0) (nth k T 0) then cc j / at_risk T w eta j else 0)
      + - (nth k x 0 * ew eta k) * sum_over n (fun j => if Rle_dec (nth j T 0) (nth k T 0) then cc j * riskZ T w eta z j / (at_risk T w eta j * at_risk T w eta j) else 0)); [unfold ew, cc; ring|].
    rewrite <- !sum_over_scal, <- sum_over_plus. apply sum_over_ext. intros i Hi. destruct (Rle_dec _ _); [|ring]. unfold Rdiv. ring.
  - rewrite sum_over_swap. apply sum_over_ext. intros i Hi. rewrite sum_over_plus.
    transitivity (cc i / at_risk T w eta i * cross eta x z i + - (cc i / (at_risk T w eta i * at_risk T w eta i) * riskZ T w eta z i) * riskZ T w eta x i); [|ring].
    unfold cross, riskZ at 3. fold n. rewrite <- !sum_over_scal. f_equal; apply sum_over_ext; intros k Hk; destruct (Rle_dec _ _); unfold ew; ring.
Qed.
Lemma weighted_cauchy : forall m (a z : nat -> R), (forall i, (i < m)%nat -> 0 <= a i) -> 0 < sum_over m a -> sum_over m (fun i => z i * a i) * sum_over m (fun i => z i * a i) <= sum_over m a * sum_over m (fun i => z i * z i * a i).
Proof.
  intros m a z Ha P. set (S := sum_over m a) in *. set (Z := sum_over m (fun i => z i * a i)). set (Q := sum_over m (fun i => z i * z i * a i)).
  assert (V : 0 <= sum_over m (fun i => (S * z i - Z) * (S * z i - Z) * a i)).
  { apply sum_over_nonneg. intros i Hi. apply Rmult_le_pos; [apply Rle_0_sqr|auto]. }
  rewrite (sum_over_ext m _ (fun i => S * S * (z i * z i * a i) + (- 2 * S * Z * (z i * a i) + Z * Z * a i))) in V by (intros; ring).
  rewrite !sum_over_plus, !sum_over_scal in V. fold Q S Z in V. assert (W : 0 <= S * (S * Q - Z * Z)) by lra. destruct (Rle_dec (Z * Z) (S * Q)); auto. exfalso. assert (S * (S * Q - Z * Z) < 0) by (apply Ropp_lt_cancel; rewrite Ropp_0; replace (- (S * (S * Q - Z * Z))) with (S * (Z * Z - S * Q)) by ring; apply Rmult_lt_0_compat; lra). lra.
Qed.
Theorem hessian_form : forall b h eta x z Hx Hz, covered T w -> sized n b -> length h = n -> length eta = n -> length x = n -> length z = n ->
  cox_hessian D b h eta x w = Ok Hx -> cox_hessian D b h eta z w = Ok Hz -> dot x Hz = dot z Hx /\ 0 <= dot x Hx.
Proof.
  intros b h eta x z Hx Hz C B Lh Le Lx Lz E1 E2. unfold D in *. rewrite (hessian_entries T cens ord w So Lc Lw Nw) in E1 by auto. rewrite (hessian_entries T cens ord w So Lc Lw Nw) in E2 by auto. apply Ok_inj in E1, E2. subst Hx Hz. fold n.
  rewrite !hess_form by auto. split.
  - apply sum_over_ext. intros i Hi. replace (cross eta z x i) with (cross eta x z i) by (apply sum_over_ext; intros j Hj; destruct (Rle_dec _ _); ring). ring.
  - apply sum_over_nonneg. intros i Hi. assert (P := risk_pos T cens w Lc Lw Nw C eta i Hi). assert (Pc := cc_nonneg T cens w Lc Lw Nw i Hi). cbv beta in Pc. fold (cc i) in Pc. set (R := at_risk T w eta i) in *.
    set (a := fun j => if Rle_dec (nth i T 0) (nth j T 0) then ew eta j else 0).
    assert (CS : riskZ T w eta x i * riskZ T w eta x i <= R * cross eta x x i).
    { assert (Q := weighted_cauchy n a (fun j => nth j x 0)). change (sum_over n a) with R in Q.
      replace (riskZ T w eta x i) with (sum_over n (fun j => nth j x 0 * a j)) by (apply sum_over_ext; intros j Hj; unfold a, ew; destruct (Rle_dec _ _); ring).
      replace (cross eta x x i) with (sum_over n (fun j => nth j x 0 * nth j x 0 * a j)) by (apply sum_over_ext; intros j Hj; unfold a; destruct (Rle_dec _ _); ring).
      apply Q; auto. intros j Hj. apply (term_nonneg T cens w Lc Lw Nw eta i j Hj). }
    replace (cc i / R * cross eta x x i - cc i / (R * R) * (riskZ T w eta x i * riskZ T w eta x i)) with (cc i / (R * R) * (R * cross eta x x i - riskZ T w eta x i * riskZ T w eta x i)) by (field; lra).
    apply Rmult_le_pos; [|lra]. apply Rmult_le_pos; auto. apply Rlt_le, Rinv_0_lt_compat, Rmult_lt_0_compat; auto.
Qed.
(** ** nan *)
Lemma uncovered_nan : forall b g eta i, sized n b -> length g = n -> length eta = n -> (i < n)%nat -> (forall j, (j < n)%nat -> nth i T 0 <= nth j T 0 -> nth j w 0 = 0) ->
  cox_objective D b eta w = Err NaNResult /\ cox_gradient D b g eta w = Err NaNResult.
Proof.
  intros b g eta i B Lg Le Hi H. assert (Z := risk_zero T w eta i Hi H). unfold cox_objective, cox_gradient. rewrite Le. assert (K := sized_check T cens ord w So Lc Lw b eta B Le).
  unfold same_length in *. cbn [forallb] in *. rewrite Lg, Nat.eqb_refl. cbn [andb cdata_of c_cens c_ord c_rmin c_rmax D]. fold n in K. rewrite K.
  destruct B as (B1 & B2 & B3 & _). assert (U := update_exp_spec T ord So eta w (b_exp b) (b_acc b) B1 B2). fold n in U. destruct (update_exp eta w ord n (b_exp b) (b_acc b)) as [e acc]. destruct U as [He Ha].
  unfold n in *. rewrite (outer_1st_nan T cens ord w So eta acc (b_out1 b) i Hi Ha Z). auto.
Qed.
Theorem nan_iff : forall b g eta, sized n b -> length g = n -> length eta = n ->
  (covered T w <-> cox_objective D b eta w <> Err NaNResult) /\ (covered T w <-> cox_gradient D b g eta w <> Err NaNResult).
Proof.
  intros b g eta B Lg Le. destruct (covered_dec T cens w Lc Lw Nw) as [C|(i & Hi & Z)].
  - unfold D. rewrite (objective_ok T cens ord w) by auto. rewrite (gradient_entries T cens ord w) by auto. split; split; auto; intros; discriminate.
  - destruct (uncovered_nan b g eta i B Lg Le Hi Z) as [E1 E2]. rewrite E1, E2. split; split; try congruence; intros C; exfalso; destruct (C i Hi) as (j & Hj & L & P); rewrite (Z j Hj L) in P; lra.
Qed.
End Cox.

(** Value, gradient and Hessian of the Cox partial likelihood. *)
From Coq Require Import Reals List Lra Lia Psatz Arith Bool Permutation.
From Verif Require Import M_affine P_affine M_buffer Vec Spec M_quad M_loss SpecLoss SpecConvex P_quad P_calc P_sep P_cv P_path2 M_cox SpecCox SpecCoxObj P_cox.
Import ListNotations.
Local Open Scope R_scope.

Definition cdata_of (T : vec) (cens ord : list nat) : cdata := mk_cdata T cens ord (rank_min T) (rank_max T).
Lemma sum_over_0 : forall n F, (forall i, (i < n)%nat -> F i = 0) -> sum_over n F = 0.
Proof. intros n F H. rewrite (sum_over_ext n F (fun _ => 0 * 0)) by (intros i Hi; rewrite H by auto; ring). rewrite (sum_over_scal n 0 (fun _ => 0)). ring. Qed.
Lemma sum_over_nonneg : forall n F, (forall i, (i < n)%nat -> 0 <= F i) -> 0 <= sum_over n F.
Proof. intros n F H. rewrite <- (sum_over_0 n (fun _ => 0)) by auto. apply P_sep.sum_over_le. auto. Qed.
Lemma sum_over_pos : forall n F j, (forall i, (i < n)%nat -> 0 <= F i) -> (j < n)%nat -> 0 < F j -> 0 < sum_over n F.
Proof.
  intros n F j H Hj P. apply Rlt_le_trans with (sum_over n (fun i => if Nat.eq_dec i j then F j else 0)).
  - rewrite (sum_over_single n j) by (auto; intros m _ N; destruct (Nat.eq_dec m j); congruence). destruct (Nat.eq_dec j j); congruence.
  - apply P_sep.sum_over_le. intros i Hi. destruct (Nat.eq_dec i j) as [->|_]; [lra|]. auto.
Qed.
Lemma derive_sum : forall n (F : nat -> R -> R) l a, (forall i, (i < n)%nat -> derivable_pt_lim (F i) a (l i)) -> derivable_pt_lim (fun t => sum_over n (fun i => F i t)) a (sum_over n l).
Proof.
  induction n as [|n IH]; intros F l a H; [apply (derivable_pt_lim_const 0)|]. rewrite P_sep.sum_over_S. apply (derive_ext (fun t => sum_over n (fun i => F i t) + F n t)); [intros; symmetry; apply (P_sep.sum_over_S n (fun i => F i t))|].
  apply (derivable_pt_lim_plus (fun t => sum_over n (fun i => F i t)) (F n)); auto.
Qed.

Lemma derive_line : forall a b c, derivable_pt_lim (fun t => a + t * b) c b.
Proof.
  intros a b c. assert (H := derivable_pt_lim_plus (fun _ => a) (fun t => b * t) c 0 (b * 1) (derivable_pt_lim_const a c) (derivable_pt_lim_scal id b c 1 (derivable_pt_lim_id c))).
  rewrite Rplus_0_l, Rmult_1_r in H. apply (derive_ext _ _ _ _ (fun t => eq_refl)) in H. apply (derive_ext (fun t => a + b * t)); [intros; ring|]. exact H.
Qed.
Section Cox.
Variables (T : vec) (cens ord : list nat) (w : vec).
Let n := length T.
Let D := cdata_of T cens ord.
Hypothesis So : sorts T ord.
Hypothesis Lc : length cens = n.
Hypothesis Lw : length w = n.
Hypothesis Nw : nonneg w.
Let risk := at_risk T w.
Let cc i := INR (nth i cens 0%nat) * nth i w 0.
Let wi := fun i => nth i w 0.
Let after i j (a : R) := if Rle_dec (nth i T 0) (nth j T 0) then a else 0.
Lemma wi_nonneg : forall i, (i < n)%nat -> 0 <= wi i.
Proof. intros i Hi. unfold wi. unfold nonneg in Nw. rewrite Forall_forall in Nw. apply Nw, nth_In. lia. Qed.
Lemma cc_nonneg : forall i, (i < n)%nat -> 0 <= cc i.
Proof. intros i Hi. unfold cc. apply Rmult_le_pos; [apply pos_INR|apply wi_nonneg; auto]. Qed.
Lemma term_nonneg : forall eta i j, (j < n)%nat -> 0 <= after i j (wi j * exp (nth j eta 0)).
Proof. intros eta i j Hj. unfold after. destruct (Rle_dec _ _); [|lra]. apply Rmult_le_pos; [apply wi_nonneg; auto|apply Rlt_le, exp_pos]. Qed.
Lemma risk_nonneg : forall eta i, 0 <= risk eta i.
Proof. intros eta i. apply sum_over_nonneg. intros j Hj. apply (term_nonneg eta i j Hj). Qed.
Lemma risk_pos : covered T w -> forall eta i, (i < n)%nat -> 0 < risk eta i.
Proof.
  intros C eta i Hi. destruct (C i Hi) as (j & Hj & Lij & Pj). apply (sum_over_pos n _ j); auto.
  - intros k Hk. apply (term_nonneg eta i k Hk).
  - destruct (Rle_dec _ _); [|contradiction]. apply Rmult_lt_0_compat; auto. apply exp_pos.
Qed.
Lemma risk_zero : forall eta i, (i < n)%nat -> (forall j, (j < n)%nat -> nth i T 0 <= nth j T 0 -> wi j = 0) -> risk eta i = 0.
Proof. intros eta i Hi H. apply sum_over_0. intros j Hj. destruct (Rle_dec _ _) as [L|_]; auto. fold (wi j). rewrite (H j Hj L). ring. Qed.
Lemma covered_dec : covered T w \/ exists i, (i < n)%nat /\ forall j, (j < n)%nat -> nth i T 0 <= nth j T 0 -> wi j = 0.
Proof.
  assert (G : forall m, (m <= n)%nat -> (forall i, (i < m)%nat -> exists j, (j < n)%nat /\ nth i T 0 <= nth j T 0 /\ 0 < nth j w 0) \/ exists i, (i < n)%nat /\ forall j, (j < n)%nat -> nth i T 0 <= nth j T 0 -> wi j = 0).
  { induction m as [|m IH]; intros Hm; [left; intros; lia|]. destruct (IH ltac:(lia)) as [A|A]; [|right; exact A].
    set (p := fun j => (if Rle_dec (nth m T 0) (nth j T 0) then true else false) && (if Rlt_dec 0 (nth j w 0) then true else false)).
    destruct (existsb p (seq 0 n)) eqn:E.
    - left. intros i Hi. destruct (Nat.eq_dec i m) as [->|N]; [|apply A; lia]. apply existsb_exists in E. destruct E as (j & I & Pj). apply in_seq in I. exists j. unfold p in Pj.
      destruct (Rle_dec (nth m T 0) (nth j T 0)); [|discriminate]. destruct (Rlt_dec 0 (nth j w 0)); [|discriminate]. split; [lia|auto].
    - right. exists m. split; [lia|]. intros j Hj L. assert (Z := wi_nonneg j Hj). destruct (Req_dec (wi j) 0) as [H|H]; auto. exfalso.
      assert (E' : existsb p (seq 0 n) = true); [|congruence]. apply existsb_exists. exists j. split; [apply in_seq; lia|]. unfold p. destruct (Rle_dec (nth m T 0) (nth j T 0)); [|contradiction].
      unfold wi in *. destruct (Rlt_dec 0 (nth j w 0)); [auto|lra]. }
  destruct (G n (le_n n)) as [A|A]; [left; exact A|right; exact A].
Qed.

(** what the kernels compute *)
Definition outer1 (eta : vec) (i : nat) : R := sum_over n (fun j => if Rle_dec (nth j T 0) (nth i T 0) then cc j / risk eta j else 0).
Definition grad_entry (eta : vec) (i : nat) : R := outer1 eta i * (wi i * exp (nth i eta 0)) - cc i.
Definition riskZ (eta z : vec) (i : nat) : R := sum_over n (fun j => if Rle_dec (nth i T 0) (nth j T 0) then nth j z 0 * (wi j * exp (nth j eta 0)) else 0).
Definition outer2 (eta z : vec) (i : nat) : R := sum_over n (fun j => if Rle_dec (nth j T 0) (nth i T 0) then cc j * riskZ eta z j / (risk eta j * risk eta j) else 0).
Definition hess_entry (eta z : vec) (i : nat) : R := wi i * exp (nth i eta 0) * (outer1 eta i * nth i z 0 - outer2 eta z i).

Lemma outer_1st_ok : forall eta acc o0, covered T w -> length o0 = n -> (forall i, (i < n)%nat -> nth (nth i (rank_min T) 0%nat) acc 0 = risk eta i) ->
  exists out, update_outer_1st acc w cens ord (rank_min T) n o0 = Ok out /\ forall i, (i < n)%nat -> nth (nth i (rank_max T) 0%nat) out 0 = outer1 eta i.
Proof.
  intros eta acc o0 C L H. set (d := fun i => nth (nth i (rank_min T) 0%nat) acc 0).
  destruct (cum_loop T ord So d (fun i => cc i / d i) o0 L) as (out & E & _ & Ho).
  { intros i Hi. unfold d. rewrite H by auto. apply Rgt_not_eq, risk_pos; auto. }
  exists out. split; [exact E|]. intros i Hi. rewrite (Ho i Hi). apply sum_over_ext. intros j Hj. unfold d. rewrite H by auto. auto.
Qed.
Lemma outer_1st_nan : forall eta acc o0 i, (i < n)%nat -> (forall i, (i < n)%nat -> nth (nth i (rank_min T) 0%nat) acc 0 = risk eta i) -> risk eta i = 0 ->
  update_outer_1st acc w cens ord (rank_min T) n o0 = Err NaNResult.
Proof.
  intros eta acc o0 i Hi H Z. set (d := fun i => nth (nth i (rank_min T) 0%nat) acc 0). apply (cum_loop_nan T ord So d (fun i => cc i / d i) o0 i Hi). unfold d. rewrite H by auto. auto.
Qed.
Lemma sized_check : forall b (eta : vec), sized n b -> length eta = n -> same_length n [length (b_exp b); length (b_acc b); length (b_out1 b); length w; length cens; length ord; length (rank_min T); length (rank_max T)] = true.
Proof.
  intros b eta (B1 & B2 & B3 & _) Le. unfold rank_min, rank_max. rewrite !map_length, B1, B2, B3, Lc, Lw, (ord_length T ord So). fold n. unfold same_length. cbn. rewrite Nat.eqb_refl. auto.
Qed.
Theorem objective_ok : forall b eta, covered T w -> sized n b -> length eta = n -> cox_objective D b eta w = Ok (cox_loss T cens w eta).
Proof.
  intros b eta C B Le. unfold cox_objective. cbn [D cdata_of c_cens c_ord c_rmin c_rmax]. rewrite Le. change (length (c_cens D)) with (length cens). rewrite (sized_check b eta B Le).
  destruct B as (B1 & B2 & B3 & _). assert (U := update_exp_spec T ord So eta w (b_exp b) (b_acc b) B1 B2). fold n in U. destruct (update_exp eta w ord n (b_exp b) (b_acc b)) as [e acc]. destruct U as [_ Ha].
  destruct (outer_1st_ok eta acc (b_out1 b) C B3 Ha) as (out & E & _). rewrite E. cbn [rbind]. unfold objective_c.
  rewrite (sum_loop (fun i => nth (nth i (rank_min T) 0%nat) acc 0) (fun i => INR (nth i cens 0%nat) * nth i w 0 * (ln (nth (nth i (rank_min T) 0%nat) acc 0) - nth i eta 0)) n).
  - f_equal. apply sum_over_ext. intros i Hi. rewrite Ha by auto. auto.
  - intros i Hi. rewrite Ha by auto. apply risk_pos; auto.
Qed.
Lemma gradient_entries : forall b g eta, covered T w -> sized n b -> length g = n -> length eta = n -> cox_gradient D b g eta w = Ok (map (grad_entry eta) (seq 0 n)).
Proof.
  intros b g eta C B Lg Le. unfold cox_gradient. cbn [D cdata_of c_cens c_ord c_rmin c_rmax]. rewrite Le. assert (K := sized_check b eta B Le). unfold same_length in *. cbn [forallb] in *. rewrite Lg, Nat.eqb_refl.
  cbn [andb]. cbn [cdata_of c_cens c_ord c_rmin c_rmax D]. rewrite K.
  destruct B as (B1 & B2 & B3 & _). assert (U := update_exp_spec T ord So eta w (b_exp b) (b_acc b) B1 B2). fold n in U. destruct (update_exp eta w ord n (b_exp b) (b_acc b)) as [e acc]. destruct U as [He Ha].
  destruct (outer_1st_ok eta acc (b_out1 b) C B3 Ha) as (out & E & Ho). rewrite E. cbn [rbind]. unfold gradient_c. rewrite fill_loop by auto. f_equal. apply map_ext_in. intros i I. apply in_seq in I.
  rewrite Ho, He by lia. reflexivity.
Qed.
Lemma hessian_entries : forall b h eta z, covered T w -> sized n b -> length h = n -> length eta = n -> length z = n -> cox_hessian D b h eta z w = Ok (map (hess_entry eta z) (seq 0 n)).
Proof.
  intros b h eta z C B Lh Le Lz. unfold cox_hessian. cbn [D cdata_of c_cens c_ord c_rmin c_rmax]. rewrite Le. assert (K := sized_check b eta B Le). unfold same_length in *. cbn [forallb] in *. rewrite Lh, Lz, Nat.eqb_refl.
  destruct B as (B1 & B2 & B3 & B4 & B5). rewrite B4, B5, Nat.eqb_refl. cbn [andb cdata_of c_cens c_ord c_rmin c_rmax D]. rewrite B1, B2, B3, Nat.eqb_refl in K |- *. cbn [andb] in K |- *. rewrite K.
  assert (U := update_exp_spec T ord So eta w (b_exp b) (b_acc b) B1 B2). fold n in U. destruct (update_exp eta w ord n (b_exp b) (b_acc b)) as [e acc]. destruct U as [He Ha].
  destruct (outer_1st_ok eta acc (b_out1 b) C B3 Ha) as (out & E & Ho). rewrite E. cbn [rbind].
  assert (Hz := update_expZ_spec T ord So z e (b_accZ b) B4). fold n in Hz. set (accZ := update_expZ z e ord n (b_accZ b)) in *.
  assert (HZ : forall i, (i < n)%nat -> nth (nth i (rank_min T) 0%nat) accZ 0 = riskZ eta z i).
  { intros i Hi. rewrite Hz by auto. apply sum_over_ext. intros j Hj. rewrite He by auto. auto. }
  set (d := fun i => nth (nth i (rank_min T) 0%nat) acc 0). set (dz := fun i => nth (nth i (rank_min T) 0%nat) accZ 0).
  destruct (cum_loop T ord So d (fun i => cc i * dz i / (d i * d i)) (b_out2 b) B5) as (out2 & E2 & _ & Ho2).
  { intros i Hi. unfold d. rewrite Ha by auto. apply Rgt_not_eq, risk_pos; auto. }
  change (rmap snd (rloop _ _ _)) with (update_outer_2nd acc accZ w cens ord (rank_min T) n (b_out2 b)) in E2. rewrite E2. cbn [rbind]. unfold hessian_c. rewrite fill_loop by auto. f_equal. apply map_ext_in. intros i I. apply in_seq in I.
  rewrite Ho, He, Ho2 by lia. unfold hess_entry. f_equal. f_equal. apply sum_over_ext. intros j Hj. unfold dz, d. rewrite HZ, Ha by auto. auto.
Qed.

(** ** Derivatives *)
Lemma risk_line : forall eta d i t, length eta = n -> length d = n -> risk (vadd eta (vscal t d)) i = sum_over n (fun j => after i j (wi j * exp (nth j eta 0 + t * nth j d 0))).
Proof. intros eta d i t Le Ld. apply sum_over_ext. intros j Hj. unfold after. destruct (Rle_dec _ _); auto. rewrite (line_nth n) by auto. auto. Qed.
Lemma exp_line : forall a b t, derivable_pt_lim (fun t => exp (a + t * b)) t (b * exp (a + t * b)).
Proof.
  intros a b t. rewrite Rmult_comm. apply (derivable_pt_lim_comp (fun t => a + t * b) exp); [|apply derivable_pt_lim_exp].
  apply derive_line.
Qed.
Lemma risk_derive : forall eta d i, length eta = n -> length d = n -> derivable_pt_lim (fun t => risk (vadd eta (vscal t d)) i) 0 (riskZ eta d i).
Proof.
  intros eta d i Le Ld. apply (derive_ext (fun t => sum_over n (fun j => after i j (wi j * exp (nth j eta 0 + t * nth j d 0))))); [intros; symmetry; apply risk_line; auto|].
  apply derive_sum. intros j Hj. unfold after. destruct (Rle_dec _ _); [|apply derivable_pt_lim_const].
  replace (nth j d 0 * (wi j * exp (nth j eta 0))) with (wi j * (nth j d 0 * exp (nth j eta 0 + 0 * nth j d 0))) by (rewrite Rmult_0_l, Rplus_0_r; ring).
  apply (derivable_pt_lim_scal (fun t => exp (nth j eta 0 + t * nth j d 0))). apply exp_line.
Qed.
Lemma line_start : forall eta d, length eta = n -> length d = n -> vadd eta (vscal 0 d) = eta.
Proof. intros. apply line_zero. congruence. Qed.
Lemma swapped : forall eta d, sum_over n (fun i => cc i * (riskZ eta d i / risk eta i)) = sum_over n (fun k => outer1 eta k * (wi k * exp (nth k eta 0)) * nth k d 0).
Proof.
  intros eta d. transitivity (sum_over n (fun i => sum_over n (fun k => if Rle_dec (nth i T 0) (nth k T 0) then cc i / risk eta i * (nth k d 0 * (wi k * exp (nth k eta 0))) else 0))).
  - apply sum_over_ext. intros i Hi. unfold riskZ. replace (cc i * (sum_over n (fun j => if Rle_dec (nth i T 0) (nth j T 0) then nth j d 0 * (wi j * exp (nth j eta 0)) else 0) / risk eta i))
      with (cc i / risk eta i * sum_over n (fun j => if Rle_dec (nth i T 0) (nth j T 0) then nth j d 0 * (wi j * exp (nth j eta 0)) else 0)) by (unfold Rdiv; ring).
    rewrite <- sum_over_scal. apply sum_over_ext. intros k Hk. destruct (Rle_dec _ _); ring.
  - rewrite sum_over_swap. apply sum_over_ext. intros k Hk. unfold outer1. transitivity (nth k d 0 * (wi k * exp (nth k eta 0)) * sum_over n (fun j => if Rle_dec (nth j T 0) (nth k T 0) then cc j / risk eta j else 0)); [|ring]. rewrite <- sum_over_scal. apply sum_over_ext. intros i Hi. destruct (Rle_dec _ _); ring.
Qed.
Theorem entries_gradient : forall eta, covered T w -> length eta = n -> is_gradient n (cox_loss T cens w) eta (map (grad_entry eta) (seq 0 n)).
Proof.
  intros eta C Le. split; [rewrite map_length, seq_length; auto|]. intros d Ld.
  assert (V : dot (map (grad_entry eta) (seq 0 n)) d = sum_over n (fun i => cc i * (riskZ eta d i / risk eta i - nth i d 0))).
  { rewrite (dot_index n) by (auto; rewrite map_length, seq_length; auto). transitivity (sum_over n (fun i => cc i * (riskZ eta d i / risk eta i)) + sum_over n (fun i => -1 * (cc i * nth i d 0))).
    - rewrite swapped, <- sum_over_plus. apply sum_over_ext. intros i Hi. rewrite (nth_indep _ 0 (grad_entry eta 0)) by (rewrite map_length, seq_length; auto). rewrite (map_nth (grad_entry eta)), seq_nth by auto. unfold grad_entry. cbn [plus]. ring.
    - rewrite <- sum_over_plus. apply sum_over_ext. intros i Hi. ring. }
  rewrite V. unfold cox_loss. fold n. apply derive_sum. intros i Hi. fold (cc i).
  apply (derive_ext (fun t => cc i * (ln (risk (vadd eta (vscal t d)) i) - (nth i eta 0 + t * nth i d 0)))); [intros t; rewrite (line_nth n) by auto; auto|].
  apply (derivable_pt_lim_scal (fun t => ln (risk (vadd eta (vscal t d)) i) - (nth i eta 0 + t * nth i d 0))).
  apply (derivable_pt_lim_minus (fun t => ln (risk (vadd eta (vscal t d)) i)) (fun t => nth i eta 0 + t * nth i d 0)).
  - unfold Rdiv. rewrite Rmult_comm. apply (derivable_pt_lim_comp (fun t => risk (vadd eta (vscal t d)) i) ln); [apply risk_derive; auto|]. rewrite line_start by auto. apply derivable_pt_lim_ln, risk_pos; auto.
  - apply derive_line.
Qed.
Lemma grad_entry_derive : forall eta d i, covered T w -> length eta = n -> length d = n -> (i < n)%nat -> derivable_pt_lim (fun t => grad_entry (vadd eta (vscal t d)) i) 0 (hess_entry eta d i).
Proof.
  intros eta d i C Le Ld Hi. unfold grad_entry.
  apply (derive_ext (fun t => outer1 (vadd eta (vscal t d)) i * (wi i * exp (nth i eta 0 + t * nth i d 0)) - cc i)); [intros t; rewrite (line_nth n) by auto; auto|].
  replace (hess_entry eta d i) with (- outer2 eta d i * (wi i * exp (nth i eta 0 + 0 * nth i d 0)) + outer1 (vadd eta (vscal 0 d)) i * (wi i * (nth i d 0 * exp (nth i eta 0 + 0 * nth i d 0))) - 0)
    by (rewrite line_start by auto; unfold hess_entry; rewrite Rmult_0_l, Rplus_0_r; ring).
  apply (derivable_pt_lim_minus (fun t => outer1 (vadd eta (vscal t d)) i * (wi i * exp (nth i eta 0 + t * nth i d 0))) (fun _ => cc i)); [|apply derivable_pt_lim_const].
  apply (derivable_pt_lim_mult (fun t => outer1 (vadd eta (vscal t d)) i) (fun t => wi i * exp (nth i eta 0 + t * nth i d 0))); [|apply (derivable_pt_lim_scal (fun t => exp (nth i eta 0 + t * nth i d 0))), exp_line].
  replace (- outer2 eta d i) with (sum_over n (fun j => if Rle_dec (nth j T 0) (nth i T 0) then cc j * (- riskZ eta d j / Rsqr (risk eta j)) else 0)).
  - unfold outer1. apply derive_sum. intros j Hj. destruct (Rle_dec _ _); [|apply derivable_pt_lim_const]. apply (derivable_pt_lim_scal (fun t => / risk (vadd eta (vscal t d)) j)).
    assert (P := risk_pos C eta j Hj).
    assert (Q := derivable_pt_lim_div (fun _ => 1) (fun t => risk (vadd eta (vscal t d)) j) 0 0 (riskZ eta d j) (derivable_pt_lim_const 1 0) (risk_derive eta d j Le Ld)). cbv beta in Q. rewrite line_start in Q by auto.
    specialize (Q ltac:(lra)). replace ((0 * risk eta j - riskZ eta d j * 1) / Rsqr (risk eta j)) with (- riskZ eta d j / Rsqr (risk eta j)) in Q by (unfold Rdiv; ring).
    apply (derive_ext (div_fct (fun _ => 1) (fun t => risk (vadd eta (vscal t d)) j))); [|exact Q]. intros t. unfold div_fct, Rdiv. ring.
  - unfold outer2. replace (- sum_over n (fun j => if Rle_dec (nth j T 0) (nth i T 0) then cc j * riskZ eta d j / (risk eta j * risk eta j) else 0))
      with (-1 * sum_over n (fun j => if Rle_dec (nth j T 0) (nth i T 0) then cc j * riskZ eta d j / (risk eta j * risk eta j) else 0)) by ring.
    rewrite <- sum_over_scal. apply sum_over_ext. intros j Hj. destruct (Rle_dec _ _); [|ring]. unfold Rsqr, Rdiv. ring.
Qed.
End Cox.

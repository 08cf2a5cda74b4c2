(** The data checks of the loss constructors. *)
From Coq Require Import Reals List Lra Lia Arith Bool.
From Verif Require Import M_affine M_buffer P_buffer Vec Spec SpecConvex M_quad M_loss SpecLoss P_quad P_calc P_sep P_loss.
Import ListNotations.
Open Scope R_scope.

Lemma any_neg_false : forall v, any_neg v = false <-> Forall (fun a => 0 <= a) v.
Proof.
  induction v as [|a v IH]; cbn. - split; auto.
  - destruct (Rlt_dec a 0); cbn.
    + split; [discriminate|]. intros H. apply Forall_inv in H. lra.
    + rewrite IH. split; intros H; [constructor; auto; lra|]. apply Forall_inv_tail in H. exact H.
Qed.
Lemma near_integer_spec : forall a, near_integer a = true <-> exists z : Z, Rabs (a - IZR z) <= / 10 ^ 8 + / 10 ^ 5 * Rabs a.
Proof.
  intros a. unfold near_integer. set (tol := / 10 ^ 8 + / 10 ^ 5 * Rabs a). destruct (base_Int_part a) as (B1 & B2). set (k := Int_part a) in *.
  destruct (Rle_dec _ _) as [L|L].
  - split; auto. intros _. unfold Rmin in L. destruct (Rle_dec (a - IZR k) (1 - (a - IZR k))).
    + exists k. rewrite Rabs_pos_eq; lra.
    + exists (k + 1)%Z. rewrite plus_IZR. rewrite Rabs_left1; lra.
  - split; [discriminate|]. intros (z & Hz). exfalso. apply L. clear L.
    destruct (Z_le_gt_dec z k) as [E|E].
    + apply Rle_trans with (a - IZR k); [apply Rmin_l|]. apply IZR_le in E. apply Rle_trans with (2 := Hz). apply Rle_trans with (a - IZR z); [lra|apply Rle_abs].
    + apply Rle_trans with (1 - (a - IZR k)); [apply Rmin_r|]. assert (E' : (k + 1 <= z)%Z) by lia. apply IZR_le in E'. rewrite plus_IZR in E'.
      apply Rle_trans with (2 := Hz). rewrite Rabs_minus_sym. apply Rle_trans with (IZR z - a); [lra|apply Rle_abs].
Qed.
Lemma below_trials : forall s t, length s = length t -> (negb (any_neg (vsub t s)) && negb (any_neg s) = true <-> Forall2 (fun a b => 0 <= a <= b) s t).
Proof.
  intros s t L. rewrite andb_true_iff, !negb_true_iff, !any_neg_false. revert t L. induction s as [|a s IH]; intros [|b t] L; try discriminate.
  - cbn. split; intros; auto.
  - injection L as L. specialize (IH t L). change (vsub (b :: t) (a :: s)) with ((b - a) :: vsub t s). split.
    + intros (A & B). pose proof (Forall_inv A). pose proof (Forall_inv B). cbn beta in *. constructor; [lra|]. apply IH. split; [exact (Forall_inv_tail A)|exact (Forall_inv_tail B)].
    + intros H. inversion H as [|? ? ? ? Hab Hst]; subst. apply IH in Hst. destruct Hst. split; constructor; auto; lra.
Qed.
Lemma check_data_spec : forall k, fits k (cases k) -> (check_data k = true <-> legal_data k).
Proof.
  intros k F. destruct k; cbn [check_data legal_data cases fits] in *; try (split; auto; fail).
  - apply below_trials. intuition congruence.
  - rewrite andb_true_iff, negb_true_iff, any_neg_false, forallb_forall, !Forall_forall. split.
    + intros (A & B) a Ha. split; [auto|]. apply near_integer_spec. auto.
    + intros H. split; intros a Ha; [apply near_integer_spec|]; apply H; auto.
  - apply below_trials. intuition congruence.
Qed.
Lemma new_loss_accepts : forall h k n c off weights, fits k (cases k) ->
  ((exists l, new_loss h k n c off None weights = Ok l) <-> 0 <= c /\ legal_data k /\ (forall r, weights = Some r -> legal_weights (cases k) (read h r))) /\
  ((forall l, new_loss h k n c off None weights <> Ok l) -> new_loss h k n c off None weights = Err ValueError).
Proof.
  intros h k n c off weights F. unfold new_loss. pose proof (check_data_spec k F) as C. destruct (Rlt_dec c 0) as [Hc|Hc].
  { split; auto. split; [intros (l & E); discriminate|]. intros (H & _). lra. }
  destruct (check_data k); cbn [negb].
  2:{ split; auto. split; [intros (l & E); discriminate|]. intros (_ & H & _). apply C in H. discriminate. }
  assert (W : (match weights with Some r => any_neg (read h r) || negb (Nat.eqb (length (read h r)) (cases k)) | None => false end = false) <-> (forall r, weights = Some r -> legal_weights (cases k) (read h r))).
  { destruct weights as [r|].
    - rewrite orb_false_iff, negb_false_iff, any_neg_false, Nat.eqb_eq. split; [intros (A & B) r' E; injection E as <-; split; auto|]. intros H. destruct (H r eq_refl). auto.
    - split; auto. intros _ r E. discriminate. }
  destruct (match weights with Some r => _ | None => false end).
  { split; auto. split; [intros (l & E); discriminate|]. intros (_ & _ & H). apply W in H. discriminate. }
  assert (T : 0 <= c /\ legal_data k /\ (forall r, weights = Some r -> legal_weights (cases k) (read h r))). { split; [lra|]. split; [apply C; reflexivity|apply W; reflexivity]. }
  destruct (adds_const k); cbn.
  all: split; [split; [auto|intros _; eexists; reflexivity]|]; intros H; exfalso; eapply H; reflexivity.
Qed.

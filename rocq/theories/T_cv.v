(** C48: cross-validation. *)
From Coq Require Import Reals ZArith List Lia Lra.
From Verif Require Import M_affine M_buffer Vec Spec M_quad SpecConvex M_loss SpecLoss M_cv SpecCv P_cv.
Import ListNotations.

(** Whatever the labels, the number of folds asked for and the shuffle, the folds partition the sample. *)
Theorem C48_partition : forall label sh n cv fs, shuffles sh -> cv_folds label sh cv n = Ok fs -> partitions n fs.
Proof. exact cv_partition. Qed.
Print Assumptions C48_partition.
Theorem C48_accepts : forall label sh n cv, (exists fs, cv_folds label sh cv n = Ok fs) <-> cv <> None.
Proof. intros label sh n [k|]; cbn; split; try congruence; eauto. intros (fs & E). discriminate. Qed.
Print Assumptions C48_accepts.
(** In exact arithmetic the folds are balanced and their number is the one asked for. *)
Theorem C48_balance_partial : forall sh n cv fs, shuffles sh -> (0 < cv)%Z -> cv_folds exact_label sh (Some cv) n = Ok fs -> balanced fs /\ length fs = Nat.min n (Z.to_nat cv).
Proof. exact exact_balanced. Qed.
Print Assumptions C48_balance_partial.
(** In binary64 arithmetic they are not: 44 samples in 22 folds give folds of 3 and folds of 1; 22 samples in 22 folds give 21 folds. *)
Theorem C48_balance_refuted : forall sh, shuffles sh -> exists fs, cv_folds double_label sh (Some 22%Z) 44 = Ok fs /\ ~ balanced fs /\
  (exists f g, In f fs /\ In g fs /\ size (snd f) = 3%nat /\ size (snd g) = 1%nat).
Proof. exact double_unbalanced. Qed.
Print Assumptions C48_balance_refuted.
Theorem C48_count_refuted : forall sh, shuffles sh -> exists fs, cv_folds double_label sh (Some 22%Z) 22 = Ok fs /\ length fs = 21%nat.
Proof. exact double_missing. Qed.
Print Assumptions C48_count_refuted.
Local Open Scope R_scope.
(** The loss a fold is fitted to: the training cases only, scaled by n / ntrain; the caller's arrays keep their values. *)
Theorem C48_training_loss : forall h l train, made h l -> copies_weights (l_fam l) = true \/ l_cw l = None -> length train = l_shape l -> (0 < size train)%nat ->
  exists h' l', fold_loss h l train = (h', Ok l') /\ (forall r, (r < length h)%nat -> read h' r = read h r) /\
    forall x, length x = l_shape l -> Forall (exact_case (l_fam l)) (predictor (l_fam l) (l_offset l) x) ->
      snd (loss_eval h' l' None x EvFunc) = Ok (VFunc (l_coef l * (INR (l_shape l) / INR (size train)) *
        sum_over (l_shape l) (fun i => if nth i train false then nth i (own_weights h l) 0 * doc_case (l_fam l) i (nth i (predictor (l_fam l) (l_offset l) x) 0) else 0))).
Proof. exact fold_loss_value. Qed.
Print Assumptions C48_training_loss.
(** A single fold leaves nothing to train on. *)
Theorem C48_one_fold : forall h l, made h l -> copies_weights (l_fam l) = true \/ l_cw l = None -> snd (fold_loss h l (repeat false (l_shape l))) = Err NaNResult.
Proof. exact one_fold. Qed.
Print Assumptions C48_one_fold.
(** Folds of equal size: the reported mean is the mean squared error, each sample predicted by the fit of the fold that holds it out. *)
Theorem C48_score : forall n fs, partitions n fs -> forall k, (forall i, (i < n)%nat -> (k i < length fs)%nat /\ nth i (snd (nth (k i) fs ([], []))) false = true) ->
  forall X y nl fitted s j, (forall f, In f fs -> size (snd f) = s) -> length y = n -> (0 < n)%nat -> (forall f, In f fs -> length (fitted (fst f)) = nl) -> (j < nl)%nat ->
  nth j (cv_means squared_score X y fs nl fitted) 0 =
  / INR n * sum_over n (fun i => (nth i (X (nth j (fitted (fst (nth (k i) fs ([], [])))) [])) 0 - nth i y 0) * (nth i (X (nth j (fitted (fst (nth (k i) fs ([], [])))) [])) 0 - nth i y 0)).
Proof. exact mean_held_out. Qed.
Print Assumptions C48_score.
(** Five samples, two folds, reversed *)
Example C48_instance : shuffles (@rev Z) /\ cv_folds exact_label (@rev Z) (Some 2%Z) 5 =
  Ok [([true; true; false; false; false], [false; false; true; true; true]); ([false; false; true; true; true], [true; true; false; false; false])] /\
  cv_folds double_label (@rev Z) (Some 2%Z) 5 = cv_folds exact_label (@rev Z) (Some 2%Z) 5.
Proof. split; [intros l; apply Permutation.Permutation_rev|]. split; vm_compute; reflexivity. Qed.
Example C48_loss_instance : let l := mk_loss (Gaussian [1; 2; 4]) 3 1 None (mk_iq 0 (FScal 0) (FScal 0) 0) None in made [] l /\ (copies_weights (l_fam l) = true \/ l_cw l = None) /\ (0 < size [true; false; true])%nat.
Proof.
  split; [|split; [auto|vm_compute; lia]]. exists None, None. split; [|split; [intros w; discriminate|split; cbn; auto]]. cbn [l_fam l_shape l_coef l_cw]. unfold new_loss. destruct (Rlt_dec 1 0); [exfalso; lra|]. reflexivity.
Qed.

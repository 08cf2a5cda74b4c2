(** C94: huberized_svm. *)
From Coq Require Import Reals List Arith Lia Lra.
From Verif Require Import Vec Spec M_quad M_affine SpecAffine M_loss M_smooth M_problem M_sconj SpecConvex SpecSconj SpecLoss M_hsvm SpecHsvm P_affine P_hsvm3.
Import ListNotations.
Local Open Scope R_scope.

(** ** C94. huberized_svm(X, labels, s) is the sum over the cases of the hinge smoothed with parameter s, at y_i <x_i, beta>. *)
(** Value and gradient, for every positive smoothing parameter; [c] and [off] are the arguments coef and offset, and neither occurs in the value. *)
Theorem C94_value_partial : forall X p labels s c off q, X <> [] -> Forall (fun r => length r = p) X -> length labels = length X -> two_labels labels -> 0 < s -> 0 <= c ->
  exists M, new_hsvm X p labels s c off q = Ok M /\ evaluates_affine p (hsvm_eval M) (smoothed_loss s X labels) (fun b => map (smoothed_grad s X labels b) (seq 0 p)) /\
    (forall b, hsvm_eval M b EvOther = Ok None) /\ hs_shape M = p /\ hs_quadratic M = (match q with Some q => q | None => no_quad end).
Proof. exact hsvm_spec. Qed.
Print Assumptions C94_value_partial.
(** The function is convex, the second component is its gradient, Lipschitz with constant |X|^2 / s. *)
Theorem C94_smooth : forall X p labels s, X <> [] -> Forall (fun r => length r = p) X -> length labels = length X -> 0 < s ->
  convex_on p (smoothed_loss s X labels) /\ gradient_of p (smoothed_loss s X labels) (fun b => map (smoothed_grad s X labels b) (seq 0 p)) /\
  forall Lo, 0 <= Lo -> opnorm_bound (matrix X p None) Lo -> lipschitz_map p (fun b => map (smoothed_grad s X labels b) (seq 0 p)) (Lo / s).
Proof. exact hsvm_smooth. Qed.
Print Assumptions C94_smooth.
(** Below the hinge loss, by at most s/2 for each case *)
Theorem C94_sandwich : forall X labels s b, 0 < s -> hinge_loss X labels b - INR (length X) * s / 2 <= smoothed_loss s X labels b <= hinge_loss X labels b.
Proof. exact hsvm_sandwich. Qed.
Print Assumptions C94_sandwich.
Example C94_case : [[1; 2]; [0; -1]; [3; 1]] <> [] /\ Forall (fun r : vec => length r = 2%nat) [[1; 2]; [0; -1]; [3; 1]] /\ two_labels [7; 2; 7] /\ sign_of [7; 2; 7] 0 = 1 /\ sign_of [7; 2; 7] 1 = -1 /\ opnorm_bound (matrix [[1; 2]; [0; -1]; [3; 1]] 2 None) 16.
Proof.
  split; [discriminate|]. split; [repeat constructor|]. split; [exists 7, 2; intros l [<-|[<-|[<-|[]]]]; auto|]. unfold sign_of. cbn. destruct (Rle_dec 7 7); [|lra]. destruct (Rle_dec 2 7); [|lra]. destruct (Rle_dec 7 2); [lra|]. split; auto. split; auto.
  intros [|x [|y [|z l]]] Lx; try discriminate. cbn. unfold sqn, dot. cbn. nra.
Qed.
(** The arguments coef and offset, documented for every smooth atom as a factor and as a vector subtracted from beta, have no effect. *)
Theorem C94_ignored_refuted : exists X p labels s M1 M2 b v1 v2, new_hsvm X p labels s 3 None None = Ok M1 /\ hsvm_eval M1 b EvFunc = Ok (Some (VFunc v1)) /\ v1 <> 3 * smoothed_loss s X labels b /\
  new_hsvm X p labels s 1 (Some [1]) None = Ok M2 /\ hsvm_eval M2 b EvFunc = Ok (Some (VFunc v2)) /\ v2 <> smoothed_loss s X labels (vsub b [1]).
Proof. exact hsvm_ignores. Qed.
Print Assumptions C94_ignored_refuted.
(** What is rejected *)
Theorem C94_errors : forall X p labels s c off q, (c < 0 \/ three_labels labels \/ labels = []) -> new_hsvm X p labels s c off q = Err ValueError.
Proof. exact hsvm_errors. Qed.
Print Assumptions C94_errors.
Theorem C94_no_smoothing : forall X p labels c off q, X <> [] -> Forall (fun r => length r = p) X -> length labels = length X -> two_labels labels -> new_hsvm X p labels 0 c off q = Err ValueError.
Proof. exact hsvm_no_smoothing. Qed.
Print Assumptions C94_no_smoothing.
Example C94_errors_case : three_labels [1; 2; 3].
Proof. exists 1, 2, 3. cbn. repeat split; auto; lra. Qed.
(** Only one label present: every case counts as positive, whatever the label. *)
Theorem C94_one_label : forall labels a i, (forall l, In l labels -> l = a) -> (i < length labels)%nat -> sign_of labels i = 1.
Proof. exact hsvm_one_label. Qed.
Print Assumptions C94_one_label.
Example C94_one_label_case : (forall l, In l [-1; -1] -> l = -1) /\ length [-1; -1] = 2%nat.
Proof. split; [intros l [<-|[<-|[]]]; auto|reflexivity]. Qed.

(** Model of the folds of regreg/paths/cross_validate.py, cross_validate 14-97 and cross_validate_alt 100-174 (the two build
    their folds with the same lines 46-54, 133-141). have_sklearn is set to False in both, so the branch of scikit-learn is dead;
    group_labels is never read. np.int is taken as int. Not modelled: joblib (the folds are fitted in order), printing. *)
From Coq Require Import Reals ZArith List Lia SpecFloat.
From Verif Require Import Vec Spec M_affine M_buffer M_quad M_loss.
Import ListNotations.

(** np.floor(np.arange(nsample) / nsample * cv).astype(int): entry i in exact arithmetic ... *)
Definition exact_label (n : nat) (cv : Z) (i : nat) : Z := (Z.of_nat i * cv / Z.of_nat n)%Z.
(** ... and in binary64 arithmetic, the one of numpy: conversion, quotient, product, floor *)
Definition double_of (z : Z) : spec_float := binary_normalize 53 1024 z 0 false.
Definition double_floor (f : spec_float) : Z :=
  match f with
  | S754_finite s m e => let z := if s then Zneg m else Zpos m in if Z.leb 0 e then (z * 2 ^ e)%Z else (z / 2 ^ (- e))%Z
  | _ => 0%Z
  end.
Definition double_label (n : nat) (cv : Z) (i : nat) : Z :=
  double_floor (SFmul 53 1024 (SFdiv 53 1024 (double_of (Z.of_nat i)) (double_of (Z.of_nat n))) (double_of cv)).
Definition labels (label : nat -> Z -> nat -> Z) (n : nat) (cv : Z) : list Z := map (label n cv) (seq 0 n).
(** np.unique: sorted, without repetition *)
Fixpoint insert (z : Z) (l : list Z) : list Z :=
  match l with [] => [z] | a :: r => if Z.ltb z a then z :: l else if Z.eqb z a then l else a :: insert z r end.
Definition unique (l : list Z) : list Z := fold_right insert [] l.
(** [(groups != g, groups == g) for g in np.unique(groups)] *)
Definition make_folds (groups : list Z) : list (list bool * list bool) :=
  map (fun g => (map (fun a => negb (Z.eqb a g)) groups, map (fun a => Z.eqb a g) groups)) (unique groups).
(** Lines 46-54. [cv]: None for anything that is not an int. [shuffle]: np.random.shuffle *)
Definition cv_folds (label : nat -> Z -> nat -> Z) (shuffle : list Z -> list Z) (cv : option Z) (n : nat) : res (list (list bool * list bool)) :=
  match cv with
  | None => Err ValueError
  | Some k => Ok (make_folds (shuffle (labels label n k)))
  end.

Local Open Scope R_scope.
(** a boolean mask used as an index *)
Definition picked (mask : list bool) : list nat := filter (fun i => nth i mask false) (seq 0 (length mask)).
(** fit_fold 63-77: the saturated loss of the training path; train.sum() = 0 makes the coefficient infinite *)
Definition fold_loss (h : heap) (l : loss) (train : list bool) : heap * res loss :=
  let '(h1, r) := subsample_loss h l (picked train) in
  (h1, rbind r (fun l' =>
       if Nat.eqb (length (picked train)) 0 then Err NaNResult else
       Ok (mk_loss (l_fam l') (l_shape l') (l_coef l' * (INR (length train) / INR (length (picked train)))) (l_offset l') (l_quad l') (l_cw l')))).
(** linpred(beta, X, test) and response[test]: the rows of the test fold *)
Definition rows_of (mask : list bool) (v : vec) : vec := gather (picked mask) v.
(** default score 22: norm(x-y)**2 / y.shape[0] *)
Definition squared_score (x y : vec) : R := sqn (vsub x y) / INR (length y).
(** 86-95, the mean over folds; [betas]: the coefficients of each fold, one for each lagrange value. [X]: X.dot *)
Definition fold_scores (score : vec -> vec -> R) (X : vec -> vec) (response : vec) (test : list bool) (betas : list vec) : vec :=
  map (fun b => score (rows_of test (X b)) (rows_of test response)) betas.
Definition mean_scores (scores : list vec) (nlagrange : nat) : vec :=
  map (fun i => vsum (map (fun s => nth i s 0) scores) / INR (length scores)) (seq 0 nlagrange).
Definition cv_means (score : vec -> vec -> R) (X : vec -> vec) (response : vec) (folds : list (list bool * list bool)) (nlagrange : nat) (fitted : list bool -> list vec) : vec :=
  mean_scores (map (fun f => fold_scores score X response (snd f) (fitted (fst f))) folds) nlagrange.

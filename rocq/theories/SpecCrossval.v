(** The problem a fold of cross-validation is to be fitted to. *)
From Coq Require Import Reals List Arith Bool.
From Verif Require Import M_affine Vec Spec M_quad M_buffer M_loss SpecLoss SpecCv M_path SpecPath.
Import ListNotations.
Local Open Scope R_scope.

(** The training cases only, scaled to the whole sample, plus ridge and l1 terms:
    coef n / n_train sum_{i in train} w_i loss_i((X v)_i) + (1 - alpha) lam / 2 sum_j e_j v_j^2 + alpha lam sum_j w_j |v_j| *)
Definition train_objective (h : heap) (l : loss) (train : list bool) (X : transform) (w e : vec) (alpha lam : R) (v : vec) : R :=
  l_coef l * (INR (l_shape l) / INR (size train)) *
    sum_over (l_shape l) (fun i => if nth i train false then nth i (own_weights h l) 0 * doc_case (l_fam l) i (nth i (predictor (l_fam l) (l_offset l) (t_lin X v)) 0) else 0) +
  (1 - alpha) / 2 * sum_over (t_in X) (fun j => nth j e 0 * lam * (nth j v 0 * nth j v 0)) +
  alpha * lam * sum_over (t_in X) (fun j => nth j w 0 * Rabs (nth j v 0)).
(** Data of the same kind that agree at the training cases *)
Definition agree (train : list bool) (n : nat) (a b : vec) : Prop := length a = n /\ length b = n /\ forall i, (i < n)%nat -> nth i train false = true -> nth i a 0 = nth i b 0.
Definition same_training (train : list bool) (n : nat) (k k' : family) : Prop :=
  match k, k' with
  | Gaussian y, Gaussian y' | Poisson y, Poisson y' => agree train n y y'
  | Logistic s t, Logistic s' t' | Cloglog s t, Cloglog s' t' => agree train n s s' /\ agree train n t t'
  | Huber y eps, Huber y' eps' | HuberSvm y eps, HuberSvm y' eps' => agree train n y y' /\ eps = eps'
  | _, _ => False
  end.
(** Families whose loss in the code is convex and equal to the documented one at every linear predictor: Gaussian, Poisson, Huber, and the SVM with smoothing 1 *)
Definition tame (k : family) : Prop := convex_family k /\ match k with Logistic _ _ => False | _ => True end.
(** The entries of v at the cases of a fold *)
Definition taken (test : list bool) (v : vec) : vec := map (fun i => nth i v 0) (filter (fun i => nth i test false) (seq 0 (length test))).
(** Score of the coefficients b at the held-out cases of a fold (train, test), and means over folds *)
Definition held_out (score : vec -> vec -> R) (X : transform) (y : vec) (f : list bool * list bool) (b : vec) : R := score (taken (snd f) (t_lin X b)) (taken (snd f) y).
Definition mean_over {A} (l : list A) (F : A -> R) : R := vsum (map F l) / INR (length l).
(** What cross-validation is to give for the coefficients [fits f] of each fold f: the mean and the standard deviation of the scores, value by value *)
Definition cv_summary (score : vec -> vec -> R) (X : transform) (y : vec) (folds : list (list bool * list bool)) (m : nat) (fits : list bool * list bool -> list vec) (means sds : vec) : Prop :=
  length means = m /\ length sds = m /\ forall j, (j < m)%nat ->
    nth j means 0 = mean_over folds (fun f => held_out score X y f (nth j (fits f) [])) /\
    nth j sds 0 = sqrt (mean_over folds (fun f => (held_out score X y f (nth j (fits f) []) - nth j means 0) * (held_out score X y f (nth j (fits f) []) - nth j means 0))).
(** A fold is well fitted at the values ls: where the fitter did not give up (ws false), and it does not with fewer than 20 features, the coefficients
    minimize the objective of the training cases up to kkt_tol times the penalty of the competitor *)
Definition fold_ok (h : heap) (l : loss) (train : list bool) (X : transform) (w e : vec) (alpha : R) (p : nat) (ls : list R) (bs : list vec) (ws : list bool) : Prop :=
  length bs = length ls /\ length ws = length ls /\ forall k, (k < length ls)%nat -> length (nth k bs []) = p /\ ((p < 20)%nat -> nth k ws true = false) /\
    (nth k ws true = false -> forall v, length v = p -> train_objective h l train X w e alpha (nth k ls 0) (nth k bs []) <=
       train_objective h l train X w e alpha (nth k ls 0) v + kkt_tol * (alpha * nth k ls 0 * sum_over p (fun j => nth j w 0 * Rabs (nth j v 0)))).
(** Two cases of a Gaussian loss, without weights and offset, and an intercept that is not penalized *)
Definition two_cases (h : heap) (l : loss) (a b : R) : Prop := made h l /\ l_fam l = Gaussian [a; b] /\ l_shape l = 2%nat /\ 0 < l_coef l /\ l_offset l = None /\ l_cw l = None.
Definition intercept : transform := matrix [[1]; [1]] 1 None.
(** each case held out once *)
Definition two_folds : list (list bool * list bool) := [([false; true], [true; false]); ([true; false], [false; true])].

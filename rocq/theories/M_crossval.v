(** Model of cross_validate, regreg/paths/cross_validate.py:14-99, from end to end for lasso paths: the folds (M_cv), the training paths, the path
    fitter run on each of them, the scores. Simplifications: those of M_cv, M_path and M_subprob; joblib runs every fold to its end before the next
    one starts, in any order; a linear predictor of another length than the sample, which numpy refuses, has value 0 and an empty gradient. *)
From Coq Require Import Reals List Arith Bool ZArith.
From Verif Require Import M_affine Vec Spec M_quad M_buffer M_loss M_cv M_path M_subprob.
Import ListNotations.
Local Open Scope R_scope.

(** saturated_loss.smooth_objective(z, 'func') and (z, 'grad') *)
Definition func_at (h : heap) (l : loss) (z : vec) : R :=
  if Nat.eqb (length z) (l_shape l) then match snd (loss_eval h l None z EvFunc) with Ok (VFunc f) => f | _ => 0 end else 0.
Definition grad_at (h : heap) (l : loss) (z : vec) : vec :=
  if Nat.eqb (length z) (l_shape l) then match snd (loss_eval h l None z EvGrad) with Ok (VGrad g) => g | _ => [] end else [].
(** lasso_path(loss, X, weights, elastic_net_param, alpha), regreg/paths/lasso.py:21-43 *)
Definition path_of (h : heap) (l : loss) (X : transform) (w e : vec) (alpha : R) : lpath := mk_lpath (grad_at h l) (func_at h l) X w e alpha.
(** path_obj.subsample(train), regreg/paths/lasso.py:84-115, with the coefficient of the loss scaled, regreg/paths/cross_validate.py:69-70 *)
Definition fold_path (h : heap) (l : loss) (train : list bool) (X : transform) (w e : vec) (alpha : R) : res lpath :=
  let '(h1, r) := fold_loss h l train in rmap (fun l' => path_of h1 l' X w e alpha) r.

(** What a path fitter returns: strong_rules a dictionary with the entry 'beta' (and warnings, one for each value given up), basil an array *)
Inductive fitted := Dict (beta : list vec) (warned : list bool) | Solutions (a : list vec).
Inductive fitter := StrongRules | Basil.
(** basil_loop of M_path, which also gives the gradient array of the caller as it is left, regreg/paths/basil.py:27-30, 77-79, 106-145 *)
Fixpoint basil_grad (fuel : nat) (P : lpath) (S : solver) (step_nvar step_lagrange : nat) (lseq : list R) (sol grad : vec) (done : list (R * vec)) (cand : list nat) (calls : nat)
  : res (list (R * vec)) * vec :=
  match fuel with
  | O => (Err OutOfFuel, grad)
  | Datatypes.S fuel' =>
      let ls := firstn step_lagrange (skipn (basil_start lseq (map fst done)) lseq) in
      match ls with
      | [] => (Ok done, grad)
      | _ => let '(out, g, cand', c) := basil_inner P S false step_nvar sol grad calls ls cand in
             basil_grad fuel' P S step_nvar step_lagrange lseq sol g (done ++ out) cand' c
      end
  end.
(** path_fitter(path, lagrange_seq, (solution, grad)): what is returned, and the array grad afterwards. The defaults are those of
    regreg/paths/__init__.py:217-224 and regreg/paths/basil.py:106-115; strong_rules works on copies, regreg/paths/__init__.py:237-238, basil on a copy
    of the solution only, regreg/paths/basil.py:27-30 *)
Definition run_fitter (f : fitter) (fuel : nat) (M : optimizer) (P : lpath) (ls : list R) (solution grad : vec) : res fitted * vec :=
  let S := path_solver M P (lasso_pen P) in
  match f with
  | StrongRules => (rmap (fun pts => Dict (betas solution pts) (map pt_warned pts)) (strong_rules fuel P S false 20 ls solution grad), grad)
  | Basil => let '(r, g) := basil_grad fuel P S 50 5 ls solution grad [] [] 0 in (rmap (fun out => Solutions (map snd out)) r, g)
  end.

(** The folds are fitted in the order [order]; they are all given the same initial_data, regreg/paths/cross_validate.py:59-88 *)
Fixpoint run_jobs (fit : list bool -> vec -> res fitted * vec) (folds : list (list bool * list bool)) (order : list nat) (grad : vec) : list (nat * res fitted) * vec :=
  match order with
  | [] => ([], grad)
  | k :: order' => let '(r, g1) := fit (fst (nth k folds ([], []))) grad in
                   let '(rs, g2) := run_jobs fit folds order' g1 in ((k, r) :: rs, g2)
  end.
(** results[k]['beta']: an array has no entry 'beta' *)
Definition beta_of (rs : list (nat * res fitted)) (k : nat) : res (list vec) :=
  match find (fun p => Nat.eqb (fst p) k) rs with
  | Some (_, Ok (Dict b _)) => Ok b
  | Some (_, Ok (Solutions _)) => Err IndexError
  | Some (_, Err x) => Err x
  | None => Err IndexError
  end.
Fixpoint all_ok {A} (l : list (res A)) : res (list A) := match l with [] => Ok [] | r :: l' => rbind r (fun a => rmap (cons a) (all_ok l')) end.
(** saturated_loss.data: get_data of each loss, regreg/smooth/glm.py:963-965, 1158-1160, 1334-1336, regreg/smooth/binary.py:186-188, 672-674, 872-874 *)
Definition data_of (k : family) : vec := match k with Gaussian y | Poisson y | Huber y _ => y | Logistic s _ | Cloglog s _ | HuberSvm s _ => s end.
(** np.std(scores, 0) *)
Definition sd_scores (scores : list vec) (nlagrange : nat) : vec :=
  map (fun i => let m := nth i (mean_scores scores nlagrange) 0 in
                sqrt (vsum (map (fun s => (nth i s 0 - m) * (nth i s 0 - m)) scores) / INR (length scores))) (seq 0 nlagrange).
(** The scores from linpred(beta, X, test) and response[test], regreg/paths/cross_validate.py:92-99; the number of values is that of the first fold *)
Definition cv_scores (score : vec -> vec -> R) (X : transform) (response : vec) (folds : list (list bool * list bool)) (bs : list (list vec)) : list vec :=
  map (fun p => fold_scores score (t_lin X) response (snd (fst p)) (snd p)) (combine folds bs).
(** cross_validate(path_obj, lagrange_seq, path_fitter, initial_data, cv, score=score): means and deviations, and the array initial_data[1] afterwards *)
Definition cross_validate (label : nat -> Z -> nat -> Z) (shuffle : list Z -> list Z) (cv : option Z) (order : list nat) (f : fitter) (fuel : nat) (M : optimizer)
    (h : heap) (l : loss) (X : transform) (w e : vec) (alpha : R) (initial_data : option (vec * vec)) (score : vec -> vec -> R) (ls : list R) : res (vec * vec) * vec :=
  let '(s0, g0) := match initial_data with Some d => d | None => lasso_null M (path_of h l X w e alpha) end in
  match cv_folds label shuffle cv (length (data_of (l_fam l))) with
  | Err x => (Err x, g0)
  | Ok folds =>
      let fit := fun train g => match fold_path h l train X w e alpha with Err x => (Err x, g) | Ok P => run_fitter f fuel M P ls s0 g end in
      let '(rs, g) := run_jobs fit folds order g0 in
      (rmap (fun bs => let sc := cv_scores score X (data_of (l_fam l)) folds bs in let m := length (hd [] sc) in (mean_scores sc m, sd_scores sc m))
         (all_ok (map (beta_of rs) (seq 0 (length folds)))), g)
  end.

(** Model of the estimators of regreg/sklearn: base.py, gaussian.py, logistic.py, cloglog.py, huber.py, huber_svm.py, and the scores and
    probabilities of cox.py and multinomial.py. The array y is kept in the store of M_buffer.v column by column, because y[:,j] is a view:
    writing to it writes to y. X is a float matrix given by its rows, the solver and the atom constructor are arguments. Arithmetic is
    real; arrays whose lengths do not match are outside the model unless a definition says otherwise. *)
From Coq Require Import Reals List Arith Bool.
From Verif Require Import M_affine M_loss M_buffer Vec Spec M_quad M_semi M_shift M_mode M_cox.
Import ListNotations.
Local Open Scope R_scope.

(** ** The argument y: one-dimensional, or (n, k) by columns *)
Inductive yarg := Y1 (r : ref) | Y2 (n : nat) (cols : list ref).
(** the response: an array of dimension 0, 1 or 2 *)
Inductive resp := RScal (a : R) | RVec (v : vec) | RMat (n : nat) (cols : list vec).
(** np.squeeze of a matrix with n rows: axes of length one go *)
Definition squeeze (n : nat) (cols : list vec) : resp :=
  match cols with
  | [c] => if Nat.eqb n 1 then RScal (nth 0 c 0) else RVec c
  | _ => if Nat.eqb n 1 then RVec (map (fun c => nth 0 c 0) cols) else RMat n cols
  end.
(** y[:,-j] *)
Definition column_from_end (y : yarg) (j : nat) : res ref :=
  match y with
  | Y1 _ => Err IndexError
  | Y2 _ cols => if Nat.leb j (length cols) then Ok (nth (length cols - j) cols 0%nat) else Err IndexError
  end.
(** np.squeeze(y[:,:-j]) *)
Definition all_but_last (h : heap) (y : yarg) (j : nat) : res resp :=
  match y with
  | Y1 _ => Err IndexError
  | Y2 n cols => Ok (squeeze n (map (read h) (firstn (length cols - j) cols)))
  end.
(** y itself *)
Definition whole (h : heap) (y : yarg) : resp := match y with Y1 r => RVec (read h r) | Y2 n cols => RMat n (map (read h) cols) end.
(** _check_y_arg, regreg/sklearn/base.py:184-218 *)
Definition check_y (h : heap) (cw off : bool) (y : yarg) : res (resp * option ref * option ref) :=
  match cw, off with
  | false, false => Ok (whole h y, None, None)
  | false, true => rbind (column_from_end y 1) (fun o => rmap (fun r => (r, None, Some o)) (all_but_last h y 1))
  | true, false => rbind (column_from_end y 1) (fun w => rmap (fun r => (r, Some w, None)) (all_but_last h y 1))
  | true, true => rbind (column_from_end y 2) (fun w => rbind (column_from_end y 1) (fun o => rmap (fun r => (r, Some w, Some o)) (all_but_last h y 2)))
  end.

(** ** Estimators *)
Inductive efam := EGaussian | ELogistic | ECloglog | EHuber (smoothing : R) | EHuberSvm (smoothing : R).
Inductive smethod := Deviance | MeanDeviance | R2 | Accuracy | OtherScore.
(** attributes, regreg/sklearn/base.py:92-100, 307-316; [e_classifier]: a subclass of sklearn_classifier, whose constructor (417-424) leaves
    offset False; [e_coefs], [e_loglike]: set by fit *)
Record est := mk_est { e_fam : efam; e_classifier : bool; e_cw : bool; e_off : bool; e_coef : R; e_quadratic : option iq; e_method : smethod;
                       e_coefs : option vec; e_loglike : option glm }.
(** successes and trials, regreg/sklearn/logistic.py:27-32, 46-51, 93-98, 112-117; cloglog.py has the same lines. trials=None becomes ones
    in the constructor of the loss. A response of any other dimension is outside the model of the losses. *)
Definition family_of (e : efam) (r : resp) : res family :=
  match e, r with
  | EGaussian, RVec v => Ok (Gaussian v)
  | EHuber s, RVec v => Ok (Huber v s)
  | EHuberSvm s, RVec v => Ok (HuberSvm v s)
  | ELogistic, RVec v => Ok (Logistic v (ones (length v)))
  | ECloglog, RVec v => Ok (Cloglog v (ones (length v)))
  | ELogistic, RMat _ (s :: t :: _) => Ok (Logistic s t)
  | ECloglog, RMat _ (s :: t :: _) => Ok (Cloglog s t)
  | ELogistic, RMat _ _ | ECloglog, RMat _ _ => Err IndexError
  | _, _ => Err NotImplementedError
  end.
(** The constructor of the loss. Without trials the successes must be zeros and ones (regreg/smooth/binary.py:205-208). *)
Definition is_binary (v : vec) : bool := forallb (fun a => if Req_EM_T a 0 then true else if Req_EM_T a 1 then true else false) v.
Definition no_trials_ok (e : efam) (r : resp) : bool := match e, r with ELogistic, RVec v | ECloglog, RVec v => is_binary v | _, _ => true end.
Definition new_saturated (h : heap) (e : efam) (r : resp) (c : R) (o : option vec) (w : option ref) : res loss :=
  rbind (family_of e r) (fun k => if no_trials_ok e r then new_loss h k (cases k) c o None w else Err ValueError).
(** _loglike_factory, regreg/sklearn/gaussian.py:22-28, regreg/sklearn/logistic.py:24-39, 90-105, regreg/sklearn/cloglog.py:26-41, 92-107, regreg/sklearn/huber.py:78-85, regreg/sklearn/huber_svm.py:79-86:
    the loss gets coef and the offset, the glm gets the case weights (regreg/smooth/glm.py:346-358). p is the number of columns of X. *)
Definition loglike_factory (h : heap) (e : est) (X : list vec) (p : nat) (y : yarg) : heap * res glm :=
  match check_y h (e_cw e) (e_off e) y with
  | Err x => (h, Err x)
  | Ok (r, w, o) =>
      match new_saturated h (e_fam e) r (e_coef e) (option_map (read h) o) None with
      | Err x => (h, Err x)
      | Ok l => new_glm h l (matrix X p None) None None w
      end
  end.
(** The objective of simple_problem(loglike, atom): regreg/problems/simple.py:29-35, regreg/problems/composite.py:82-83; value and constraint are the methods of the atom *)
Definition problem_objective (h : heap) (g : glm) (value : vec -> R -> bool -> res ext) (constraint : vec -> R -> res ext) (atom : moded) (x : vec) : res ext :=
  rbind (snd (glm_eval h g x EvFunc)) (fun f => match f with
    | VFunc f => rmap (fun v => ext_add (Fin f) (ext_add v (Fin (q_func (g_quad g) x)))) (moded_objective value constraint atom x true)
    | _ => Err TypeError end).
Definition fitted (e : est) (g : glm) (x : option vec) : est :=
  mk_est (e_fam e) (e_classifier e) (e_cw e) (e_off e) (e_coef e) (e_quadratic e) (e_method e) (match x with Some _ => x | None => e_coefs e end) (Some g).
(** base_mixin.fit, regreg/sklearn/base.py:102-128; [solve]: simple_problem(loglike, atom).solve(), [atom]: atom_constructor applied to atom_params.
    The estimator is changed in place, also when something raises. *)
Definition fit_base (solve : heap -> glm -> moded -> res vec) (atom : res moded) (h : heap) (e : est) (X : list vec) (p : nat) (y : yarg) : heap * est * res unit :=
  let '(h1, g) := loglike_factory h e X p y in
  match g with
  | Err x => (h1, e, Err x)
  | Ok g => match rbind atom (solve h1 g) with
            | Err x => (h1, fitted e g None, Err x)
            | Ok b => (h1, fitted e g (Some b), Ok tt)
            end
  end.
(** set_lagrange, regreg/atoms/seminorms.py:237-240, and set_quadratic, regreg/problems/composite.py:120-124 *)
Definition put_lagrange (a : moded) (v : R) : res moded :=
  match m_bound a with None => Ok (mk_moded (Some v) None (m_base a)) | Some _ => Err AttributeError end.
Definition put_quadratic (a : moded) (q : iq) : moded :=
  mk_moded (m_lagrange a) (m_bound a) (mk_base (b_shape (m_base a)) (b_offset (m_base a)) q).
(** lagrange_mixin._construct_atom, regreg/sklearn/base.py:364-371; [mk]: atom_constructor(score, **atom_params), which returns a new atom at
    each call. enet_alpha times None raises TypeError. *)
Definition enet_atom (alpha : R) (a : moded) : res moded :=
  if Req_EM_T alpha 0 then Ok a else
  match m_lagrange a with
  | None => Err TypeError
  | Some lam => rmap (fun a' => put_quadratic a' (mk_iq (alpha * lam) (FScal 0) (FScal 0) 0)) (put_lagrange a (lam * (1 - alpha)))
  end.
Definition construct_atom (mk : vec -> res moded) (alpha : R) (score : vec) : res moded := rbind (mk score) (enet_atom alpha).
(** lagrange_mixin.fit, regreg/sklearn/base.py:318-354, with unpenalized False: the atom is constructed twice from the same gradient *)
Definition fit_lagrange (solve : heap -> glm -> moded -> res vec) (mk : vec -> res moded) (alpha : R) (h : heap) (e : est) (X : list vec) (p : nat) (y : yarg) : heap * est * res unit :=
  let '(h1, g) := loglike_factory h e X p y in
  match g with
  | Err x => (h1, e, Err x)
  | Ok g =>
      let '(h2, v) := glm_eval h1 g (zeros p) EvGrad in
      match rbind v (fun v => match v with
              | VGrad s => rbind (construct_atom mk alpha s) (fun _ => rbind (construct_atom mk alpha s) (solve h2 g))
              | _ => Err TypeError end) with
      | Err x => (h2, fitted e g None, Err x)
      | Ok b => (h2, fitted e g (Some b), Ok tt)
      end
  end.
(** classifier_lagrange_mixin.__init__, regreg/sklearn/base.py:466-519: offset is not a name there *)
Definition new_classifier_lagrange : res est := Err NameError.
(** sklearn_logistic_classifier_lagrange (regreg/sklearn/logistic.py:144-145) and its likes in the other files (regreg/sklearn/cloglog.py:145-146, regreg/sklearn/multinomial.py:143-144) subclass the
    plain classifier: their fit is [fit_base]. *)

(** ** Predictions *)
Definition fitted_coefs (e : est) : res vec := match e_coefs e with Some b => Ok b | None => Err AttributeError end.
(** X.dot(self._coefs); predict, regreg/sklearn/base.py:147 *)
Definition linpred (e : est) (X : list vec) : res vec := rmap (mat_vec X) (fitted_coefs e).
(** classifier_mixin.predict, regreg/sklearn/base.py:443 *)
Definition positive (a : R) : bool := if Rlt_dec 0 a then true else false.
Definition predict_labels (e : est) (X : list vec) : res (list bool) := rmap (map positive) (linpred e X).
(** predict_proba, regreg/sklearn/logistic.py:140-142, regreg/sklearn/cloglog.py:142-143; the inherited one raises (regreg/sklearn/base.py:462) *)
Definition predict_proba (e : est) (X : list vec) : res vec :=
  rbind (linpred e X) (fun u => match e_fam e with
    | ELogistic => Ok (map (fun a => exp a / (1 + exp a)) u)
    | ECloglog => Ok (map (fun a => 1 - exp (- exp a)) u)
    | _ => Err NotImplementedError end).
(** multinomial predict_proba, regreg/sklearn/multinomial.py:139-141, from the rows of X.dot(coefs): an (n, q) array divided by an (n,) array, which
    numpy lines up with the last axis: entry (i,j) is divided by the sum of row j *)
Definition mn_predict_proba (q : nat) (lin : list vec) : res (list vec) :=
  let e := map (map exp) lin in
  let n := length e in
  let s := map vsum e in
  if Nat.eqb n q then Ok (map (fun r => vzip Rdiv r s) e)
  else if Nat.eqb n 1 then Ok (map (fun r => map (fun a => a / nth 0 s 0) r) e)
  else if Nat.eqb q 1 then Ok (map (fun r => map (fun b => nth 0 r 0 / b) s) e)
  else Err ValueError.
(** multinomial predict, regreg/sklearn/multinomial.py:119-120: the first position of the largest entry *)
Fixpoint argmax_from (i best : nat) (m : R) (r : vec) : nat :=
  match r with [] => best | a :: r' => if Rlt_dec m a then argmax_from (S i) i a r' else argmax_from (S i) best m r' end.
Definition argmax_row (r : vec) : nat := match r with [] => 0%nat | a :: r' => argmax_from 1 0 a r' end.
Definition mn_predict (lin : list vec) : list nat := map argmax_row lin.

(** ** Scores *)
(** f applied to the entries of two arrays of the same length *)
Fixpoint vzip_with {A} (f : A -> R -> bool) (x : list A) (y : vec) : list bool :=
  match x, y with a :: x', b :: y' => f a b :: vzip_with f x' y' | _, _ => [] end.
Definition mean (v : vec) : R := vsum v / INR (length v).
(** the labels, as booleans, against numbers *)
Definition agree (l : bool) (a : R) : bool := if Req_EM_T (if l then 1 else 0) a then true else false.
Definition count_true (l : list bool) : R := INR (length (filter (fun b => b) l)).
Definition mean_true (l : list bool) : res R := match l with [] => Err NaNResult | _ => Ok (count_true l / INR (length l)) end.
(** the function loss of _saturated_score: a new loss, called once *)
Definition saturated_loss (h : heap) (e : efam) (r : resp) (w : option ref) (u : vec) : res R :=
  rbind (new_saturated h e r 1 None w) (fun l => rbind (snd (loss_eval h l None u EvFunc)) (fun v => match v with VFunc f => Ok f | _ => Err TypeError end)).
(** proper deviance factor: regreg/sklearn/gaussian.py:44, regreg/sklearn/logistic.py:63, regreg/sklearn/cloglog.py:65; none in regreg/sklearn/huber.py:100, regreg/sklearn/huber_svm.py:101 (all in regreg/sklearn) *)
Definition dev_factor (e : efam) : R := match e with EHuber _ | EHuberSvm _ => 1 | _ => 2 end.
(** the constant predictor of R2: regreg/sklearn/gaussian.py:49, regreg/sklearn/huber.py:105, regreg/sklearn/huber_svm.py:106 the mean; regreg/sklearn/logistic.py:68-70 its logit (not finite at 0 and 1); regreg/sklearn/cloglog.py:70-72
    gumbel_r.ppf, -log(-log p). *)
Definition null_predictor (e : efam) (m : R) : res R :=
  match e with
  | EGaussian | EHuber _ | EHuberSvm _ => Ok m
  | ELogistic => if Rlt_dec 0 m then if Rlt_dec m 1 then Ok (ln (m / (1 - m))) else Err NaNResult else Err NaNResult
  | ECloglog => if Rlt_dec 0 m then if Rlt_dec m 1 then Ok (- ln (- ln m)) else Err NaNResult else Err NaNResult
  end.
(** _saturated_score of the regressors: regreg/sklearn/gaussian.py:30-52, regreg/sklearn/logistic.py:41-76, regreg/sklearn/cloglog.py:43-78, regreg/sklearn/huber.py:87-108, regreg/sklearn/huber_svm.py:88-109. R2 and accuracy of a
    two-column response, and anything of zero cases, are outside the model; 1 - SSE / 0 is nan or -inf. *)
Definition regressor_score (h : heap) (e : efam) (m : smethod) (r : resp) (w : option ref) (u : vec) : res R :=
  match m, r with
  | Deviance, _ => rmap (fun f => - dev_factor e * f) (saturated_loss h e r w u)
  | MeanDeviance, _ => rmap (fun f => match e with ECloglog => - dev_factor e * f | _ => - dev_factor e * f / INR (length u) end) (saturated_loss h e r w u)
  | R2, RVec y =>
      rbind (saturated_loss h e r w u) (fun sse =>
      rbind (null_predictor e (mean y)) (fun c =>
      rbind (saturated_loss h e r w (const_vec (length y) c)) (fun sst =>
      if Req_EM_T (dev_factor e * sst) 0 then Err NaNResult else Ok (1 - dev_factor e * sse / (dev_factor e * sst)))))
  | Accuracy, RVec y => match e with ELogistic | ECloglog => mean_true (vzip_with agree (map positive u) y) | _ => Err NaNResult end
  | OtherScore, _ => Err NaNResult
  | _, _ => Err NotImplementedError
  end.
(** _saturated_score of the classifiers, regreg/sklearn/logistic.py:107-121, regreg/sklearn/cloglog.py:109-123: predictions are the numbers X.dot(coefs) *)
Definition same_number (a b : R) : bool := if Req_EM_T a b then true else false.
Definition classifier_score (e : efam) (m : smethod) (r : resp) (u : vec) : res R :=
  rbind (family_of e r) (fun k =>
  match m, k with
  | Accuracy, Logistic s _ | Accuracy, Cloglog s _ => mean_true (vzip_with same_number u s)
  | Accuracy, _ => Err NotImplementedError
  | _, _ => Err NaNResult
  end).
(** score, regreg/sklearn/base.py:149-176; case_weights *= sample_weight writes to the column of y *)
Definition score (h : heap) (e : est) (X : list vec) (y : yarg) (sample_weight : option vec) : heap * res R :=
  match check_y h (e_cw e) (e_off e) y with
  | Err x => (h, Err x)
  | Ok (r, w, o) =>
      match linpred e X with
      | Err x => (h, Err x)
      | Ok u0 =>
          let u := match o with Some o => vsub u0 (read h o) | None => u0 end in
          let h1 := match sample_weight, w with Some s, Some w => write h w (vmul (read h w) s) | _, _ => h end in
          (h1, if e_classifier e then classifier_score (e_fam e) (e_method e) r u else regressor_score h1 (e_fam e) (e_method e) r w u)
      end
  end.
(** _saturated_score of sklearn_cox, regreg/sklearn/cox.py:34-62: the loss of M_cox.v with coef 1; the mean is that of the whole (n, 2) response *)
Definition cox_value (T : vec) (cens ord : list nat) (b : scratch) (w u : vec) : res R := cox_objective (mk_cdata T cens ord (rank_min T) (rank_max T)) b u w.
Definition cox_score (m : smethod) (T : vec) (cens ord : list nat) (b : scratch) (w u : vec) : res R :=
  match m with
  | Deviance => rmap (fun f => -2 * f) (cox_value T cens ord b w u)
  | MeanDeviance => rmap (fun f => -2 * f / INR (length u)) (cox_value T cens ord b w u)
  | R2 => rbind (cox_value T cens ord b w u) (fun sse =>
          rbind (cox_value T cens ord b w (const_vec (length T) (mean (T ++ map INR cens)))) (fun sst =>
          if Req_EM_T sst 0 then Err NaNResult else Ok (1 - 2 * sse / sst)))
  | _ => Err NaNResult
  end.

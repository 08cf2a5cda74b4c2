(** C78, C79, C80: the estimators of regreg.sklearn. *)
From Coq Require Import Reals List Arith Lra Lia Bool.
From Verif Require Import M_affine M_loss M_smooth M_buffer Vec Spec M_quad M_prox M_semi SpecAtom M_shift SpecBase SpecMode M_mode SpecModed M_cox SpecCox SpecCoxObj SpecLoss SpecAffine SpecSmooth M_sklearn SpecSklearn P_quad P_sep P_sklearn1 P_sklearn2 P_sklearn3 P_sklearn4 P_sklearn5 P_sklearn6 P_sklearn7.
Import ListNotations.
Local Open Scope R_scope.

(** ** C78: fit *)
(** The columns of y are the responses, then the case weights if declared, then the offset if declared; at least two rows. *)
Theorem C78_columns : forall h cw off n rs w o y, described h cw off n rs w o y -> (2 <= n)%nat ->
  exists wr or, check_y h cw off y = Ok (match rs with [v] => RVec v | _ => RMat n rs end, wr, or) /\ option_map (read h) wr = w /\ option_map (read h) or = o.
Proof. exact columns_read. Qed.
Print Assumptions C78_columns.
(** A one-dimensional y cannot hold weights or an offset. *)
Theorem C78_vector_refused : forall h cw off r, cw = true \/ off = true -> check_y h cw off (Y1 r) = Err IndexError.
Proof. exact vector_refused. Qed.
Print Assumptions C78_vector_refused.
(** The loss that fit hands to the solver is the documented one, with the weights and the offset found in y (the predictor of the complementary log-log loss has no offset); y is not touched. *)
Theorem C78_fitted_loss : forall h e n p X y k w o, holds h e n y k w o -> (2 <= n)%nat -> design n p X -> 0 <= e_coef e ->
  exists h1 g, loglike_factory h e X p y = (h1, Ok g) /\ (forall r, (r < length h)%nat -> read h1 r = read h r) /\
    forall b, length b = p -> Forall (exact_case k) (predictor k o (mat_vec X b)) ->
      glm_eval h1 g b EvFunc = (h1, Ok (VFunc (doc_loss k n (e_coef e) (weights n w) (predictor k o (mat_vec X b))))).
Proof. exact fitted_loss. Qed.
Print Assumptions C78_fitted_loss.
(** fit stores the minimizer of coef * loss + atom, atom being the one given, if the solver minimizes the objective of the problem it is given. For the losses computed exactly everywhere (Gaussian, Huber, the smoothed hinge with smoothing 1). *)
Theorem C78_fit_partial : forall solve P value constraint a m h e n p X y k w o h' e',
  holds h e n y k w o -> (2 <= n)%nat -> design n p X -> 0 <= e_coef e -> exact_family k -> moded_wf p a m ->
  (forall v, length v = p -> match m with Lagrange lam => value v lam true = Ok (ext_scale lam (P v)) | Bound b => constraint v b = Ok (gmode P (Bound b) v) end) ->
  (forall h1 g b F, loglike_factory h e X p y = (h1, Ok g) -> solve h1 g a = Ok b -> (forall x, length x = p -> problem_objective h1 g value constraint a x = Ok (F x)) -> is_argmin p F b) ->
  fit_base solve (Ok a) h e X p y = (h', e', Ok tt) ->
  exists b, e_coefs e' = Some b /\ is_argmin p (fun x => ext_add (Fin (doc_loss k n (e_coef e) (weights n w) (minus (mat_vec X x) o))) (moded_doc p P a m x)) b.
Proof. exact fit_minimizes. Qed.
Print Assumptions C78_fit_partial.
(** For the logistic loss, a minimizer up to coef * e^-100 * sum of weights times trials. *)
Theorem C78_fit_logistic : forall solve P value constraint a m h e n p X y s t w o h' e',
  holds h e n y (Logistic s t) w o -> (2 <= n)%nat -> design n p X -> 0 <= e_coef e -> moded_wf p a m ->
  (forall v, length v = p -> match m with Lagrange lam => value v lam true = Ok (ext_scale lam (P v)) | Bound b => constraint v b = Ok (gmode P (Bound b) v) end) ->
  (forall h1 g b F, loglike_factory h e X p y = (h1, Ok g) -> solve h1 g a = Ok b -> (forall x, length x = p -> problem_objective h1 g value constraint a x = Ok (F x)) -> is_argmin p F b) ->
  fit_base solve (Ok a) h e X p y = (h', e', Ok tt) ->
  let F := fun x => ext_add (Fin (doc_loss (Logistic s t) n (e_coef e) (weights n w) (minus (mat_vec X x) o))) (moded_doc p P a m x) in
  exists b, e_coefs e' = Some b /\ length b = p /\ forall v, length v = p -> ext_le (F b) (ext_add (F v) (Fin (e_coef e * (exp (-100) * dot (weights n w) t)))).
Proof. exact fit_logistic. Qed.
Print Assumptions C78_fit_logistic.
Example C78_fit_instance : holds ex_h ex_e 2 (Y1 0%nat) (Gaussian [1; 1]) None None /\ design 2 1 ex_X /\ moded_wf 1 ex_atom (Lagrange 1) /\
  (forall h1 g b F, loglike_factory ex_h ex_e ex_X 1 (Y1 0%nat) = (h1, Ok g) -> (fun (_ : heap) (_ : glm) (_ : moded) => Ok [1 / 2]) h1 g ex_atom = Ok b ->
    (forall x, length x = 1%nat -> problem_objective h1 g ex_value ex_constraint ex_atom x = Ok (F x)) -> is_argmin 1 F b) /\
  exists h' e', fit_base (fun _ _ _ => Ok [1 / 2]) (Ok ex_atom) ex_h ex_e ex_X 1 (Y1 0%nat) = (h', e', Ok tt) /\ e_coefs e' = Some [1 / 2].
Proof. exact (Logic.conj ex_holds (Logic.conj ex_design (Logic.conj ex_wf (Logic.conj ex_solver ex_fit)))). Qed.
(** Estimators with an elastic net: the atom is built from the gradient at zero, and fit stores the minimizer of loss + (1-alpha) lam P + alpha lam / 2 |x|^2. Same losses. *)
Theorem C78_lagrange_fit_partial : forall solve mk alpha P value constraint h e n p X y k w o h' e',
  holds h e n y k w o -> (2 <= n)%nat -> design n p X -> 0 <= e_coef e -> exact_family k -> 0 <= alpha <= 1 ->
  (forall s a, mk s = Ok a -> exists lam, moded_wf p a (Lagrange lam)) ->
  (forall v l, length v = p -> value v l true = Ok (ext_scale l (P v))) ->
  (forall h1 g a b F, loglike_factory h e X p y = (h1, Ok g) -> (exists s a0, mk s = Ok a0 /\ enet_atom alpha a0 = Ok a) -> solve h1 g a = Ok b -> (forall x, length x = p -> problem_objective h1 g value constraint a x = Ok (F x)) -> is_argmin p F b) ->
  fit_lagrange solve mk alpha h e X p y = (h', e', Ok tt) ->
  let f := fun x => doc_loss k n (e_coef e) (weights n w) (minus (mat_vec X x) o) in
  exists b s a lam, e_coefs e' = Some b /\ is_gradient p f (zeros p) s /\ mk s = Ok a /\ moded_wf p a (Lagrange lam) /\
    (alpha <> 0 -> is_argmin p (fun x => ext_add (Fin (f x)) (ext_add (ext_scale ((1 - alpha) * lam) (P (minus x (b_offset (m_base a))))) (Fin (alpha * lam / 2 * sqn x)))) b) /\
    (alpha = 0 -> is_argmin p (fun x => ext_add (Fin (f x)) (moded_doc p P a (Lagrange lam) x)) b).
Proof. exact fit_lagrange_minimizes. Qed.
Print Assumptions C78_lagrange_fit_partial.
Example C78_lagrange_fit_instance :
  (forall h1 g a b F, loglike_factory ex_h ex_e ex_X 1 (Y1 0%nat) = (h1, Ok g) -> (exists s a0, (fun _ : vec => Ok ex_atom) s = Ok a0 /\ enet_atom (1 / 2) a0 = Ok a) ->
    (fun (_ : heap) (_ : glm) (_ : moded) => Ok [3 / 5]) h1 g a = Ok b -> (forall x, length x = 1%nat -> problem_objective h1 g ex_value ex_constraint a x = Ok (F x)) -> is_argmin 1 F b) /\
  exists h' e', fit_lagrange (fun _ _ _ => Ok [3 / 5]) (fun _ => Ok ex_atom) (1 / 2) ex_h ex_e ex_X 1 (Y1 0%nat) = (h', e', Ok tt) /\ e_coefs e' = Some [3 / 5].
Proof. exact (Logic.conj ex_enet_solver ex_enet_fit). Qed.
(** The atom of the elastic net, for alpha > 0. *)
Theorem C78_enet : forall p P value constraint a lam alpha, moded_wf p a (Lagrange lam) -> 0 <= alpha <= 1 -> alpha <> 0 ->
  (forall v l, length v = p -> value v l true = Ok (ext_scale l (P v))) ->
  exists a', enet_atom alpha a = Ok a' /\ moded_wf p a' (Lagrange ((1 - alpha) * lam)) /\ forall x, length x = p ->
    moded_objective value constraint a' x true = Ok (ext_add (ext_scale ((1 - alpha) * lam) (P (minus x (b_offset (m_base a))))) (Fin (alpha * lam / 2 * sqn x))).
Proof. exact enet_objective. Qed.
Print Assumptions C78_enet.
(** With alpha 0 the atom is the one constructed. *)
Theorem C78_enet_off : forall a, enet_atom 0 a = Ok a.
Proof. exact enet_off. Qed.
Print Assumptions C78_enet_off.
(** An atom in bound form is refused. *)
Theorem C78_enet_bound : forall p a b alpha, moded_wf p a (Bound b) -> alpha <> 0 -> enet_atom alpha a = Err TypeError.
Proof. exact enet_bound. Qed.
Print Assumptions C78_enet_bound.
(** The quadratic given to the constructor has no effect on fit. *)
Theorem C78_quadratic_refuted : forall solve atom h e q X p y, let '(h1, e1, r1) := fit_base solve atom h e X p y in
  let '(h2, e2, r2) := fit_base solve atom h (mk_est (e_fam e) (e_classifier e) (e_cw e) (e_off e) (e_coef e) q (e_method e) (e_coefs e) (e_loglike e)) X p y in
  h1 = h2 /\ e_coefs e1 = e_coefs e2 /\ r1 = r2.
Proof. exact quadratic_ignored. Qed.
Print Assumptions C78_quadratic_refuted.
(** With alpha > 0 the quadratic of the atom is lost. *)
Theorem C78_enet_quadratic_refuted : forall alpha a q, alpha <> 0 -> enet_atom alpha (put_quadratic a q) = enet_atom alpha a.
Proof. exact enet_quadratic_lost. Qed.
Print Assumptions C78_enet_quadratic_refuted.
(** One row of successes, trials and weights is refused, whatever the numbers. *)
Theorem C78_one_row_refuted : forall s t w x, 0 <= s <= t -> 0 <= w -> let h := [[s]; [t]; [w]] in let y := Y2 1 [0; 1; 2]%nat in let e := mk_est ELogistic false true false 1 None Deviance None None in
  holds h e 1 y (Logistic [s] [t]) (Some [w]) None /\ design 1 1 [[x]] /\ snd (loglike_factory h e [[x]] 1 y) = Err ValueError.
Proof. exact one_row. Qed.
Print Assumptions C78_one_row_refuted.
(** The complementary log-log loss is fitted without the offset. *)
Theorem C78_cloglog_offset_refuted : let h := [[0; 0]; [1; 1]] in let y := Y2 2 [0; 1]%nat in let e := mk_est ECloglog false false true 1 None Deviance None None in let k := Cloglog [0; 0] [1; 1] in
  holds h e 2 y k None (Some [1; 1]) /\ design 2 1 [[1]; [1]] /\ exists h1 g v, loglike_factory h e [[1]; [1]] 1 y = (h1, Ok g) /\ snd (glm_eval h1 g [0] EvFunc) = Ok (VFunc v) /\
    Forall (exact_case k) (minus (mat_vec [[1]; [1]] [0]) (Some [1; 1])) /\ v <> doc_loss k 2 1 [1; 1] (minus (mat_vec [[1]; [1]] [0]) (Some [1; 1])).
Proof. exact cloglog_fit_offset. Qed.
Print Assumptions C78_cloglog_offset_refuted.
(** ** C79: scores *)
(** The deviance score is minus the deviance of the predictions (offset taken off), at the case weights times the sample weights. *)
Theorem C79_deviance : forall h e n p X y k w o b sw, holds h e n y k w o -> (2 <= n)%nat -> design n p X -> e_coefs e = Some b -> e_classifier e = false -> legal_sample n sw ->
  e_method e = Deviance -> Forall (exact_case k) (minus (mat_vec X b) o) ->
  snd (score h e X y sw) = Ok (- deviance_scale (e_fam e) * doc_loss k n 1 (weights n (reweighted w sw)) (minus (mat_vec X b) o)).
Proof. exact score_deviance. Qed.
Print Assumptions C79_deviance.
(** The mean deviance score divides by the number of cases; the complementary log-log loss excepted. *)
Theorem C79_mean_deviance_partial : forall h e n p X y k w o b sw, holds h e n y k w o -> (2 <= n)%nat -> design n p X -> e_coefs e = Some b -> e_classifier e = false -> legal_sample n sw ->
  e_method e = MeanDeviance -> e_fam e <> ECloglog -> Forall (exact_case k) (minus (mat_vec X b) o) ->
  snd (score h e X y sw) = Ok (- deviance_scale (e_fam e) * doc_loss k n 1 (weights n (reweighted w sw)) (minus (mat_vec X b) o) / INR n).
Proof. exact score_mean. Qed.
Print Assumptions C79_mean_deviance_partial.
(** There the mean deviance is the deviance, not divided. *)
Theorem C79_mean_deviance_refuted : forall h e n p X y k w o b sw, holds h e n y k w o -> (2 <= n)%nat -> design n p X -> e_coefs e = Some b -> e_classifier e = false -> legal_sample n sw ->
  e_method e = MeanDeviance -> e_fam e = ECloglog -> Forall (exact_case k) (minus (mat_vec X b) o) ->
  snd (score h e X y sw) = Ok (- 2 * doc_loss k n 1 (weights n (reweighted w sw)) (minus (mat_vec X b) o)).
Proof. exact score_mean_cloglog. Qed.
Print Assumptions C79_mean_deviance_refuted.
Definition demo_y : yarg := Y2 2 [0; 1]%nat.
Definition demo_h : heap := [[0; 2]; [1; 3]].
Definition demo_e (m : smethod) : est := mk_est EGaussian false true false 1 None m (Some [1]) None.
Lemma demo_observes : forall m, observes demo_h (demo_e m) 2 demo_y [0; 2] (Some [1; 3]) None.
Proof.
  intros m. split; [|split; [exact I|intros u Eu; injection Eu as <-; constructor; [lra|constructor; [lra|constructor]]]].
  right. split; [|split; [discriminate|left; reflexivity]]. exists [0%nat], (Some 1%nat), None. split; [reflexivity|]. split; [reflexivity|]. split; [reflexivity|]. split; [reflexivity|]. split; [reflexivity|]. split; [reflexivity|]. split.
  - constructor; [cbn; lia|]. constructor; [cbn; lia|constructor].
  - constructor; [intros [Q|[]]; discriminate|]. constructor; [intros []|constructor].
Qed.
Lemma demo_holds : forall m, holds demo_h (demo_e m) 2 demo_y (Gaussian [0; 2]) (Some [1; 3]) None.
Proof. intros m. destruct (demo_observes m) as (A & B & C). exists [[0; 2]]. auto. Qed.
Example C79_deviance_instance : holds demo_h (demo_e Deviance) 2 demo_y (Gaussian [0; 2]) (Some [1; 3]) None /\ design 2 1 [[1]; [1]] /\ legal_sample 2 (Some [2; 2]) /\
  Forall (exact_case (Gaussian [0; 2])) (minus (mat_vec [[1]; [1]] [1]) None) /\ snd (score demo_h (demo_e Deviance) [[1]; [1]] demo_y (Some [2; 2])) = Ok (-8).
Proof.
  split; [apply demo_holds|]. split; [exact ex_design|]. assert (Ls : legal_sample 2 (Some [2; 2])) by (intros v Ev; injection Ev as <-; split; [reflexivity|constructor; [lra|constructor; [lra|constructor]]]). split; [exact Ls|].
  assert (Ex : Forall (exact_case (Gaussian [0; 2])) (minus (mat_vec [[1]; [1]] [1]) None)) by (apply Forall_forall; intros; exact I). split; [exact Ex|].
  rewrite (score_deviance _ (demo_e Deviance) 2 1 [[1]; [1]] demo_y (Gaussian [0; 2]) (Some [1; 3]) None [1] (Some [2; 2]) (demo_holds Deviance) (le_n 2) ex_design eq_refl eq_refl Ls eq_refl Ex).
  f_equal. unfold doc_loss, sum_over, deviance_scale, mat_vec, dot, vsum, vmul. cbn. lra.
Qed.
(** What scoring leaves in y: the weight column multiplied by the sample weights; without sample weights, or without a weight column, y is as it was. *)
Theorem C79_effect : forall h e n p X y k w o b sw, holds h e n y k w o -> (2 <= n)%nat -> design n p X -> e_coefs e = Some b -> legal_sample n sw ->
  holds (fst (score h e X y sw)) e n y k (reweighted w sw) o.
Proof. exact score_effect. Qed.
Print Assumptions C79_effect.
(** After any number m of scores with sample weights s the weight column is w times s^m. *)
Theorem C79_history : forall m h e n p X y k w o b s, holds h e n y k (Some w) o -> (2 <= n)%nat -> design n p X -> e_coefs e = Some b -> length s = n -> Forall (fun a => 0 <= a) s ->
  holds (score_times m h e X y s) e n y k (Some (times_power w s m)) o.
Proof. exact score_history. Qed.
Print Assumptions C79_history.
(** So the (m+1)st score of the same data is the deviance at weights w times s^(m+1). *)
Theorem C79_again_refuted : forall m h e n p X y k w o b s, holds h e n y k (Some w) o -> (2 <= n)%nat -> design n p X -> e_coefs e = Some b -> e_classifier e = false -> length s = n -> Forall (fun a => 0 <= a) s ->
  e_method e = Deviance -> Forall (exact_case k) (minus (mat_vec X b) o) ->
  snd (score (score_times m h e X y s) e X y (Some s)) = Ok (- deviance_scale (e_fam e) * doc_loss k n 1 (times_power w s (S m)) (minus (mat_vec X b) o)).
Proof. exact score_again. Qed.
Print Assumptions C79_again_refuted.
Example C79_again_instance : let s := Some [2; 2] in let e := demo_e Deviance in let h2 := score_times 1 demo_h e [[1]; [1]] demo_y [2; 2] in
  snd (score demo_h e [[1]; [1]] demo_y s) = Ok (-8) /\ snd (score h2 e [[1]; [1]] demo_y s) = Ok (-16).
Proof.
  intros s e h2. assert (F2 : Forall (fun a => 0 <= a) [2; 2]) by (constructor; [lra|constructor; [lra|constructor]]). assert (Ex : Forall (exact_case (Gaussian [0; 2])) (minus (mat_vec [[1]; [1]] [1]) None)) by (apply Forall_forall; intros; exact I).
  assert (A := fun m => score_again m demo_h e 2 1 [[1]; [1]] demo_y _ _ None [1] [2; 2] (demo_holds Deviance) (le_n 2) ex_design eq_refl eq_refl eq_refl F2 eq_refl Ex).
  split; [change demo_h with (score_times 0 demo_h e [[1]; [1]] demo_y [2; 2])|unfold h2]; unfold s; rewrite A; f_equal; unfold doc_loss, sum_over, deviance_scale, times_power, mat_vec, dot, vsum, vmul; cbn; lra.
Qed.
(** Without a weight column the sample weights have no effect. *)
Theorem C79_sample_ignored_refuted : forall h e X y s, e_cw e = false -> score h e X y (Some s) = score h e X y None.
Proof. exact sample_ignored. Qed.
Print Assumptions C79_sample_ignored_refuted.
(** Scoring the data of the fit, with sample weights, changes the loss the estimator keeps from its fit. *)
Theorem C79_spoils_refuted : forall h e n p X y k w o s h1 g b x, holds h e n y k (Some w) o -> (2 <= n)%nat -> design n p X -> 0 <= e_coef e -> length s = n -> Forall (fun a => 0 <= a) s ->
  loglike_factory h e X p y = (h1, Ok g) -> length x = p -> Forall (exact_case k) (predictor k o (mat_vec X x)) ->
  snd (glm_eval h1 g x EvFunc) = Ok (VFunc (doc_loss k n (e_coef e) w (predictor k o (mat_vec X x)))) /\
  snd (glm_eval (fst (score h1 (fitted e g (Some b)) X y (Some s))) g x EvFunc) = Ok (VFunc (doc_loss k n (e_coef e) (vmul w s) (predictor k o (mat_vec X x)))).
Proof. exact score_spoils_fit. Qed.
Print Assumptions C79_spoils_refuted.
(** R2 is one minus the ratio of the loss of the predictions to that of the null predictor; not a number when the latter is 0. *)
Theorem C79_R2 : forall h e n p X y v w o b sw k c, observes h e n y v w o -> (2 <= n)%nat -> design n p X -> e_coefs e = Some b -> e_classifier e = false -> legal_sample n sw ->
  e_method e = R2 -> doc_data (e_fam e) n [v] = Some k -> null_predictor (e_fam e) (average v) = Ok c -> Forall (exact_case k) (minus (mat_vec X b) o) -> exact_case k c ->
  let W := weights n (reweighted w sw) in
  snd (score h e X y sw) = if Req_EM_T (doc_loss k n 1 W (const_vec n c)) 0 then Err NaNResult else Ok (1 - doc_loss k n 1 W (minus (mat_vec X b) o) / doc_loss k n 1 W (const_vec n c)).
Proof. exact score_R2. Qed.
Print Assumptions C79_R2.
(** Without weights, the Gaussian R2 is the ordinary one: at most 1; at most 0 for constant predictions, and 0 for the mean. *)
Theorem C79_R2_gaussian : forall h e n p X y v o b sw, observes h e n y v None o -> (2 <= n)%nat -> design n p X -> e_coefs e = Some b -> e_classifier e = false -> legal_sample n sw ->
  e_method e = R2 -> e_fam e = EGaussian ->
  let u := minus (mat_vec X b) o in let total := sum_of_squares v (const_vec n (average v)) in
  (total = 0 -> snd (score h e X y sw) = Err NaNResult) /\
  (total <> 0 -> exists r, snd (score h e X y sw) = Ok r /\ r = 1 - sum_of_squares v u / total /\ r <= 1 /\ forall c, u = const_vec n c -> r <= 0 /\ (c = average v -> r = 0)).
Proof. exact gaussian_R2. Qed.
Print Assumptions C79_R2_gaussian.
(** Without weights, the logistic null predictor is the best constant: R2 is at most 0 for constant predictions, and 0 for the logit of the mean. *)
Theorem C79_R2_logistic : forall h e n p X y v o b sw, observes h e n y v None o -> (2 <= n)%nat -> design n p X -> e_coefs e = Some b -> e_classifier e = false -> legal_sample n sw ->
  e_method e = R2 -> e_fam e = ELogistic -> Forall (fun a => a <= 100) (minus (mat_vec X b) o) -> 0 < average v < 1 -> ln (average v / (1 - average v)) <= 100 ->
  let u := minus (mat_vec X b) o in let L := doc_loss (Logistic v (ones n)) n 1 (ones n) in
  exists r, snd (score h e X y sw) = Ok r /\ r = 1 - L u / L (const_vec n (ln (average v / (1 - average v)))) /\
    forall c, u = const_vec n c -> r <= 0 /\ (c = ln (average v / (1 - average v)) -> r = 0).
Proof. exact logistic_R2. Qed.
Print Assumptions C79_R2_logistic.
(** With one class only R2 is not a number. *)
Theorem C79_R2_one_class : forall h e n p X y v w o b sw, observes h e n y v w o -> (2 <= n)%nat -> design n p X -> e_coefs e = Some b -> e_classifier e = false -> legal_sample n sw ->
  e_method e = R2 -> e_fam e = ELogistic \/ e_fam e = ECloglog -> (average v = 0 \/ average v = 1) -> snd (score h e X y sw) = Err NaNResult.
Proof. exact logistic_R2_one_class. Qed.
Print Assumptions C79_R2_one_class.
Definition demo_bin (f : efam) (c : bool) (m : smethod) (b : R) : est := mk_est f c false false 1 None m (Some [b]) None.
Lemma demo_bin_observes : forall f c m b, f = EGaussian \/ f = ELogistic \/ f = ECloglog -> observes [[1; 0]] (demo_bin f c m b) 2 (Y1 0%nat) [1; 0] None None.
Proof.
  intros f c m b Hf. split; [left; repeat (split; [reflexivity|]); exists 0%nat; cbn; repeat split; auto|split; [|intros u Eu; discriminate]].
  assert (F : Forall (fun a => a = 0 \/ a = 1) [1; 0]) by (constructor; [auto|constructor; [auto|constructor]]). destruct Hf as [-> | [-> | ->]]; [exact I|exact F|exact F].
Qed.
Example C79_R2_instance : observes [[1; 0]] (demo_bin ELogistic false R2 1) 2 (Y1 0%nat) [1; 0] None None /\ 0 < average [1; 0] < 1 /\ ln (average [1; 0] / (1 - average [1; 0])) <= 100 /\
  sum_of_squares [1; 0] (const_vec 2 (average [1; 0])) <> 0 /\ Forall (fun a => a <= 100) (minus (mat_vec [[1]; [-1]] [1]) None).
Proof.
  split; [apply demo_bin_observes; auto|]. assert (A : average [1; 0] = 1 / 2) by (unfold average; cbn; lra). rewrite A. split; [lra|]. split; [replace (1 / 2 / (1 - 1 / 2)) with 1 by lra; rewrite ln_1; lra|].
  split; [unfold sum_of_squares, sum_over; cbn; lra|]. unfold mat_vec, dot, vsum, vmul. cbn. constructor; [lra|]. constructor; [lra|constructor].
Qed.
(** With case weights a constant prediction can have a positive R2. *)
Theorem C79_R2_weights_refuted : exists h e n p X y v w b r, observes h e n y v (Some w) None /\ (2 <= n)%nat /\ design n p X /\ e_coefs e = Some b /\ e_classifier e = false /\ e_method e = R2 /\ e_fam e = EGaussian /\
  (exists c, mat_vec X b = const_vec n c) /\ snd (score h e X y None) = Ok r /\ 0 < r.
Proof. exact weighted_R2_wrong. Qed.
Print Assumptions C79_R2_weights_refuted.
(** And so it can for the complementary log-log loss without weights. *)
Theorem C79_R2_cloglog_refuted : exists h e n p X y v b r, observes h e n y v None None /\ (2 <= n)%nat /\ design n p X /\ e_coefs e = Some b /\ e_classifier e = false /\ e_method e = R2 /\ e_fam e = ECloglog /\
  (exists c, mat_vec X b = const_vec n c) /\ snd (score h e X y None) = Ok r /\ 0 < r.
Proof. exact cloglog_R2_wrong. Qed.
Print Assumptions C79_R2_cloglog_refuted.
(** The scores of the Cox estimator, for any ties, order and scratch arrays. *)
Theorem C79_cox : forall T cens ord w b u, sorts T ord -> cox_shapes T cens w u -> nonneg w -> covered T w -> sized (length T) b -> 
  cox_score Deviance T cens ord b w u = Ok (- 2 * cox_loss T cens w u) /\ cox_score MeanDeviance T cens ord b w u = Ok (- 2 * cox_loss T cens w u / INR (length T)).
Proof. exact cox_scores. Qed.
Print Assumptions C79_cox.
(** The R2 of the Cox estimator is -1 for every constant prediction. *)
Theorem C79_cox_R2_refuted : forall T cens ord w b c, sorts T ord -> cox_shapes T cens w (const_vec (length T) c) -> nonneg w -> covered T w -> sized (length T) b ->
  cox_loss T cens w (const_vec (length T) 0) <> 0 -> cox_score R2 T cens ord b w (const_vec (length T) c) = Ok (-1).
Proof. exact cox_R2_wrong. Qed.
Print Assumptions C79_cox_R2_refuted.
Example C79_cox_instance : sorts [1; 2] [0; 1]%nat /\ cox_shapes [1; 2] [1; 1]%nat [1; 1] (const_vec 2 5) /\ nonneg [1; 1] /\ covered [1; 2] [1; 1] /\ cox_loss [1; 2] [1; 1]%nat [1; 1] (const_vec 2 0) <> 0.
Proof.
  split; [split; [apply Permutation.Permutation_refl|intros a b Hab; cbn in Hab; destruct a as [|[|a]], b as [|[|b]]; cbn; try lia; lra]|].
  split; [repeat split|]. split; [constructor; [lra|constructor; [lra|constructor]]|]. split; [intros i Hi; exists i; cbn in *; split; [lia|]; split; [lra|]; destruct i as [|[|i]]; cbn; try lia; lra|].
  unfold cox_loss, at_risk, sum_over. cbn. rewrite exp_0. repeat (destruct (Rle_dec _ _); try lra). replace (1 * 1 + (1 * 1 + 0)) with 2 by lra. replace (0 + (1 * 1 + 0)) with 1 by lra. rewrite ln_1. assert (L := ln2_big). lra.
Qed.
(** ** C80: classifiers *)
(** predict gives label 1 exactly where X b is positive. *)
Theorem C80_labels : forall e X b, has_coefs e b -> exists l, predict_labels e X = Ok l /\ length l = length X /\
  forall i, (i < length X)%nat -> (nth i l false = true <-> 0 < nth i (mat_vec X b) 0).
Proof. exact labels. Qed.
Print Assumptions C80_labels.
(** Before a fit there are no predictions and no scores. *)
Theorem C80_unfitted : forall h e X, e_coefs e = None -> predict_labels e X = Err AttributeError /\ (forall q, predict_proba e X = Ok q -> False) /\
  forall y s, snd (score h e X y s) = Err AttributeError \/ exists x, check_y h (e_cw e) (e_off e) y = Err x /\ snd (score h e X y s) = Err x.
Proof. exact unfitted. Qed.
Print Assumptions C80_unfitted.
(** Logistic probabilities are in (0,1), and above 1/2 exactly where the label is 1. *)
Theorem C80_logistic_proba : forall e X b, has_coefs e b -> e_fam e = ELogistic -> exists q, predict_proba e X = Ok q /\ length q = length X /\
  forall i, (i < length X)%nat -> 0 < nth i q 0 < 1 /\ nth i q 0 = / (1 + exp (- nth i (mat_vec X b) 0)) /\ (1 / 2 < nth i q 0 <-> 0 < nth i (mat_vec X b) 0).
Proof. exact logistic_proba. Qed.
Print Assumptions C80_logistic_proba.
(** Complementary log-log probabilities are in (0,1), and above 1/2 exactly where X b is above ln ln 2. *)
Theorem C80_cloglog_proba : forall e X b, has_coefs e b -> e_fam e = ECloglog -> exists q, predict_proba e X = Ok q /\ length q = length X /\
  forall i, (i < length X)%nat -> 0 < nth i q 0 < 1 /\ nth i q 0 = 1 - exp (- exp (nth i (mat_vec X b) 0)) /\ (1 / 2 < nth i q 0 <-> ln (ln 2) < nth i (mat_vec X b) 0).
Proof. exact cloglog_proba. Qed.
Print Assumptions C80_cloglog_proba.
(** So between ln ln 2 and 0 the label is 0 and the probability above 1/2. *)
Theorem C80_cloglog_labels_refuted : forall e X b i, has_coefs e b -> e_fam e = ECloglog -> (i < length X)%nat -> ln (ln 2) < nth i (mat_vec X b) 0 <= 0 ->
  exists q l, predict_proba e X = Ok q /\ predict_labels e X = Ok l /\ 1 / 2 < nth i q 0 /\ nth i l false = false.
Proof. exact cloglog_labels_disagree. Qed.
Print Assumptions C80_cloglog_labels_refuted.
Example C80_cloglog_labels_instance : has_coefs (demo_bin ECloglog true Accuracy (-1 / 10)) [-1 / 10] /\ (0 < length [[1]])%nat /\ ln (ln 2) < nth 0 (mat_vec [[1]] [-1 / 10]) 0 <= 0.
Proof. split; [reflexivity|]. split; [cbn; lia|]. unfold mat_vec, dot, vsum, vmul. cbn. replace (1 * (-1 / 10) + 0) with (-1 / 10) by lra. exact disagree_range. Qed.
(** The accuracy of the regressors is the fraction of cases with the right label. *)
Theorem C80_accuracy : forall h e n p X y v w o b sw, observes h e n y v w o -> (2 <= n)%nat -> design n p X -> e_coefs e = Some b -> e_classifier e = false -> legal_sample n sw ->
  e_method e = Accuracy -> e_fam e = ELogistic \/ e_fam e = ECloglog ->
  forall right, (forall i, (i < n)%nat -> (right i = true <-> nth i v 0 = (if Rlt_dec 0 (nth i (minus (mat_vec X b) o) 0) then 1 else 0))) ->
  snd (score h e X y sw) = Ok (how_many n right / INR n).
Proof. exact regressor_accuracy. Qed.
Print Assumptions C80_accuracy.
(** The accuracy of the classifiers is 0 unless some linear predictor is exactly 0 or 1. *)
Theorem C80_accuracy_refuted : forall h e n p X y v w o b sw, observes h e n y v w o -> (2 <= n)%nat -> design n p X -> e_coefs e = Some b -> e_classifier e = true -> legal_sample n sw ->
  e_method e = Accuracy -> e_fam e = ELogistic \/ e_fam e = ECloglog ->
  (forall i, (i < n)%nat -> nth i (minus (mat_vec X b) o) 0 <> 0 /\ nth i (minus (mat_vec X b) o) 0 <> 1) ->
  snd (score h e X y sw) = Ok 0.
Proof. exact classifier_accuracy_wrong. Qed.
Print Assumptions C80_accuracy_refuted.
Example C80_accuracy_instance : observes [[1; 0]] (demo_bin ELogistic true Accuracy 2) 2 (Y1 0%nat) [1; 0] None None /\ design 2 1 [[1]; [-1]] /\
  predict_labels (demo_bin ELogistic true Accuracy 2) [[1]; [-1]] = Ok [true; false] /\ forall i, (i < 2)%nat -> nth i (minus (mat_vec [[1]; [-1]] [2]) None) 0 <> 0 /\ nth i (minus (mat_vec [[1]; [-1]] [2]) None) 0 <> 1.
Proof.
  split; [apply demo_bin_observes; auto|]. split; [split; [reflexivity|constructor; [reflexivity|constructor; [reflexivity|constructor]]]|]. split.
  - unfold predict_labels, linpred, fitted_coefs. cbn. unfold mat_vec, dot, vsum, vmul, positive. cbn. destruct (Rlt_dec 0 _); [|lra]. destruct (Rlt_dec 0 _); [lra|]. reflexivity.
  - intros i Hi. unfold mat_vec, dot, vsum, vmul. destruct i as [|[|i]]; [cbn; lra|cbn; lra|lia].
Qed.
(** A classifier has no other score. *)
Theorem C80_only_accuracy : forall h e n p X y v w o b sw, observes h e n y v w o -> (2 <= n)%nat -> design n p X -> e_coefs e = Some b -> e_classifier e = true ->
  e_method e <> Accuracy -> snd (score h e X y sw) = Err NaNResult.
Proof. exact classifier_needs_accuracy. Qed.
Print Assumptions C80_only_accuracy.
(** With several classes predict gives the first class with the largest linear predictor. *)
Theorem C80_predict : forall r, r <> [] -> (argmax_row r < length r)%nat /\ (forall j, (j < length r)%nat -> nth j r 0 <= nth (argmax_row r) r 0) /\
  forall j, (j < argmax_row r)%nat -> nth j r 0 < nth (argmax_row r) r 0.
Proof. exact argmax_first. Qed.
Print Assumptions C80_predict.
(** The probabilities of one case are right. *)
Theorem C80_proba_partial : forall q r, length r = q -> (2 <= q)%nat -> exists s, mn_predict_proba q [r] = Ok [s] /\ length s = q /\ vsum s = 1 /\
  forall j, (j < q)%nat -> nth j s 0 = exp (nth j r 0) / vsum (map exp r).
Proof. exact proba_one_row. Qed.
Print Assumptions C80_proba_partial.
(** For n cases and q classes they are refused unless n = q, n = 1 or q = 1. *)
Theorem C80_proba_refuted : forall q lin, length lin <> q -> length lin <> 1%nat -> q <> 1%nat -> mn_predict_proba q lin = Err ValueError.
Proof. exact proba_refused. Qed.
Print Assumptions C80_proba_refuted.
(** And for n = q they need not sum to one. *)
Theorem C80_proba_square_refuted : exists lin s, length lin = 2%nat /\ Forall (fun r => length r = 2%nat) lin /\ mn_predict_proba 2 lin = Ok s /\ vsum (nth 0 s []) <> 1.
Proof. exact proba_square_wrong. Qed.
Print Assumptions C80_proba_square_refuted.
(** The constructor of the classifiers with an elastic net raises. *)
Theorem C80_constructor_refuted : forall e, new_classifier_lagrange <> Ok e.
Proof. discriminate. Qed.
Print Assumptions C80_constructor_refuted.

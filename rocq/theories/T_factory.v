(** C96, C97, C98: the class methods of glm, its data attribute, and the class methods of stacked losses. *)
From Coq Require Import Reals ZArith List Arith Lia Lra.
From Verif Require Import Vec Spec SpecConvex M_quad M_buffer M_affine M_loss SpecLoss SpecSmooth SpecSklearn M_mglm SpecMglm M_factory SpecFactory P_loss P_loss5 P_sklearn3 P_factory P_factory2 P_factory3.
Import ListNotations.
Local Open Scope R_scope.

(** ** C96. glm.gaussian, .logistic, .cloglog, .poisson, .huber, .huber_svm(X, data, coef, saturated_offset, offset, quadratic, case_weights). *)
(** What is accepted: a coefficient and weights that are not negative, one weight for each case, and data of the family. The rest raises ValueError. *)
Theorem C96_accepts : forall h X D n c soff off q w, data_fits D n -> t_out X = n ->
  ((exists h1 g, glm_make h X D c soff off q w = (h1, Ok g)) <-> 0 <= c /\ legal_spec D /\ legal_weights n (weights_of h n w)) /\
  (~ (0 <= c /\ legal_spec D /\ legal_weights n (weights_of h n w)) -> snd (glm_make h X D c soff off q w) = Err ValueError).
Proof. exact make_accepts. Qed.
Print Assumptions C96_accepts.
(** The value is coef times the weighted negative log likelihood at X(b - offset) - saturated_offset, and the gradient is that of the value. No array of the caller
    changes. Where exponents are clipped (see C08, C43) the value is another one. *)
Theorem C96_value_partial : forall h X D n p c soff off q w h1 g b, data_fits D n -> good_design X p n -> off_fits n soff -> off_fits p off -> length b = p ->
  glm_make h X D c soff off q w = (h1, Ok g) ->
  (forall r, (r < length h)%nat -> read h1 r = read h r) /\ g_quad g = match q with Some q => q | None => mk_iq 0 (FScal 0) (FScal 0) 0 end /\
  (Forall (exact_case (doc_family D)) (eta X (doc_family D) soff off b) -> glm_eval h1 g b EvFunc = (h1, Ok (VFunc (doc_loss (doc_family D) n c (weights_of h n w) (eta X (doc_family D) soff off b))))) /\
  exists F u, (forall z, length z = p -> glm_eval h1 g z EvFunc = (h1, Ok (VFunc (F z)))) /\ glm_eval h1 g b EvGrad = (h1, Ok (VGrad u)) /\ glm_eval h1 g b EvBoth = (h1, Ok (VBoth (F b) u)) /\
    glm_eval h1 g b EvOther = (h1, Err ValueError) /\ (regular (doc_family D) (eta X (doc_family D) soff off b) -> is_gradient p F b u).
Proof. exact make_value. Qed.
Print Assumptions C96_value_partial.
Example C96_case : let X := matrix [[1; 2]; [0; 1]] 2 None in let D := DLogistic [1; 0] None in
  data_fits D 2 /\ good_design X 2 2 /\ (exists h1 g, glm_make [[2; 1]] X D 3 (Some [1; 0]) (Some [0; 5]) None (Some 0%nat) = (h1, Ok g)) /\ Forall (exact_case (doc_family D)) (eta X (doc_family D) (Some [1; 0]) (Some [0; 5]) [4; 1]) /\
  regular (doc_family D) (eta X (doc_family D) (Some [1; 0]) (Some [0; 5]) [4; 1]).
Proof.
  cbv zeta. assert (F : data_fits (DLogistic [1; 0] None) 2) by (split; reflexivity). split; [exact F|]. split; [apply matrix_design; split; [reflexivity|repeat constructor]|]. split.
  - apply (make_accepts [[2; 1]] (matrix [[1; 2]; [0; 1]] 2 None) (DLogistic [1; 0] None) 2 3 (Some [1; 0]) (Some [0; 5]) None (Some 0%nat) F eq_refl). split; [lra|]. split; [cbn; repeat (apply Forall_cons || apply Forall_nil); auto|]. split; [reflexivity|repeat constructor; cbn; lra].
  - unfold eta, dot, vsum. cbn. unfold dot, vsum. cbn. split; repeat constructor; cbn; lra.
Qed.
(** logistic_loss(X, Y, trials, coef), in the words of its documentation. *)
Theorem C96_logistic_loss_partial : forall h X p n s t c h1 g b, good_design X p n -> length s = n -> length t = n -> length b = p -> logistic_loss h X s (Some t) c = (h1, Ok g) ->
  Forall (fun e => e <= 100) (t_lin X b) ->
  glm_eval h1 g b EvFunc = (h1, Ok (VFunc (c * sum_over n (fun i => nth i t 0 * ln (1 + exp (nth i (t_lin X b) 0)) - nth i s 0 * nth i (t_lin X b) 0)))).
Proof. exact logistic_loss_value. Qed.
Print Assumptions C96_logistic_loss_partial.
Example C96_logistic_loss_case : exists h1 g, logistic_loss [] (matrix [[1; 2]; [0; 1]] 2 None) [2; 1] (Some [3; 1]) 1 = (h1, Ok g).
Proof.
  apply (make_accepts [] (matrix [[1; 2]; [0; 1]] 2 None) (DLogistic [2; 1] (Some [3; 1])) 2 1 None None None None (Logic.conj eq_refl eq_refl) eq_refl). split; [lra|]. split; [cbn; repeat constructor; lra|]. split; [reflexivity|repeat constructor; cbn; lra].
Qed.
(** ** C97. glm.data = (X2, Y2). *)
(** After any history of assignments, refused ones included, assigning data (for logistic and cloglog losses: successes and trials) with the design the model was made with gives the value, the
    gradient and the Hessian of a model made with the new data. *)
Theorem C97_response_partial : forall h X X2 D D2 n c soff off q w h1 g hist, data_fits D n -> data_fits D2 n -> t_out X = n -> same_kind D D2 -> names_trials D2 -> legal_spec D2 ->
  glm_make h X D c soff off q w = (h1, Ok g) ->
  exists g2 gf, glm_assign (assignments (fresh X g) hist) X2 (fst (assigned D2)) (snd (assigned D2)) = (g2, Ok tt) /\ glm_make h X D2 c soff off q w = (h1, Ok gf) /\
    (forall b m, d_eval h1 g2 b m = glm_eval h1 gf b m) /\ (forall b, d_predictor g2 b = t_lin X2 b) /\ (X2 = X -> forall b d, d_hess h1 g2 b d = glm_hess h1 gf b d).
Proof. exact assign_last. Qed.
Print Assumptions C97_response_partial.
(** A copy is a model of the design and the data assigned last. *)
Theorem C97_copy : forall h X X2 D D2 n c soff off q w h1 g hist g2, data_fits D n -> data_fits D2 n -> t_out X = n -> t_out X2 = n -> same_kind D D2 -> names_trials D2 -> legal_spec D2 ->
  glm_make h X D c soff off q w = (h1, Ok g) -> glm_assign (assignments (fresh X g) hist) X2 (fst (assigned D2)) (snd (assigned D2)) = (g2, Ok tt) ->
  exists h2 gc gf, d_copy h1 g2 = (h2, Ok gc) /\ glm_make h X2 D2 c soff off q w = (h1, Ok gf) /\ (forall b m, snd (d_eval h2 gc b m) = snd (glm_eval h1 gf b m)) /\ (forall r, (r < length h1)%nat -> read h2 r = read h1 r).
Proof. exact assign_copy. Qed.
Print Assumptions C97_copy.
Example C97_case : let X := matrix [[1; 2]; [0; 1]] 2 None in let D := DLogistic [1; 0] None in let D2 := DLogistic [2; 1] (Some [3; 1]) in
  data_fits D 2 /\ data_fits D2 2 /\ t_out X = 2%nat /\ same_kind D D2 /\ names_trials D2 /\ legal_spec D2 /\ exists h1 g, glm_make [] X D 1 None None None None = (h1, Ok g).
Proof.
  cbv zeta. assert (F : data_fits (DLogistic [1; 0] None) 2) by (split; reflexivity). split; [exact F|]. split; [split; reflexivity|]. split; [reflexivity|]. split; [exact Logic.I|]. split; [exact Logic.I|]. split; [cbn; repeat constructor; lra|].
  apply (make_accepts [] (matrix [[1; 2]; [0; 1]] 2 None) (DLogistic [1; 0] None) 2 1 None None None None F eq_refl). split; [lra|]. split; [cbn; repeat (apply Forall_cons || apply Forall_nil); auto|]. split; [reflexivity|repeat constructor; cbn; lra].
Qed.
(** A new design is not used by the objective and its gradient: by C97_response_partial they are those of the first design for every X2, while the linear predictor is that of X2. The
    Hessian, which uses X2, is then not the derivative of the gradient. *)
Theorem C97_design_refuted : exists h1 g g2, glm_make [] (one_by_one 1) (DGaussian [0]) 1 None None None None = (h1, Ok g) /\ glm_assign (fresh (one_by_one 1) g) (one_by_one 2) [0] None = (g2, Ok tt) /\
  exists G H, (forall b, length b = 1%nat -> snd (d_eval h1 g2 b EvGrad) = Ok (VGrad (G b))) /\ (forall d, length d = 1%nat -> snd (d_hess h1 g2 [0] d) = Ok (H d)) /\ ~ is_jacobian 1 G [0] H.
Proof. exact stale_design. Qed.
Print Assumptions C97_design_refuted.
(** Data that are refused are in force all the same: successes outside their range enter the value. *)
Theorem C97_refused_refuted : forall h X X2 D n p c soff off q w h1 g (s t : vec), data_fits D n -> good_design X p n -> off_fits n soff -> off_fits p off -> glm_make h X D c soff off q w = (h1, Ok g) ->
  (exists s0 t0, D = DLogistic s0 t0) -> length s = n -> length t = n -> ~ Forall2 (fun a b => 0 <= a <= b) s t ->
  exists g2, glm_assign (fresh X g) X2 s (Some t) = (g2, Err ValueError) /\ (forall b, d_predictor g2 b = t_lin X2 b) /\
    (forall b, length b = p -> Forall (fun a => a <= 100) (eta X (doc_family D) soff off b) ->
      d_eval h1 g2 b EvFunc = (h1, Ok (VFunc (doc_loss (match doc_family D with Logistic _ t0 => Logistic s t0 | k => k end) n c (weights_of h n w) (eta X (doc_family D) soff off b))))).
Proof. exact refused_assignment. Qed.
Print Assumptions C97_refused_refuted.
(** Counts that the class method refuses can be assigned. *)
Theorem C97_counts_refuted : forall h X X2 D n c soff off q w h1 g y y2, data_fits D n -> t_out X = n -> D = DPoisson y -> glm_make h X D c soff off q w = (h1, Ok g) ->
  snd (glm_assign (fresh X g) X2 y2 None) = Ok tt /\ (~ legal_spec (DPoisson y2) -> length y2 = n -> snd (glm_make h X (DPoisson y2) c soff off q w) = Err ValueError).
Proof. exact counts_unchecked. Qed.
Print Assumptions C97_counts_refuted.
(** Successes assigned without trials keep the trials of the model. *)
Theorem C97_trials : forall h X X2 s0 t0 n c soff off q w h1 g s, data_fits (DLogistic s0 t0) n -> t_out X = n -> glm_make h X (DLogistic s0 t0) c soff off q w = (h1, Ok g) ->
  glm_assign (fresh X g) X2 s None = glm_assign (fresh X g) X2 s (Some (match t0 with Some t => t | None => ones n end)).
Proof. exact trials_kept. Qed.
Print Assumptions C97_trials.
Example C97_cases : (exists h1 g, glm_make [] (one_by_one 1) (DPoisson [2]) 1 None None None None = (h1, Ok g)) /\ ~ legal_spec (DPoisson [-1]) /\ ~ Forall2 (fun a b => 0 <= a <= b) [2] [1].
Proof.
  split; [|split].
  - apply (make_accepts [] (one_by_one 1) (DPoisson [2]) 1 1 None None None None eq_refl eq_refl). split; [lra|]. split; [|split; [reflexivity|repeat constructor; cbn; lra]]. cbn. constructor; [|constructor]. split; [lra|]. exists 2%Z. cbn. split_Rabs; nra.
  - cbn. intros F. apply Forall_inv in F. destruct F as [F _]. lra.
  - intros F. inversion F; subst. lra.
Qed.
(** ** C98. stacked_loglike.gaussian, ... and stacked_common_loglike.gaussian, ... *)
(** Responses one after the other. Case weights are accepted and, as in C74, not used. *)
Theorem C98_gaussian_partial : forall h (Ys : list vec) c off q weights, 0 <= c -> Ys <> [] -> off_fits (length (concat Ys)) off -> (forall r, weights = Some r -> legal_weights (length (concat Ys)) (read h r)) ->
  exists h1 s, chain_gaussian h Ys c off q weights = (h1, Ok s) /\ s_quad s = match q with Some q => q | None => mk_iq 0 (FScal 0) (FScal 0) 0 end /\ (forall r, (r < length h)%nat -> read h1 r = read h r) /\
    forall x, length x = length (concat Ys) -> exists h2 h3 u, chain_eval h1 s None x EvFunc = (h2, Ok (RFunc (squares c Ys (minus x off)))) /\ chain_eval h1 s None x EvGrad = (h3, Ok (RGrad u)) /\
      read h3 u = vscal c (vsub (minus x off) (concat Ys)).
Proof. exact gaussian_chain. Qed.
Print Assumptions C98_gaussian_partial.
(** Responses as columns, with the case weights of the stack *)
Theorem C98_columns_partial : forall h n (Ys : list vec) c off q weights, 0 <= c -> Ys <> [] -> Forall (fun y => length y = n) Ys -> off_fits (n * length Ys) off -> (forall r, weights = Some r -> (r < length h)%nat /\ legal_weights n (read h r)) ->
  exists h1 s, stack_gaussian h Ys c off q weights = (h1, Ok s) /\ (forall r, (r < length h)%nat -> read h1 r = read h r) /\
    forall x, length x = (n * length Ys)%nat -> exists h2 h3 u, stacked_eval h1 s None x EvFunc = (h2, Ok (RFunc (columns_loss Gaussian n c (weights_of h n weights) Ys (minus x off)))) /\ stacked_eval h1 s None x EvGrad = (h3, Ok (RGrad u)) /\
      is_gradient (n * length Ys) (fun z => columns_loss Gaussian n c (weights_of h n weights) Ys (minus z off)) x (read h3 u).
Proof. exact gaussian_columns. Qed.
Print Assumptions C98_columns_partial.
Theorem C98_negative : forall h (Ys : list vec) c off q weights, c < 0 -> Ys <> [] -> snd (chain_gaussian h Ys c off q weights) = Err ValueError /\ snd (stack_gaussian h Ys c off q weights) = Err ValueError.
Proof. exact gaussian_refused. Qed.
Print Assumptions C98_negative.
(** Huber losses: value and gradient are those of coefficient 1, whatever coef (negative ones are not refused). *)
Theorem C98_huber_refuted :
  (forall h (Ys : list vec) eps c off q weights, 0 < eps -> Ys <> [] -> off_fits (length (concat Ys)) off -> (forall r, weights = Some r -> legal_weights (length (concat Ys)) (read h r)) ->
  exists h1 s, chain_huber false h Ys eps c off q weights = (h1, Ok s) /\ (forall r, (r < length h)%nat -> read h1 r = read h r) /\
    forall x, length x = length (concat Ys) -> exists h2 h3 u, chain_eval h1 s None x EvFunc = (h2, Ok (RFunc (pieces_loss (fun y => Huber y eps) 1 Ys (minus x off)))) /\ chain_eval h1 s None x EvGrad = (h3, Ok (RGrad u)) /\
      is_gradient (length (concat Ys)) (fun z => pieces_loss (fun y => Huber y eps) 1 Ys (minus z off)) x (read h3 u)) /\
  (forall h (Ys : list vec) c off q weights, Ys <> [] -> off_fits (length (concat Ys)) off -> (forall r, weights = Some r -> legal_weights (length (concat Ys)) (read h r)) ->
  exists h1 s, chain_huber true h Ys 1 c off q weights = (h1, Ok s) /\ (forall r, (r < length h)%nat -> read h1 r = read h r) /\
    forall x, length x = length (concat Ys) -> exists h2 h3 u, chain_eval h1 s None x EvFunc = (h2, Ok (RFunc (pieces_loss (fun y => HuberSvm y 1) 1 Ys (minus x off)))) /\ chain_eval h1 s None x EvGrad = (h3, Ok (RGrad u)) /\
      is_gradient (length (concat Ys)) (fun z => pieces_loss (fun y => HuberSvm y 1) 1 Ys (minus z off)) x (read h3 u)) /\
  (forall h n (Ys : list vec) c off q weights, Ys <> [] -> Forall (fun y => length y = n) Ys -> off_fits (n * length Ys) off -> (forall r, weights = Some r -> (r < length h)%nat /\ legal_weights n (read h r)) ->
  exists h1 s, stack_huber_svm h Ys 1 c off q weights = (h1, Ok s) /\
    forall x, length x = (n * length Ys)%nat -> exists h2, stacked_eval h1 s None x EvFunc = (h2, Ok (RFunc (columns_loss (fun y => HuberSvm y 1) n 1 (weights_of h n weights) Ys (minus x off))))) /\
  pieces_loss (fun y => Huber y 1) 1 [[1; 2]; [3]] [0; 0; 0] <> pieces_loss (fun y => Huber y 1) 2 [[1; 2]; [3]] [0; 0; 0].
Proof. exact huber_ignores. Qed.
Print Assumptions C98_huber_refuted.
(** logistic, probit, cloglog: the successes are read as the shape and the trials as the successes; without trials a TypeError. *)
Theorem C98_binary_refuted : forall c ss trials, ss <> [] ->
  (trials = None -> chain_binary c ss trials = Err TypeError /\ stack_binary c ss trials = Err TypeError) /\
  (forall ts, trials = Some ts ->
     (forall k data, chain_binary c ss trials = Ok (k, data) -> data = firstn (length ss) ts /\ Forall (Forall (fun a => a = 0 \/ a = 1)) data /\ Forall integer_array ss) /\
     (forall z data, stack_binary c ss trials = Ok (z, data) -> data = firstn (length ss) ts /\ Forall (Forall (fun a => a = 0 \/ a = 1)) data /\ Forall integer_array ss)).
Proof. exact binary_swapped. Qed.
Print Assumptions C98_binary_refuted.
Example C98_cases : chain_binary 1 [Ints [2; 0]%Z; Ints [3; 1]%Z] (Some [[0; 1]; [1; 1]]) = Ok (5%Z, [[0; 1]; [1; 1]]) /\ chain_binary 1 [Floats [1; 0]] (Some [[1; 1]]) = Err TypeError /\
  chain_binary 1 [Ints [2; 0]%Z] (Some [[2; 2]]) = Err ValueError.
Proof. exact binary_runs. Qed.
(** sparse_group_block.stacked_gaussian works; each of the other functions stacked_* raises for every list of responses. *)
Theorem C98_block_refuted : forall h (Ys : list vec), Ys <> [] ->
  (forall k, k <> KGaussian -> snd (block_factory h k Ys) = Err (match k with KPoisson => NameError | _ => TypeError end)) /\
  exists h1 s, block_factory h KGaussian Ys = (h1, Ok (Stack_of s)) /\
    forall x, length x = length (concat Ys) -> exists h2 h3 u, chain_eval h1 s None x EvFunc = (h2, Ok (RFunc (squares 1 Ys x))) /\ chain_eval h1 s None x EvGrad = (h3, Ok (RGrad u)) /\ read h3 u = vsub x (concat Ys).
Proof. exact block_methods. Qed.
Print Assumptions C98_block_refuted.

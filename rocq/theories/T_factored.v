(** C77: factored matrices, and the nuclear and operator norms that use them. *)
From Coq Require Import Reals List Lra Lia Arith.
From Verif Require Import M_affine Vec Spec SpecLoss M_quad M_prox M_semi M_shift M_mode M_cones SpecPart SpecBlock SpecLinear SpecSvd M_svd SpecSvd2 M_factored SpecFactored P_factored1 P_factored2 P_factored3 P_factored4.
Import ListNotations.
Local Open Scope R_scope.

(** linear_map and adjoint_map of factors that fit are those of the matrix X the factors stand for, and are adjoint; affine_map adds the offset. *)
Theorem C77_maps : forall f x u, factors_fit f -> length x = f_c f -> length u = f_r f ->
  length (get_X f) = (f_r f * f_c f)%nat /\ f_linear f x = mat_vec (rows (f_r f) (f_c f) (get_X f)) x /\ length (f_adjoint f u) = f_c f /\ dot (f_linear f x) u = dot x (f_adjoint f u) /\
  f_affine f x = match f_off f with Some a => vadd (f_linear f x) a | None => f_linear f x end.
Proof. exact factored_maps. Qed.
Print Assumptions C77_maps.
Example C77_maps_instance : factors_fit (mk_factored 2 3 [[1; 0]; [0; 1]] [3; 1] [[1; 0; 0]; [0; 1; 0]] false (Some [5; 6]) 0) /\ factors_fit (mk_factored 2 3 [[1; 0]] [3] [[1; 0; 0]] true None 0).
Proof. unfold factors_fit. cbn. repeat split; repeat constructor. Qed.
(** factored_matrix(X).X is X, when the iteration is exact and no singular value is negligible; zero matrices included. *)
Theorem C77_round_trip : forall fuel it r c X rank off, (1 <= r)%nat -> (1 <= c)%nat -> length X = (r * c)%nat -> exact_iteration r c X (it X) -> not_negligible r c X -> (1 <= rank)%nat -> (Nat.min r c < fuel)%nat ->
  exists f, factored_of fuel it r c X rank off 0 = Ok f /\ factors_fit f /\ f_r f = r /\ f_c f = c /\ f_off f = off /\ get_X f = X.
Proof. exact round_trip. Qed.
Print Assumptions C77_round_trip.
(** There is an exact iteration for every matrix. *)
Theorem C77_iteration_exists : forall r c X, length X = (r * c)%nat -> exists iter, exact_iteration r c X iter.
Proof. exact exact_exists. Qed.
Print Assumptions C77_iteration_exists.
(** Any number of calls of lagrange_prox, with lipschitz 1, and bound_prox of one object, in any order: every answer is the proximal map of the nuclear norm, or the projection on its ball, whatever the ranks and warm starts that earlier calls have left. For an initial rank of at most min(shape) and matrices that are not zero. *)
Theorem C77_history_partial : forall calls fuel r c rank, (1 <= rank <= Nat.min r c)%nat -> (Nat.min r c < fuel)%nat -> Forall (call_ok r c) calls ->
  exists a fs, new_fn r c rank None = Ok a /\ fn_run fuel a calls = Ok fs /\ Forall2 (answers r c) calls fs /\ Forall (fun f => factors_fit f /\ f_r f = r /\ f_c f = c) fs.
Proof. exact fn_history. Qed.
Print Assumptions C77_history_partial.
Example C77_calls_instance : exists it, call_ok 2 2 (FLagrange it [3; 0; 0; 1] 2) /\ call_ok 2 2 (FBound it [3; 0; 0; 1] (1 / 2)) /\ (1 <= 1 <= Nat.min 2 2)%nat.
Proof.
  destruct diag_ok as (A & B & _). destruct (exact_exists 2 2 [3; 0; 0; 1] eq_refl) as (it & H). exists (fun _ => it). unfold call_ok. repeat match goal with |- _ /\ _ => split end; auto; try lra; cbn; lia.
Qed.
(** The operator norm of tall matrices: lagrange_prox is its proximal map for every lipschitz, bound_prox the projection on its ball. *)
Theorem C77_operator_partial : forall r c rank fuel it X L lam, (c <= r)%nat -> (1 <= rank <= c)%nat -> (c < fuel)%nat -> nonzero_matrix r c X -> exact_iteration r c X (it X) -> not_negligible r c X -> 0 < L -> 0 <= lam ->
  exists a s1 s2, new_fop r c rank None = Ok a /\ fop_lagrange_prox fuel it a X L lam = Ok s1 /\ fop_bound_prox fuel it a X lam = Ok s2 /\
  is_unique_argmin (r * c) (prox_objective L X (fun Y => Fin (lam * op_norm r c Y))) (snd s1) /\ is_proj (r * c) (fun Y => op_norm r c Y <= lam) X (snd s2).
Proof. exact fop_call. Qed.
Print Assumptions C77_operator_partial.
Example C77_operator_instance : exists it, nonzero_matrix 2 2 [3; 0; 0; 1] /\ exact_iteration 2 2 [3; 0; 0; 1] (it [3; 0; 0; 1]) /\ not_negligible 2 2 [3; 0; 0; 1] /\ (2 <= 2)%nat /\ (1 <= 1 <= 2)%nat.
Proof. destruct diag_ok as (A & B & _). destruct (exact_exists 2 2 [3; 0; 0; 1] eq_refl) as (it & H). exists (fun _ : vec => it). refine (Logic.conj A (Logic.conj H (Logic.conj B _))). lia. Qed.
(** lagrange_prox of the nuclear norm ignores lipschitz: unless it is 1 the answer is not the proximal map, but that of lipschitz * lagrange. Whenever lagrange is below the operator norm of X, so that the answer is not zero. *)
Theorem C77_lipschitz_refuted : forall fuel it a X L lam, ready a -> nonzero_matrix (fn_r a) (fn_c a) X -> exact_iteration (fn_r a) (fn_c a) X (it X) -> not_negligible (fn_r a) (fn_c a) X -> (Nat.min (fn_r a) (fn_c a) < fuel)%nat ->
  0 < L -> L <> 1 -> 0 < lam < op_norm (fn_r a) (fn_c a) X ->
  exists a' f, fn_lagrange_prox fuel it a X L lam = Ok (a', f) /\ ~ is_unique_argmin (fn_r a * fn_c a) (prox_objective L X (fun Y => Fin (lam * nuc_norm (fn_r a) (fn_c a) Y))) (get_X f) /\
  is_unique_argmin (fn_r a * fn_c a) (prox_objective L X (fun Y => Fin (L * lam * nuc_norm (fn_r a) (fn_c a) Y))) (get_X f).
Proof. exact lipschitz_ignored. Qed.
Print Assumptions C77_lipschitz_refuted.
Example C77_lipschitz_instance : exists it a, new_fn 2 2 1 None = Ok a /\ ready a /\ fn_r a = 2%nat /\ fn_c a = 2%nat /\ exact_iteration 2 2 [3; 0; 0; 1] it /\ 0 < 1 < op_norm 2 2 [3; 0; 0; 1].
Proof.
  destruct diag_ok as (A & B & C). destruct (exact_exists 2 2 [3; 0; 0; 1] eq_refl) as (it & H). destruct (new_ready 2 2 1 ltac:(cbn; lia)) as (a & E & K & Er & Ec). exists it, a. rewrite C. split; auto. split; auto. split; auto. split; auto. split; auto. lra.
Qed.
(** An object whose initial rank is above min(shape) refuses every matrix. The default initial rank is 10: so does every object built by default for a matrix with fewer than 10 rows or columns. *)
Theorem C77_rank_refuted : forall fuel it r c rank a X v L, (Nat.min r c < rank)%nat -> new_fn r c rank None = Ok a -> (1 <= fuel)%nat ->
  fn_lagrange_prox fuel it a X L v = Err ValueError /\ fn_bound_prox fuel it a X v = Err ValueError.
Proof. exact rank_too_large. Qed.
Print Assumptions C77_rank_refuted.
(** Both proximal maps fail at the zero matrix, where the answer is zero. *)
Theorem C77_zero_refuted : forall fuel it a v L, ready a -> exact_iteration (fn_r a) (fn_c a) (zeros (fn_r a * fn_c a)) (it (zeros (fn_r a * fn_c a))) -> (1 <= fuel)%nat ->
  fn_lagrange_prox fuel it a (zeros (fn_r a * fn_c a)) L v = Err IndexError /\ fn_bound_prox fuel it a (zeros (fn_r a * fn_c a)) v = Err IndexError.
Proof. exact zero_fails. Qed.
Print Assumptions C77_zero_refuted.
(** copy() keeps the matrix and drops the offset and min_singular. *)
Theorem C77_copy_refuted : forall r c U D VT off m f, new_factored r c U D VT (Some off) m = Ok f -> exists g, copy_factored f = Ok g /\ get_X g = get_X f /\ (forall x, f_linear g x = f_linear f x) /\ (forall x, f_affine g x = f_linear f x) /\ f_min g = 0.
Proof. exact copy_loses. Qed.
Print Assumptions C77_copy_refuted.
(** With more columns than rows the operator norm cannot be built, nor the conjugate of the nuclear norm. *)
Theorem C77_wide_refuted : forall r c rank, (r < c)%nat -> new_fop r c rank None = Err TypeError /\ (forall a, new_fn r c rank None = Ok a -> fn_conjugate a = Err TypeError).
Proof. exact fat_fails. Qed.
Print Assumptions C77_wide_refuted.
(** For the others the conjugate is an operator norm with the same rank and warm start. *)
Theorem C77_conjugate : forall r c rank a, (c <= r)%nat -> new_fn r c rank None = Ok a -> fn_conjugate a = Ok a /\ new_fop r c rank None = Ok a.
Proof. exact tall_conjugate. Qed.
Print Assumptions C77_conjugate.
(** factored_matrix with min_singular above 1 fails for every matrix. *)
Theorem C77_min_singular_refuted : forall fuel it r c X rank off m, 1 < m -> factored_of fuel it r c X rank off m = Err TypeError.
Proof. exact large_singular. Qed.
Print Assumptions C77_min_singular_refuted.
Example C77_copy_instance : exists f, new_factored 2 3 [[1; 0]] [3] [[1; 0; 0]] (Some [5; 6]) (1 / 2) = Ok f.
Proof. unfold new_factored. destruct (Rle_dec 0 (1 / 2)); [eexists; reflexivity|lra]. Qed.
Example C77_rank_instance : exists a, new_fn 5 4 10 None = Ok a /\ (Nat.min 5 4 < 10)%nat.
Proof. eexists. split; [reflexivity|cbn; lia]. Qed.

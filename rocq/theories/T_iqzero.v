(** C112: iszero and true_center of quadratics (regreg/identity_quadratic.py:63-68, 237-242). *)
From Coq Require Import Reals List Lra Lia Arith Bool.
From Verif Require Import Vec Spec M_quad P_quad P_iqzero.
Import ListNotations.
Local Open Scope R_scope.

(** A quadratic that reports to be zero is the zero function. *)
Theorem C112_iszero_partial : forall n q, (1 <= n)%nat -> q_shape n q -> iszero q = true -> forall x, length x = n -> q_denot n q x = 0.
Proof. intros n q Hn S H. exact (proj1 (proj1 (iszero_meaning n q Hn S) H)). Qed.
Print Assumptions C112_iszero_partial.

(** Exactly the zero functions whose center is zero report it. *)
Theorem C112_iszero_iff_partial : forall n q, (1 <= n)%nat -> q_shape n q ->
  (iszero q = true <-> (forall x, length x = n -> q_denot n q x = 0) /\ fbcast n (center q) = zeros n).
Proof. exact iszero_meaning. Qed.
Print Assumptions C112_iszero_iff_partial.

(** The converse fails: a center that nothing depends on hides that the function is zero. *)
Theorem C112_iszero_refuted : forall n v, length v = n -> v <> zeros n ->
  let q := mk_iq 0 (FVec v) (FScal 0) 0 in (forall x, q_denot n q x = 0) /\ iszero q = false.
Proof. exact nonzero_center. Qed.
Print Assumptions C112_iszero_refuted.

(** true_center is the unique minimizer of the quadratic. *)
Theorem C112_true_center : forall n q c, q_shape n q -> true_center q = Some c ->
  fshape n c /\ is_unique_argmin n (fun x => Fin (q_denot n q x)) (fbcast n c).
Proof. exact center_minimizes. Qed.
Print Assumptions C112_true_center.

(** It is None exactly when there is no unique minimizer. *)
Theorem C112_no_center : forall n q, (1 <= n)%nat -> q_shape n q ->
  (true_center q = None <-> ~ exists p, is_unique_argmin n (fun x => Fin (q_denot n q x)) p).
Proof. exact no_center. Qed.
Print Assumptions C112_no_center.

(** Non-trivial cases: 1/2 * 2 |x - (1,2)|^2 + <(2,-2), x> + 3 has its minimizer at (0,3). *)
Example C112_ex : exists c, true_center (mk_iq 2 (FVec [1; 2]) (FVec [2; -2]) 3) = Some c /\ fbcast 2 c = [0; 3].
Proof.
  unfold true_center. cbn. destruct (Rlt_dec 0 2) as [|N]; [|lra]. eexists. split; [reflexivity|]. cbn. apply f_equal2; [lra|]. apply f_equal2; [lra|reflexivity].
Qed.
Example C112_ex_none : true_center (mk_iq 0 FNone (FVec [2; -2]) 3) = None.
Proof. unfold true_center. cbn. destruct (Rlt_dec 0 0); [lra|auto]. Qed.
Example C112_ex_zero : iszero (mk_iq 0 FNone (FVec [0; 0]) 0) = true /\ q_shape 2 (mk_iq 0 FNone (FVec [0; 0]) 0).
Proof. split; [|split; cbn; auto]. unfold iszero. cbn. destruct (Req_EM_T 0 0) as [e|N]; [reflexivity|destruct (N eq_refl)]. Qed.

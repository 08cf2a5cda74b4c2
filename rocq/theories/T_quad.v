(** Properties C01-C03: identity_quadratic. *)
From Coq Require Import Reals List Lra.
From Verif Require Import Vec Spec M_quad P_quad.
Import ListNotations.
Local Open Scope R_scope.

(** C01. [objective] returns the value L/2||x-mu||^2+<eta,x>+gamma and its gradient, in the
    combination requested; an unknown mode raises ValueError. *)
Theorem C01_value_and_gradient : forall n q x, q_shape n q -> length x = n ->
  exists f g,
    q_objective q x MFunc = Ok (Some f, None) /\
    q_objective q x MGrad = Ok (None, Some g) /\
    q_objective q x MBoth = Ok (Some f, Some g) /\
    q_objective q x MOther = Err ValueError /\
    f = quad_fun (coef q) (fbcast n (center q)) (fbcast n (linear_term q)) (constant_term q) x /\
    is_gradient n (quad_fun (coef q) (fbcast n (center q)) (fbcast n (linear_term q)) (constant_term q)) x g.
Proof. exact q_objective_correct. Qed.
Print Assumptions C01_value_and_gradient.

Example C01_case : q_shape 2 (mk_iq 3 (FVec [1;2]) (FScal (-1)) 4) /\ length [5;6] = 2%nat.
Proof. repeat split. Qed.

(** C02. collapsed: same function. Scalar centers are excluded unless 0 (see the refutation). *)
Theorem C02_collapsed_partial : forall n q x, q_shape n q ->
  (forall c, center q = FScal c -> c = 0) -> length x = n ->
  q_denot n (collapsed q) x = q_denot n q x.
Proof.
  exact (fun n q x H Hc Hx => collapsed_denot n q x H
    (match center q as f return (forall c, f = FScal c -> c = 0) ->
        match f with FScal c => c = 0 \/ coef q = 0 \/ n = 1%nat | _ => True end with
     | FScal c => fun h => or_introl (h c eq_refl) | _ => fun _ => I end Hc) Hx).
Qed.
Print Assumptions C02_collapsed_partial.

(** A non-zero scalar center is broadcast by [objective] but [collapsed] uses norm(c)^2 = c^2:
    the collapsed quadratic is a different function as soon as the dimension is not 1. *)
Theorem C02_collapsed_refuted : exists q x, q_shape 2 q /\ length x = 2%nat /\
  q_denot 2 (collapsed q) x <> q_denot 2 q x.
Proof.
  exact (ex_intro _ (mk_iq 1 (FScal 1) (FScal 0) 0) (ex_intro _ [0;0]
    (conj (conj I I) (conj eq_refl collapsed_scalar_center_wrong)))).
Qed.
Print Assumptions C02_collapsed_refuted.

(** C02. Addition denotes the sum; None is neutral; other operands are rejected. *)
Theorem C02_add_partial : forall n q p, q_shape n q -> q_shape n p -> center_ok n q -> center_ok n p ->
  exists s, q_add q (AQuad p) = Ok s /\ q_shape n s /\ center_ok n s /\
    forall x, length x = n -> q_denot n s x = q_denot n q x + q_denot n p x.
Proof. exact q_add_denot. Qed.
Print Assumptions C02_add_partial.
Theorem C02_add_none_other : forall q, q_add q ANone = Ok q /\ q_add q AOther = Err ValueError.
Proof. exact (fun q => conj eq_refl eq_refl). Qed.
Print Assumptions C02_add_none_other.

Example C02_case : let q := mk_iq 3 (FVec [1;2]) FNone 4 in let p := mk_iq (-1) (FScal 0) (FVec [1;1]) 0 in
  q_shape 2 q /\ q_shape 2 p /\ center_ok 2 q /\ center_ok 2 p.
Proof. repeat split. left. reflexivity. Qed.

(** C02. recenter(offset) denotes x -> q(x+offset) up to the constant <eta, offset>. *)
Theorem C02_recenter_partial : forall n q o, q_shape n q -> center_ok n q -> center q <> FNone -> length o = n ->
  (forall c, center q = FScal c -> c = 0) ->
  exists o' q', recenter q (Some o) = Ok (o', q') /\ q_shape n q' /\
    (o' = None /\ o = zeros n \/ o' = Some o /\ o <> zeros n) /\
    forall x, length x = n -> q_denot n q' x = q_denot n q (vadd x o) - dot (fbcast n (linear_term q)) o.
Proof. exact recenter_denot. Qed.
Print Assumptions C02_recenter_partial.

(** The constant is really lost: with a linear term, recentering changes the value. *)
Theorem C02_recenter_refuted : exists q o q' x, q_shape 1 q /\ length o = 1%nat /\ length x = 1%nat /\
  recenter q (Some o) = Ok (Some o, q') /\ q_denot 1 q' x <> q_denot 1 q (vadd x o).
Proof. exact recenter_loses_constant. Qed.
Print Assumptions C02_recenter_refuted.

(** C03. conjugate is the Fenchel conjugate when coef > 0. *)
Theorem C03_conjugate_fenchel : forall n q, q_shape n q -> center_ok n q -> 0 < coef q ->
  exists c, q_conjugate q = Ok c /\ q_shape n c /\
    forall u, length u = n -> is_fenchel n (fun x => Fin (q_denot n q x)) u (Fin (q_denot n c u)).
Proof. exact q_conjugate_fenchel. Qed.
Print Assumptions C03_conjugate_fenchel.

(** C03. Conjugating twice gives the same function (vector linear term, or zero). *)
Theorem C03_conjugate_involutive_partial : forall n q c cc, q_shape n q -> center_ok n q -> 0 < coef q ->
  (forall v, linear_term (collapsed q) = FScal v -> v = 0) ->
  q_conjugate q = Ok c -> q_conjugate c = Ok cc ->
  forall x, length x = n -> q_denot n cc x = q_denot n q x.
Proof. exact q_conjugate_involutive. Qed.
Print Assumptions C03_conjugate_involutive_partial.

(** With a scalar linear term the double conjugate is off by a constant (same cause as C02_collapsed_refuted). *)
Theorem C03_conjugate_involutive_refuted : exists q c cc x, q_shape 2 q /\ center_ok 2 q /\ 0 < coef q /\ length x = 2%nat /\
  q_conjugate q = Ok c /\ q_conjugate c = Ok cc /\ q_denot 2 cc x <> q_denot 2 q x.
Proof. exact q_conjugate_involutive_fails. Qed.
Print Assumptions C03_conjugate_involutive_refuted.

Example C03_case : let q := mk_iq 3 (FVec [1;2]) (FScal 1) 4 in
  q_shape 2 q /\ center_ok 2 q /\ 0 < coef q /\ (forall v, linear_term (collapsed q) = FScal v -> v = 0).
Proof. repeat split; simpl; try lra. discriminate. Qed.

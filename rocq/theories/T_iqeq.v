(** C107: ==, copy() and noneify of identity_quadratic. *)
From Coq Require Import Reals List Lra Lia Arith Bool.
From Verif Require Import M_affine Vec Spec M_quad M_iqeq SpecIqeq P_iqeq.
Import ListNotations.
Local Open Scope R_scope.

(** When every center and linear_term is a number or an array of the shape of the variable, == compares the four fields, a number
    standing for a constant array, up to numpy's tolerances, and does not raise. *)
Theorem C107_fields_partial : forall n a b, (1 <= n)%nat -> q_shape n a -> q_shape n b -> no_none a -> no_none b ->
  exists t, iq_eq a b = Ok t /\ (t = true <-> within (coef a) (coef b) /\ all_within n (fbcast n (center a)) (fbcast n (center b)) /\
    all_within n (fbcast n (linear_term a)) (fbcast n (linear_term b)) /\ within (constant_term a) (constant_term b)).
Proof. exact iq_eq_iff. Qed.
Print Assumptions C107_fields_partial.
(** Every such quadratic equals itself and its copy, and the copy is the same function. *)
Theorem C107_copy_partial : forall a, no_none a -> iq_eq a a = Ok true /\ iq_eq (iq_copy a) a = Ok true /\ forall n x, q_denot n (iq_copy a) x = q_denot n a x.
Proof. exact iq_eq_refl. Qed.
Print Assumptions C107_copy_partial.
(** With a None, == raises, even for an object and itself. *)
Theorem C107_none_refuted :
  (forall a, ~ no_none a -> iq_eq a a = Err TypeError) /\ (forall a b, within (coef a) (coef b) -> center a = FNone \/ center b = FNone -> iq_eq a b = Err TypeError).
Proof. split; [exact none_self|]. intros a b W. apply (none_raises a b W). Qed.
Print Assumptions C107_none_refuted.
(** == is neither symmetric nor transitive: from every quadratic whose constant term is not negative *)
Theorem C107_equivalence_refuted : forall a, no_none a -> 0 <= constant_term a ->
  (exists b, iq_eq a b = Ok true /\ iq_eq b a = Ok false) /\ (exists b d, iq_eq a b = Ok true /\ iq_eq b d = Ok true /\ iq_eq a d = Ok false).
Proof. exact not_equivalence. Qed.
Print Assumptions C107_equivalence_refuted.
(** Equal quadratics take values as far apart as one likes, *)
Theorem C107_values_refuted : forall n a K, (1 <= n)%nat -> q_shape n a -> no_none a -> exists b x, q_shape n b /\ iq_eq a b = Ok true /\ length x = n /\ q_denot n b x - q_denot n a x > K.
Proof. exact far_apart. Qed.
Print Assumptions C107_values_refuted.
(** and one function has quadratics that are not equal: every linear one does. *)
Theorem C107_same_function_refuted : forall n a, (1 <= n)%nat -> q_shape n a -> no_none a -> coef a = 0 ->
  exists b, q_shape n b /\ no_none b /\ (forall x, q_denot n b x = q_denot n a x) /\ iq_eq a b = Ok false.
Proof. exact same_function. Qed.
Print Assumptions C107_same_function_refuted.
(** noneify does not change the function; it returns for a quadratic without center and raises for all others. *)
Theorem C107_noneify_refuted : forall q, (forall n x, q_shape n q -> q_denot n (fst (noneify q)) x = q_denot n q x) /\ (snd (noneify q) = Ok tt <-> center q = FNone) /\ (center q <> FNone -> snd (noneify q) = Err AttributeError).
Proof.
  intros q. split; [intros n x; apply noneify_value|]. unfold noneify. cbn [snd]. destruct (center q); repeat split; intros; congruence.
Qed.
Print Assumptions C107_noneify_refuted.
(** coef 1, center (1,2), linear term 3: a non-None quadratic; the same without center *)
Example C107_case : q_shape 2 (mk_iq 1 (FVec [1; 2]) (FScal 3) 0) /\ no_none (mk_iq 1 (FVec [1; 2]) (FScal 3) 0) /\ ~ no_none (mk_iq 1 FNone (FScal 3) 0) /\
  q_shape 2 (mk_iq 0 (FVec [1; 2]) (FScal 3) 5) /\ no_none (mk_iq 0 (FVec [1; 2]) (FScal 3) 5).
Proof. repeat split; cbn; auto; try discriminate. intros [C _]. apply C. reflexivity. Qed.

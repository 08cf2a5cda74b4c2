(** simple_problem.smooth and simple_problem.nonsmooth (C39). *)
From Coq Require Import Reals List Lra Lia Arith Bool FunctionalExtensionality.
From Verif Require Import M_affine SpecAffine P_affine M_loss SpecLoss M_smooth SpecSmooth Vec Spec SpecConvex M_quad P_quad M_semi SpecAtom M_shift SpecBase SpecCone M_cones M_fista SpecFista M_problem SpecProblem P_problem P_separable P_problem2.
Import ListNotations.
Local Open Scope R_scope.

Lemma no_quad_zero : forall n x, q_denot n no_quad x = 0.
Proof. intros n x. unfold q_denot, quad_fun. assert (D : dot (fbcast n (linear_term no_quad)) x = 0) by exact (dot_zeros_l n x). rewrite D. cbn. lra. Qed.
Lemma free_part : forall n x, base_doc n (cone_fun KZero) (new_base n None None) x = Fin 0.
Proof. intros. assert (Z := no_quad_zero n x). unfold q_denot in Z. unfold base_doc. cbn [new_base b_quadratic]. change (mk_iq 0 (FScal 0) (FScal 0) 0) with no_quad. rewrite Z. cbn. f_equal. ring. Qed.
Lemma free_exact : forall n, (1 <= n)%nat -> exact_obj n (fun _ => Fin 0) (of_cone (new_cone KZero n None None)).
Proof.
  intros n Hn. assert (E : (fun _ : vec => Fin 0) = base_doc n (cone_fun KZero) (new_base n None None)) by (apply functional_extensionality; intros x; symmetry; apply free_part). rewrite E.
  apply (cone_exact n (new_cone KZero n None None)); try discriminate; [exact Hn|split; [reflexivity|split; [discriminate|split; exact I]]|cbn; lra].
Qed.
Lemma only_quad : forall n a, simple_fun n a (fun _ => Fin 0) no_quad = own_quad n (s_quadratic a).
Proof. intros n a. apply functional_extensionality. intros x. unfold simple_fun, plus_quad, own_quad. rewrite no_quad_zero. cbn. f_equal. ring. Qed.
Lemma only_smooth : forall n a, (1 <= n)%nat -> good_smooth n a -> (forall x chk, length x = n -> simple_value (simple_of_smooth a n) x chk = Fin (s_func a x + q_denot n (s_quadratic a) x)) /\
  exact_problem n (s_func a) (own_quad n (s_quadratic a)) (simple_composite (simple_of_smooth a n)).
Proof.
  intros n a Hn G. split.
  - intros x chk Lx. rewrite (simple_value_spec n (fun _ => Fin 0) (simple_of_smooth a n) x chk); auto; [|apply free_exact; auto|apply no_quad_good|].
    + cbn [simple_of_smooth new_simple p_smooth p_quadratic]. rewrite only_quad. reflexivity.
    + cbn [simple_of_smooth new_simple p_smooth p_quadratic]. rewrite only_quad. eexists. reflexivity.
  - rewrite <- only_quad. apply (simple_exact n (fun _ => Fin 0) (simple_of_smooth a n)); auto; [apply free_exact; auto|apply no_quad_good].
Qed.
Lemma zero_good : forall n, good_smooth n (SZero n no_quad).
Proof. intros n. split; [reflexivity|]. split; [exact I|]. split; [apply no_quad_good|]. intros x _. split; exact I. Qed.
Lemma ext_zero : forall v, ext_add v (Fin 0) = v.
Proof. intros [r|]; cbn; auto. f_equal. ring. Qed.
Lemma only_nonsmooth : forall n H A, exact_obj n H A -> (forall x r chk, length x = n -> H x = Fin r -> simple_value (simple_of_nonsmooth A n) x chk = Fin r) /\
  exact_problem n (fun _ => 0) H (simple_composite (simple_of_nonsmooth A n)).
Proof.
  intros n H A X. assert (E : simple_fun n (SZero n no_quad) H no_quad = H). { apply functional_extensionality. intros x. unfold simple_fun, plus_quad. cbn [s_quadratic]. rewrite no_quad_zero, !ext_zero. auto. }
  split.
  - intros x r chk Lx Hr. rewrite (simple_value_spec n H (simple_of_nonsmooth A n) x chk); auto; [|apply zero_good|apply no_quad_good|]; cbn [simple_of_nonsmooth new_simple p_smooth p_quadratic]; rewrite E; [|eauto].
    unfold objective. rewrite Hr. cbn. f_equal. ring.
  - assert (S := simple_exact n H (simple_of_nonsmooth A n) (zero_good n) X (no_quad_good n)). cbn [simple_of_nonsmooth new_simple p_smooth p_quadratic] in S. rewrite E in S. exact S.
Qed.

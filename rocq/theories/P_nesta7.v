(** nesta with the default stopping test: an example. *)
From Coq Require Import Reals List Lra Lia Arith Bool.
From Verif Require Import M_affine SpecAffine M_smooth SpecSmooth Vec Spec SpecConvex M_quad M_problem SpecProblem M_sconj SpecSconj M_nesta SpecNesta P_nesta P_nesta2 P_nesta3 P_nesta4 P_nesta6.
Import ListNotations.
Local Open Scope R_scope.

Definition by_values (N : nesta_args) : nesta_args :=
  mk_nesta (na_loss N) (na_atom N) (na_coefs N) (na_source N) (na_epsilon N) (na_tol N) (na_max_iters N) (na_min_iters N) (na_coef_tol N) (na_primal N) (na_dual N) false (na_quadratic N).
Lemma by_values_for : forall N n T P h, nesta_for N n T P h -> nesta_for (by_values N) n T P h.
Proof. intros N n T P h [A B C D E F H]. split; auto. Qed.
Lemma by_values_solves : forall run N n m, solves_nesta run N n m -> solves_nesta run (by_values N) n m.
Proof. intros run N n m H. exact H. Qed.
Example nesta_value_case : exists o k w c, nesta (line_run 3) (by_values (line_args 3 (repeat 1 3) 3 1 0)) = Ok o /\ o_broke o = true /\ length (o_rounds o) = (k + 2)%nat /\ - 2 - 1 / 2 * sqn (vsub [clip 3] [0]) <= w <= - 2 /\
  composed (line_fun 3) abs_fun (identity_map 1) (o_primal o) = Fin c /\ - 2 <= c <= - 2 + 2 * 1 * sqrt (2 * 1 * (INR k + 3) / 3 * (1 * (Rabs w + 1))).
Proof.
  assert (C3 : clip 3 = 1) by (destruct (clip_cases 3) as [(H1 & H2)|[(H1 & H2)|(H1 & H2)]]; lra).
  assert (Ev : composed (line_fun 3) abs_fun (identity_map 1) [3 - clip 3] = Fin (- 2)). { unfold composed, line_fun. change (t_lin (identity_map 1) [3 - clip 3]) with [3 - clip 3]. rewrite abs_at, C3. cbn [hd ext_add]. f_equal. rewrite Rabs_pos_eq by lra. lra. }
  destruct (nesta_value_end (line_run 3) (by_values (line_args 3 (repeat 1 3) 3 1 0)) 1 (identity_map 1) (line_fun 3) abs_fun unit_box [0] [3 - clip 3] [clip 3] (- 2) 1 1) as (o & k & w & c & H1 & H2 & H3 & H4 & H5 & H6); auto.
  - apply by_values_for, line_for. - apply abs_conjugates. - apply by_values_solves, line_solves. - apply line_saddle. - apply abs_lipschitz. - lra. - lra. - cbn. intros e He. repeat (destruct He as [<-|He]; [auto|]). destruct He. - reflexivity. - cbn; lra.
  - rewrite C3. cbn. unfold sqn, dot, vsum. cbn. lra.
  - exists o, k, w, c. split; [auto|]. split; [auto|]. split; [auto|]. split; [auto|]. split; [auto|exact H6].
Qed.

(** Properties C04, C05, C12, C55: the seminorm classes of regreg/atoms/seminorms.py.
    [doc_seminorm c] in Spec.v is the function each class documents. *)
From Coq Require Import Reals List Lra.
From Verif Require Import Vec Spec M_prox P_prox P_feas.
Import ListNotations.
Local Open Scope R_scope.

Theorem C04_lagrange_prox_exact : forall c n x L lam,
  (1 <= n)%nat -> length x = n -> 0 < L -> 0 <= lam ->
  exists p, lagrange_prox c x L lam = Ok p /\
    is_unique_argmin n (prox_objective L x (fun v => ext_scale lam (doc_seminorm c v))) p.
Proof. exact lagrange_prox_correct. Qed.
Print Assumptions C04_lagrange_prox_exact.
Example C04_case : (1 <= 3)%nat /\ length [1;-2;0] = 3%nat /\ 0 < 2 /\ 0 <= 1/2.
Proof. repeat split; auto; lra. Qed.
(** and the answer is not trivial: soft-thresholding really happens *)
Example C04_value : lagrange_prox CL1 [3;-2;0] 1 1 = Ok [2;-1;0].
Proof. cbn. unfold l1_lagrange. cbn [map]. repeat (f_equal; try (scal)). Qed.

Theorem C05_bound_prox_exact : forall c n x b, (1 <= n)%nat -> length x = n -> 0 <= b ->
  exists p, bound_prox c x b = Ok p /\ is_proj n (in_ball c b) x p.
Proof. exact bound_prox_correct. Qed.
Print Assumptions C05_bound_prox_exact.
Example C05_case : (1 <= 3)%nat /\ length [1;-2;0] = 3%nat /\ 0 <= 1/2.
Proof. repeat split; auto; lra. Qed.

(** C12, the classes whose check is right. *)
Theorem C12_feasibility_partial : forall c x b, 0 <= b -> x <> [] ->
  c = CL1 \/ c = CSup \/ c = CL2 \/ c = CPosPart ->
  exists e, constraint_value c x b = Ok e /\ (e = Fin 0 \/ e = PInf) /\
    (in_ball c b x -> e = Fin 0) /\ (e = Fin 0 -> in_ball c (b * (1 + / 10 ^ 5)) x).
Proof. exact constraint_plain. Qed.
Print Assumptions C12_feasibility_partial.
Theorem C12_feasibility_maxpos_partial : forall x b, 0 < b -> x <> [] ->
  exists e, constraint_value CMaxPos x b = Ok e /\ (e = Fin 0 \/ e = PInf) /\
    (in_ball CMaxPos b x -> e = Fin 0) /\ (e = Fin 0 -> in_ball CMaxPos (b * (1 + / 10 ^ 5)) x).
Proof. exact constraint_maxpos. Qed.
Print Assumptions C12_feasibility_maxpos_partial.
(** For the two nonnegativity-constrained classes only soundness holds. *)
Theorem C12_feasibility_con_partial : forall c x b, 0 <= b -> x <> [] -> c = CConMax \/ c = CConPosPart ->
  exists e, constraint_value c x b = Ok e /\ (e = Fin 0 \/ e = PInf) /\
    (e = Fin 0 -> in_ball c (b * (1 + / 10 ^ 5)) x).
Proof. exact constraint_con_sound. Qed.
Print Assumptions C12_feasibility_con_partial.
(** Feasible points with a zero entry are rejected, and max_positive_part with bound 0 rejects all. *)
Theorem C12_feasibility_refuted :
  in_ball CConMax 1 [0; 1/2] /\ constraint_value CConMax [0; 1/2] 1 = Ok PInf /\
  in_ball CConPosPart 1 [0; 1/2] /\ constraint_value CConPosPart [0; 1/2] 1 = Ok PInf /\
  in_ball CMaxPos 0 [-1] /\ constraint_value CMaxPos [-1] 0 = Ok PInf.
Proof. exact constraint_con_zero_rejected. Qed.
Print Assumptions C12_feasibility_refuted.

(** C55. seminorm(x, lagrange) is lagrange * h(x). *)
Theorem C55_seminorm_value_partial : forall c x lam chk, x <> [] -> c <> CConMax -> c <> CConPosPart ->
  seminorm_value c x lam chk = Ok (ext_scale lam (doc_seminorm c x)).
Proof. exact seminorm_value_plain. Qed.
Print Assumptions C55_seminorm_value_partial.
Theorem C55_seminorm_value_con_partial : forall c x lam chk, x <> [] -> c = CConMax \/ c = CConPosPart ->
  (Forall (fun a => / 10 ^ 5 <= a) x \/ chk = false /\ all_nonneg x) ->
  seminorm_value c x lam chk = Ok (ext_scale lam (doc_seminorm c x)).
Proof. exact seminorm_value_con. Qed.
Print Assumptions C55_seminorm_value_con_partial.
Theorem C55_seminorm_value_refuted :
  doc_seminorm CConMax [0; 1] = Fin 1 /\ seminorm_value CConMax [0; 1] 1 true = Ok PInf.
Proof. exact seminorm_con_zero_rejected. Qed.
Print Assumptions C55_seminorm_value_refuted.

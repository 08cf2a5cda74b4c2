(** C105: conjugates, smoothing and selectors of separable objects; separable_problem. *)
From Coq Require Import Reals List Lra Lia Arith Bool.
From Verif Require Import M_affine M_loss M_smooth Vec Spec SpecConvex M_quad P_quad M_prox M_semi SpecAtom M_shift SpecBase SpecCone M_cones M_fista SpecFista M_problem SpecProblem P_problem M_sconj M_sepconj SpecSepconj P_sepconj P_sepconj2 P_moreau.
Import ListNotations.
Local Open Scope R_scope.

(** Groups that cover every position: conjugate is a separable object that stands for the Fenchel conjugate of the function of S. *)
Theorem C105_conjugate_partial : forall S ps, (1 <= sa_shape S)%nat -> coef (sa_quadratic S) = 0 -> legal_groups (sa_shape S) (sa_groups S) -> covering (sa_shape S) (sa_groups S) -> Forall2 member_for (sa_members S) ps ->
  exists D, sep_conjugate S = Ok (SCSep D) /\ exact_obj (sa_shape S) (separable_fun (map fst ps) (sa_groups S)) (of_separable (sa_sep S)) /\
    exact_obj (sa_shape S) (separable_fun (map snd ps) (sa_groups S)) (of_separable D) /\
    forall u, length u = sa_shape S -> is_fenchel (sa_shape S) (separable_fun (map fst ps) (sa_groups S)) u (separable_fun (map snd ps) (sa_groups S) u).
Proof. exact conjugate_covered. Qed.
Print Assumptions C105_conjugate_partial.
(** Moreau's identity for S and its conjugate *)
Theorem C105_moreau_partial : forall S ps z, (1 <= sa_shape S)%nat -> coef (sa_quadratic S) = 0 -> legal_groups (sa_shape S) (sa_groups S) -> covering (sa_shape S) (sa_groups S) -> Forall2 member_for (sa_members S) ps -> length z = sa_shape S ->
  exists D v w, sep_conjugate S = Ok (SCSep D) /\ o_prox (of_separable (sa_sep S)) (unit_step z) = Ok v /\ o_prox (of_separable D) (unit_step z) = Ok w /\ vadd v w = z.
Proof. exact separable_moreau. Qed.
Print Assumptions C105_moreau_partial.
(** A position in no group, on which S does not depend: the Fenchel conjugate is infinite off the hyperplane u_k = 0, but the object returned
    ignores u_k, and the two proximal maps do not add up to the identity. *)
Theorem C105_uncovered_refuted : forall S ps k, (1 <= sa_shape S)%nat -> coef (sa_quadratic S) = 0 -> legal_groups (sa_shape S) (sa_groups S) -> Forall2 member_for (sa_members S) ps ->
  (k < sa_shape S)%nat -> ~ In k (concat (sa_groups S)) ->
  exists D, sep_conjugate S = Ok (SCSep D) /\
    (forall u, length u = sa_shape S -> nth k u 0 <> 0 -> is_fenchel (sa_shape S) (separable_fun (map fst ps) (sa_groups S)) u PInf) /\
    (forall u chk r, length u = sa_shape S -> separable_fun (map snd ps) (sa_groups S) u = Fin r -> o_value (of_separable D) u chk = Ok (Fin r)) /\
    (forall u t chk, o_value (of_separable D) (set_at k t u) chk = o_value (of_separable D) u chk) /\
    (forall z, length z = sa_shape S -> exists v w, o_prox (of_separable (sa_sep S)) (unit_step z) = Ok v /\ o_prox (of_separable D) (unit_step z) = Ok w /\ nth k v 0 + nth k w 0 = 2 * nth k z 0).
Proof. exact conjugate_uncovered. Qed.
Print Assumptions C105_uncovered_refuted.
(** The members: seminorm atoms and cones of the documented classes with their own conjugates. *)
Theorem C105_atom_members : forall a m g, (1 <= length g)%nat -> atom_wf (length g) a -> mode_ok m -> atom_mode a m -> coef (a_quadratic a) = 0 -> value_ok (klass a) m -> value_ok (pair_class (klass a)) (dual_mode m) ->
  exists d, get_conjugate a = Ok d /\ member_for (mk_member (of_atom a) (rmap of_atom (get_conjugate a)) g) (atom_doc (length g) a m, atom_doc (length g) d (dual_mode m)).
Proof. exact atom_member. Qed.
Print Assumptions C105_atom_members.
Theorem C105_cone_members : forall k b g, cone_dim k (length g) -> k <> KL2 -> k <> KL2Polar -> base_wf (length g) b -> coef (b_quadratic b) = 0 ->
  exists d, cone_conjugate (mk_cone k b) = Some (mk_cone (polar_class k) d) /\
    member_for (mk_member (of_cone (mk_cone k b)) (match cone_conjugate (mk_cone k b) with Some c => Ok (of_cone c) | None => Err TypeError end) g)
      (base_doc (length g) (cone_fun k) b, base_doc (length g) (cone_fun (polar_class k)) d).
Proof. exact cone_member. Qed.
Print Assumptions C105_cone_members.
(** An assigned quadratic with coef != 0: the conjugate exists but cannot be evaluated in any mode at any point, and smoothed raises. *)
Theorem C105_quadratic_refuted : forall S, coef (sa_quadratic S) <> 0 ->
  (exists C, sep_conjugate S = Ok (SCSmooth C) /\ forall x m, sc_eval C x m = Err ValueError) /\ forall sq C, sep_smoothed S sq <> Ok C.
Proof. exact curved. Qed.
Print Assumptions C105_quadratic_refuted.
(** Without one, smoothed(sq) returns an object that cannot be evaluated in any mode at any point. *)
Theorem C105_smoothed_refuted : forall S ps sq, (1 <= sa_shape S)%nat -> coef (sa_quadratic S) = 0 -> legal_groups (sa_shape S) (sa_groups S) -> Forall2 member_for (sa_members S) ps -> coef sq <> 0 ->
  exists C, sep_smoothed S sq = Ok C /\ forall x m, sc_eval C x m = Err ValueError.
Proof. exact smoothed_raises. Qed.
Print Assumptions C105_smoothed_refuted.
(** An assigned linear term does not reach the conjugate. *)
Theorem C105_linear_term_refuted : forall S q, coef (sa_quadratic S) = 0 -> coef q = 0 -> sep_conjugate (mk_sepatom (sa_shape S) (sa_members S) q) = sep_conjugate S.
Proof. exact linear_dropped. Qed.
Print Assumptions C105_linear_term_refuted.
(** singleton: the problem is a simple_problem whose nonsmooth part stands for the same function as the atom. *)
Theorem C105_singleton : forall n A H a, (1 <= n)%nat -> exact_obj n H A -> exists B, sep_singleton A n a = Ok (new_simple a B (zeros n)) /\ exact_obj n H B.
Proof. exact singleton_exact. Qed.
Print Assumptions C105_singleton.
(** fromatom: the same problem as simple_problem of the separable object itself. *)
Theorem C105_fromatom : forall S a, legal_groups (sa_shape S) (sa_groups S) -> sep_fromatom S a = Ok (new_simple a (of_separable (sa_sep S)) (zeros (sa_shape S))).
Proof. exact fromatom_same. Qed.
Print Assumptions C105_fromatom.

(** An l1 norm on positions 0 and 2 and a nonnegative constraint on position 1, of 3 or of 4 positions. *)
Definition sc_pen : atom := mk_atom CL1 2 (Some 1) None None zero_quad.
Definition sc_cone : cone := new_cone KNonneg 1 None None.
Definition sc_sep (n : nat) : sepatom := mk_sepatom n
  [mk_member (of_atom sc_pen) (rmap of_atom (get_conjugate sc_pen)) [0; 2]%nat;
   mk_member (of_cone sc_cone) (match cone_conjugate sc_cone with Some c => Ok (of_cone c) | None => Err TypeError end) [1]%nat] zero_quad.
Example C105_case : (exists ps, Forall2 member_for (sa_members (sc_sep 3)) ps) /\ coef (sa_quadratic (sc_sep 3)) = 0 /\ (forall n, (3 <= n)%nat -> legal_groups n (sa_groups (sc_sep n))) /\ covering 3 (sa_groups (sc_sep 3)) /\
  ~ In 3%nat (concat (sa_groups (sc_sep 4))) /\ sa_members (sc_sep 4) = sa_members (sc_sep 3) /\ (forall n, (3 <= n)%nat -> new_sepatom n (sa_members (sc_sep n)) = Ok (sc_sep n)).
Proof.
  split; [|split; [reflexivity|split; [|split; [|split; [|split; [reflexivity|]]]]]].
  - assert (W : atom_wf 2 sc_pen) by (repeat split; cbn; auto; discriminate).
    assert (M : mode_ok (Lagrange 1)) by (cbn; lra).
    assert (V : value_ok (klass sc_pen) (Lagrange 1)) by (cbn; split; discriminate).
    assert (V' : value_ok (pair_class (klass sc_pen)) (dual_mode (Lagrange 1))) by (cbn; auto).
    destruct (atom_member sc_pen (Lagrange 1) [0; 2]%nat ltac:(cbn; lia) W M ltac:(split; reflexivity) eq_refl V V') as (d & _ & M1).
    assert (B : base_wf 1 (new_base 1 None None)) by (repeat split; cbn; auto; discriminate).
    destruct (cone_member KNonneg (new_base 1 None None) [1]%nat) as (d' & _ & M2); cbn; auto; try discriminate.
    eexists. constructor; [exact M1|]. constructor; [exact M2|constructor].
  - intros n Hn. split; [cbn; repeat constructor; cbn; lia|]. intros g i [<-|[<-|[]]]; cbn; lia.
  - intros i Hi. cbn. lia.
  - cbn. lia.
  - intros n Hn. do 3 (destruct n as [|n]; [lia|]). reflexivity.
Qed.

(** More about C15: Moreau's identity for atoms and cones with offset and linear term and the object their property conjugate returns. *)
From Coq Require Import Reals List Lra Lia Arith Bool.
From Verif Require Import M_affine M_loss M_smooth Vec Spec SpecConvex M_quad P_quad M_prox M_semi SpecAtom P_semi P_conj M_shift SpecBase SpecCone M_cones P_cones M_fista SpecFista M_problem SpecProblem P_problem M_sepconj SpecSepconj P_sepconj P_moreau.
Import ListNotations.
Local Open Scope R_scope.

(** Every seminorm atom, in either mode, with any offset and any quadratic with coef = 0 *)
Theorem C15_atoms_moreau : forall n a m z, (1 <= n)%nat -> atom_wf n a -> mode_ok m -> atom_mode a m -> coef (a_quadratic a) = 0 -> length z = n ->
  exists d v w, get_conjugate a = Ok d /\ proximal a (AQuad (unit_step z)) = Ok v /\ proximal d (AQuad (unit_step z)) = Ok w /\ vadd v w = z.
Proof.
  intros n a m z Hn W Hm Em Hc Lz. destruct (conj_form _ a m W Hm Em Hc) as (d & Ed & Ek & Emd & Wd & _ & _ & Ecd & _). destruct (conjugate_correct _ a m W Hm Em Hc) as (d' & Ed' & _ & _ & _ & Fd). assert (d' = d) by congruence. subst d'.
  destruct (unit_good n z Lz) as (Sq & Hq & V). assert (Hd : mode_ok (dual_mode m)) by (destruct m; auto).
  destruct (atom_prox n a m (unit_step z) Hn W Hm Em Sq) as (v & Ev & Mv & _); [rewrite Hc; lra|auto|]. destruct (atom_prox n d (dual_mode m) (unit_step z) Hn Wd Hd Emd Sq) as (w & Ew & Mw & _); [rewrite Ecd; lra|auto|].
  exists d, v, w. split; auto. split; auto. split; auto. apply (moreau_general n (atom_doc n a m) (atom_doc n d (dual_mode m)) z); auto. apply atom_doc_convex; auto. lra.
Qed.
Print Assumptions C15_atoms_moreau.
(** Every cone but the l2 epigraphs (C14), with any offset and any quadratic with coef = 0 *)
Theorem C15_cones_partial : forall k n g z, cone_dim k n -> k <> KL2 -> k <> KL2Polar -> base_wf n g -> coef (b_quadratic g) = 0 -> length z = n ->
  exists d v w, cone_conjugate (mk_cone k g) = Some d /\ cone_proximal (mk_cone k g) (AQuad (unit_step z)) = Ok v /\ cone_proximal d (AQuad (unit_step z)) = Ok w /\ vadd v w = z.
Proof.
  intros k n g z Hd N1 N2 W Hc Lz. destruct (cone_conjugate_correct k n g Hd W Hc) as (d & Ed & Wd & Fd & _).
  assert (Kd : coef (b_quadratic d) = 0). { unfold cone_conjugate in Ed. cbn [c_base c_class] in Ed. unfold conjugate_base in Ed. destruct (Req_EM_T _ 0); [|discriminate]. unfold work_out_conjugate in Ed. cbn [option_map] in Ed. injection Ed as Ed. rewrite <- Ed. reflexivity. }
  assert (Hd' : cone_dim (polar_class k) n) by (destruct k; auto).
  assert (X1 : exact_obj n (base_doc n (cone_fun k) g) (of_cone (mk_cone k g))) by (apply (cone_exact n (mk_cone k g)); auto; cbn; lra).
  assert (X2 : exact_obj n (base_doc n (cone_fun (polar_class k)) d) (of_cone (mk_cone (polar_class k) d))) by (apply (cone_exact n (mk_cone (polar_class k) d)); cbn [c_class c_base]; auto; try (destruct k; discriminate || congruence); lra).
  destruct (moreau_objects n _ _ _ _ z X1 X2 Fd Lz) as (v & w & E1 & E2 & E3). exists (mk_cone (polar_class k) d), v, w. auto.
Qed.
Print Assumptions C15_cones_partial.
(** The sup norm with bound 3, offset (1,0) and a linear term; the nonnegative orthant with offset *)
Example C15_moreau_case : atom_wf 2 (mk_atom CSup 2 None (Some 3) (Some [1; 0]) (mk_iq 0 (FScal 0) (FVec [1; 2]) 5)) /\ atom_mode (mk_atom CSup 2 None (Some 3) (Some [1; 0]) (mk_iq 0 (FScal 0) (FVec [1; 2]) 5)) (Bound 3) /\ mode_ok (Bound 3) /\
  base_wf 2 (mk_base 2 (Some [1; 0]) (mk_iq 0 (FScal 0) (FVec [1; 2]) 3)) /\ cone_dim KNonneg 2.
Proof.
  split; [|split; [split; reflexivity|split; [cbn; lra|split; [|cbn; lia]]]].
  - repeat split.
    + cbn in H. injection H as <-. reflexivity.
    + cbn in H. injection H as <-. intros C. injection C. lra.
  - repeat split.
    + cbn in H. injection H as <-. reflexivity.
    + cbn in H. injection H as <-. intros C. injection C. lra.
Qed.

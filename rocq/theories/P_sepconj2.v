(** Documented atoms and cones as members of separable objects. *)
From Coq Require Import Reals List Lra Lia Arith Bool.
From Verif Require Import M_affine M_loss M_smooth Vec Spec SpecConvex M_quad P_quad M_prox M_semi SpecAtom P_semi P_conj M_shift SpecBase SpecCone M_cones P_cones M_fista SpecFista M_problem SpecProblem P_problem P_separable M_sconj M_sepconj SpecSepconj P_sepconj.
Import ListNotations.
Local Open Scope R_scope.

Theorem atom_member : forall a m g, (1 <= length g)%nat -> atom_wf (length g) a -> mode_ok m -> atom_mode a m -> coef (a_quadratic a) = 0 -> value_ok (klass a) m -> value_ok (pair_class (klass a)) (dual_mode m) ->
  exists d, get_conjugate a = Ok d /\ member_for (mk_member (of_atom a) (rmap of_atom (get_conjugate a)) g) (atom_doc (length g) a m, atom_doc (length g) d (dual_mode m)).
Proof.
  intros a m g Hn W Hm Em Hc V V'. destruct (conj_form _ a m W Hm Em Hc) as (d & Ed & Ek & Emd & Wd & _ & _ & Ecd & _). destruct (conjugate_correct _ a m W Hm Em Hc) as (d' & Ed' & _ & _ & _ & Fd). assert (d' = d) by congruence. subst d'.
  exists d. split; auto. split; cbn [m_obj m_conj m_group fst snd].
  - apply atom_exact; auto. lra.
  - exists (of_atom d). rewrite Ed. split; [reflexivity|]. apply atom_exact; auto; [destruct m; auto|rewrite Ek; auto|lra].
  - exact Fd.
Qed.
Theorem cone_member : forall k b g, cone_dim k (length g) -> k <> KL2 -> k <> KL2Polar -> base_wf (length g) b -> coef (b_quadratic b) = 0 ->
  exists d, cone_conjugate (mk_cone k b) = Some (mk_cone (polar_class k) d) /\
    member_for (mk_member (of_cone (mk_cone k b)) (match cone_conjugate (mk_cone k b) with Some c => Ok (of_cone c) | None => Err TypeError end) g)
      (base_doc (length g) (cone_fun k) b, base_doc (length g) (cone_fun (polar_class k)) d).
Proof.
  intros k b g Hd N1 N2 W Hc. destruct (cone_conjugate_correct k _ b Hd W Hc) as (d & Ed & Wd & Fd & _). exists d. split; auto.
  assert (Kd : coef (b_quadratic d) = 0). { unfold cone_conjugate in Ed. cbn [c_base c_class] in Ed. unfold conjugate_base in Ed. destruct (Req_EM_T _ 0); [|discriminate]. unfold work_out_conjugate in Ed. cbn [option_map] in Ed. injection Ed as Ed. rewrite <- Ed. reflexivity. }
  split; cbn [m_obj m_conj m_group fst snd].
  - apply (cone_exact _ (mk_cone k b)); auto. cbn. lra.
  - exists (of_cone (mk_cone (polar_class k) d)). rewrite Ed. split; [reflexivity|]. apply (cone_exact _ (mk_cone (polar_class k) d)); cbn [c_class c_base]; auto; try (destruct k; discriminate || congruence); [destruct k; auto|lra].
  - exact Fd.
Qed.

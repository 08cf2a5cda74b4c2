(** Proofs about copy() of group lasso cones and sparse group lassos. *)
From Coq Require Import Reals List ZArith Bool Lra Lia Arith.
From Verif Require Import M_affine Vec Spec M_quad P_quad M_prox M_semi SpecAtom M_shift SpecBase SpecMode M_mode SpecModed M_mixed SpecWeighted M_weighted SpecWatom P_weighted
  M_group SpecPart SpecGroup SpecGatom P_group P_group2 SpecSgl SpecSglObj M_sgl P_sgl6 P_gauge P_block3 M_equal P_equal.
Import ListNotations.
Local Open Scope R_scope.

Lemma warr_filled : forall labels given, g_warr labels (filled given labels) = g_warr labels given.
Proof.
  intros labels given. unfold g_warr. apply map_ext_in. intros g Hg. apply (group_weight_filled labels given g). unfold g_ids in Hg. revert g Hg. unfold sorted_unique.
  induction labels as [|x l IH]; cbn; [contradiction|]. intros g Hg.
  assert (K : forall l' y, In y (insert_z x l') -> y = x \/ In y l').
  { induction l' as [|h l' IHl]; cbn; [intuition|]. intros y Hy. destruct (Z.eqb x h); [auto|]. destruct (Z.ltb x h); cbn in Hy; [intuition|]. destruct Hy as [|Hy]; [auto|]. destruct (IHl y Hy); auto. }
  destruct (K _ _ Hg); auto.
Qed.
Theorem gcone_copied : forall n a, gcone_wf n a -> gc_class (gcone_copy a) = gc_class a /\ gc_groups (gcone_copy a) = gc_groups a /\ gc_base (gcone_copy a) = gc_base a /\
  (forall x chk, gcone_objective (gcone_copy a) x chk = gcone_objective a x chk) /\ (forall q, gcone_proximal (gcone_copy a) q = gcone_proximal a q).
Proof.
  intros n a (L & _ & _ & W). unfold gcone_copy. rewrite L, (new_base_same n) by auto. cbn [gc_class gc_groups gc_base]. split; auto. split; auto. split; auto.
  split; intros; unfold gcone_objective, gcone_proximal, gcone_constraint, gcone_prox, g_seminorm; cbn [gc_class gc_groups gc_base gc_weights]; rewrite warr_filled; reflexivity.
Qed.
Theorem sgl_copied : forall n a m, sgl_wf n a m -> exists c, sgl_copy a = Ok c /\ s_dual c = s_dual a /\ s_groups c = s_groups a /\ s_lasso c = s_lasso a /\ s_moded c = s_moded a /\ spen c = spen a.
Proof.
  intros n a m (Lg & Ll & Hl & Hw & Hmd). pose proof (moded_same n _ m Hmd) as S. pose proof Hmd as (E1 & E2 & Hm & Hs & Ho & Hq).
  destruct (new_sgl_correct (s_dual a) (s_groups a) (s_lasso a) (s_weights a) m (b_offset (m_base (s_moded a))) (b_quadratic (m_base (s_moded a))) Hm Hl ltac:(left; congruence) Hw) as (c & Ec & Hd & Hg & Wc & Hla & _ & Hwt & Hb).
  { intros v Ev. rewrite Lg. apply Ho. auto. } { rewrite Lg. auto. }
  exists c. unfold sgl_copy. rewrite E1, E2. split; auto. split; auto. split; auto. assert (HL : s_lasso c = s_lasso a) by (apply Hla; congruence). split; auto.
  split.
  - rewrite <- S. destruct Wc as (_ & _ & _ & _ & F1 & F2 & _). rewrite Lg in Hb. destruct (s_moded c) as [l b g]. cbn in *. congruence.
  - unfold spen. rewrite Hg, HL. assert (G : gfun false (s_groups a) (s_weights c) = gfun false (s_groups a) (s_weights a)).
    { apply FunctionalExtensionality.functional_extensionality. intros x. unfold gfun, glasso. f_equal. apply map_ext_in. intros g Hgg. apply nodup_In in Hgg. rewrite Hwt; auto. }
    apply FunctionalExtensionality.functional_extensionality. intros x. unfold sparse_group. f_equal. unfold gfun in G. exact (f_equal (fun h => h x) G).
Qed.

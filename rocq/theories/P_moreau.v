(** Moreau's identity for objects with exact values and proximal maps, and for separable objects. *)
From Coq Require Import Reals List Lra Lia Arith Bool.
From Verif Require Import M_affine M_loss M_smooth Vec Spec SpecConvex M_quad P_quad P_calc P_loss M_semi SpecAtom M_shift SpecBase M_fista SpecFista M_problem SpecProblem P_problem P_separable M_sconj M_sepconj SpecSepconj P_sepconj.
Import ListNotations.
Local Open Scope R_scope.

Lemma unit_denot : forall n z x, length z = n -> length x = n -> q_denot n (unit_step z) x = 1 / 2 * sqn (vsub x z).
Proof.
  intros n z x Lz Lx. unfold q_denot, quad_fun, unit_step. cbn [coef center linear_term constant_term fbcast]. change (const_vec n 0) with (zeros n). rewrite dot_zeros_l. lra.
Qed.
Lemma split_step : forall z v w n, length z = n -> length v = n -> length w = n -> sqn (vsub w z) = sqn (vsub w (vsub z v)) - 2 * (dot w v - dot (vsub z v) v) + sqn v.
Proof.
  intros z v w n Lz Lv Lw. assert (E : vsub w z = vsub (vsub w (vsub z v)) v).
  { revert v w n Lz Lv Lw. induction z as [|a z IH]; intros [|b v] [|c w] n Lz Lv Lw; cbn in *; try congruence. unfold vsub in *. cbn. f_equal; [ring|apply (IH v w (length z)); congruence]. }
  rewrite E, sqn_sub by vlen. rewrite dot_sub_l by vlen. ring.
Qed.
Theorem moreau_general : forall n F G z v w, convex_ext n F -> (forall u, length u = n -> is_fenchel n F u (G u)) -> length z = n ->
  is_argmin n (plus_quad n F (unit_step z)) v -> is_argmin n (plus_quad n G (unit_step z)) w -> vadd v w = z.
Proof.
  intros n F G z v w CF HG Lz Mv Mw. destruct Mv as (Lv & (rv & Erv) & Mv). destruct Mw as (Lw & (rw & Erw) & Mw).
  unfold plus_quad in *. destruct (F v) as [hp|] eqn:Ep; [|discriminate]. destruct (G w) as [gw|] eqn:Ew; [|discriminate]. clear Erv Erw.
  set (u := vsub z v). assert (Lu : length u = n) by (unfold u; vlen).
  assert (Var : forall y hy, length y = n -> F y = Fin hy -> dot u y - hy <= dot u v - hp).
  { intros y hy Ly Ey. assert (K := prox_variational n F 1 z (zeros n) v hp y hy CF ltac:(lra) Lz ltac:(apply zeros_length) Ly). assert (A : is_argmin n (fun x => ext_add (F x) (Fin (1 / 2 * sqn (vsub x z) + dot (zeros n) x))) v).
    { split; auto. split; [rewrite Ep; cbn; eauto|]. intros x Lx. specialize (Mv x Lx). rewrite !unit_denot in Mv by auto. rewrite !dot_zeros_l, !Rplus_0_r. rewrite Ep. exact Mv. }
    specialize (K A Ep Ey). rewrite !dot_zeros_l in K. rewrite (dot_sub_l v z) in K by congruence. rewrite (dot_sub_l v z y) in K by congruence. unfold u. rewrite !dot_sub_l by congruence. lra. }
  assert (Gu : exists s, G u = Fin s /\ s <= dot u v - hp).
  { assert (K := HG u Lu). destruct (G u) as [s|] eqn:Eu.
    - exists s. split; auto. destruct K as [_ K]. destruct (Rle_dec s (dot u v - hp)) as [|N]; auto. exfalso. destruct (K (s - (dot u v - hp))) as (x & r & Lx & Ex & Hx); [lra|]. specialize (Var x r Lx Ex). lra.
    - exfalso. cbn in K. destruct (K (dot u v - hp)) as (x & r & Lx & Ex & Hx). specialize (Var x r Lx Ex). lra. }
  destruct Gu as (s & Eu & Hs). specialize (Mw u Lu). rewrite Eu in Mw. rewrite !unit_denot in Mw by auto. cbn [ext_add ext_le] in Mw.
  assert (Kw := HG w Lw). rewrite Ew in Kw. destruct Kw as [Kw _]. specialize (Kw v hp Lv Ep).
  rewrite (split_step z v w n), (split_step z v u n) in Mw by auto. fold u in Mw. rewrite vsub_self, sqn_zeros in Mw.
  assert (E : w = u). { apply vsub_eq_zero; [congruence|]. lra. }
  rewrite E. unfold u. rewrite vadd_comm. apply vadd_vsub. congruence.
Qed.
(** For the objects themselves: any object with an exact conjugate object *)
Theorem moreau_objects : forall n F G A B z, exact_obj n F A -> exact_obj n G B -> (forall u, length u = n -> is_fenchel n F u (G u)) -> length z = n ->
  exists v w, o_prox A (unit_step z) = Ok v /\ o_prox B (unit_step z) = Ok w /\ vadd v w = z.
Proof.
  intros n F G A B z XA XB HG Lz. destruct (unit_good n z Lz) as (Sq & Hq & V). destruct (eo_prox _ _ _ XA _ Sq Hq V) as (v & Ev & Mv). destruct (eo_prox _ _ _ XB _ Sq Hq V) as (w & Ew & Mw). exists v, w. split; auto. split; auto.
  apply (moreau_general n F G z); auto. apply XA.
Qed.
Theorem separable_moreau : forall S ps z, (1 <= sa_shape S)%nat -> coef (sa_quadratic S) = 0 -> legal_groups (sa_shape S) (sa_groups S) -> covering (sa_shape S) (sa_groups S) -> Forall2 member_for (sa_members S) ps -> length z = sa_shape S ->
  exists D v w, sep_conjugate S = Ok (SCSep D) /\ o_prox (of_separable (sa_sep S)) (unit_step z) = Ok v /\ o_prox (of_separable D) (unit_step z) = Ok w /\ vadd v w = z.
Proof.
  intros S ps z Hn Hq Lg Cv F Lz. destruct (conjugate_covered S ps Hn Hq Lg Cv F) as (D & E & X1 & X2 & HF). destruct (moreau_objects _ _ _ _ _ z X1 X2 HF Lz) as (v & w & E1 & E2 & E3). exists D, v, w. auto.
Qed.

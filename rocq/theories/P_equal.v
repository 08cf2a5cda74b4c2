(** Proofs about == and copy(). *)
From Coq Require Import Reals List ZArith Bool Lra Lia Arith.
From Verif Require Import M_affine Vec Spec M_quad P_quad M_prox M_semi SpecAtom M_shift SpecBase SpecMode M_mode SpecModed M_mixed SpecWeighted M_weighted SpecWatom P_weighted
  M_group SpecGatom M_mixed_atom M_simplex M_linear SpecLinear M_slope SpecSlope SpecSlopeAtom P_slope M_sgl P_gauge P_block3 M_equal.
Import ListNotations.
Local Open Scope R_scope.

Lemma ext_eqb_spec : forall a b, ext_eqb a b = true <-> a = b.
Proof. intros [r|] [s|]; cbn; split; intros H; try discriminate; auto; [destruct (Req_EM_T r s); [congruence|discriminate]|injection H as ->; destruct (Req_EM_T s s); auto; contradiction]. Qed.
Lemma oeq_spec : forall a b, oeq a b = true <-> a = b.
Proof. intros [r|] [s|]; cbn; split; intros H; try discriminate; auto; [destruct (Req_EM_T r s); [congruence|discriminate]|injection H as ->; destruct (Req_EM_T s s); auto; contradiction]. Qed.
Lemma opt_eqb_spec : forall a b, opt_eqb a b = true <-> a = b.
Proof. intros [r|] [s|]; cbn; split; intros H; try discriminate; auto; [destruct (Req_EM_T r s); [congruence|discriminate]|injection H as ->; destruct (Req_EM_T s s); auto; contradiction]. Qed.
Lemma zlist_eqb_spec : forall a b, zlist_eqb a b = true <-> a = b.
Proof.
  induction a as [|x a IH]; intros [|y b]; cbn; split; intros H; try discriminate; auto.
  - apply andb_true_iff in H. destruct H as [H1 H2]. apply Z.eqb_eq in H1. apply IH in H2. congruence.
  - injection H as -> ->. rewrite Z.eqb_refl. apply IH. auto.
Qed.
Lemma mode_eqb_spec : forall a b m m', m_lagrange a = lag_of m -> m_bound a = bnd_of m -> m_lagrange b = lag_of m' -> m_bound b = bnd_of m' -> (mode_eqb a b = true <-> m = m').
Proof.
  intros a b m m' E1 E2 E3 E4. unfold mode_eqb. rewrite E1, E2, E3, E4. destruct m as [l|l], m' as [l'|l']; cbn; try (split; intros; congruence).
  all: destruct (Req_EM_T l l'); split; intros; try discriminate; congruence.
Qed.
Lemma forallb_combine_eq : forall (A : Type) (test : A -> A -> bool), (forall a b, test a b = true <-> a = b) -> forall x y, length x = length y -> (forallb (fun p => test (fst p) (snd p)) (combine x y) = true <-> x = y).
Proof.
  intros A test H. induction x as [|a x IH]; intros [|b y] L; try discriminate; cbn; [split; auto|].
  rewrite andb_true_iff, H, IH by (cbn in L; lia). split; [intros [-> ->]; auto|intros E; injection E; auto].
Qed.
Lemma wclass_eqb_spec : forall a b, wclass_eqb a b = true <-> a = b.
Proof. intros [] []; cbn; split; intros; congruence. Qed.

(** weighted norms *)
Theorem watom_equality : forall n a b m m', watom_wf n a m -> watom_wf n b m' ->
  exists e, watom_eq a b = Ok e /\ (e = true <-> w_class a = w_class b /\ w_weights a = w_weights b /\ m = m').
Proof.
  intros n a b m m' (La & _ & Ma1 & Ma2 & _) (Lb & _ & Mb1 & Mb2 & _). unfold watom_eq. destruct (wclass_eqb (w_class a) (w_class b)) eqn:E.
  - apply wclass_eqb_spec in E. unfold np_all2. rewrite La, Lb, Nat.eqb_refl. cbn [rmap]. eexists. split; [reflexivity|].
    rewrite andb_true_iff, (mode_eqb_spec _ _ m m') by auto. rewrite (forallb_combine_eq _ ext_eqb ext_eqb_spec) by congruence. tauto.
  - eexists. split; [reflexivity|]. split; [discriminate|]. intros (H & _). apply wclass_eqb_spec in H. congruence.
Qed.
Lemma moded_same : forall n a m, moded_wf n a m -> mk_moded (lag_of m) (bnd_of m) (new_base n (b_offset (m_base a)) (Some (b_quadratic (m_base a)))) = a.
Proof. intros n a m (E1 & E2 & Hm & W). rewrite (new_base_same n) by auto. rewrite <- E1, <- E2. destruct a; auto. Qed.
Theorem watom_copied : forall n a m, watom_wf n a m -> watom_copy a = Ok a.
Proof.
  intros n a m (L & Hw & Hmd). pose proof (moded_same n _ m Hmd) as S. pose proof Hmd as (E1 & E2 & Hm & _). unfold watom_copy. rewrite E1, E2.
  rewrite (proj1 (new_watom_correct (w_class a) (w_weights a) m (b_offset (m_base (w_moded a))) (Some (b_quadratic (m_base (w_moded a)))) Hm) Hw). rewrite L, S. destruct a; auto.
Qed.
(** the documented function depends on class, weights, mode, offset and quadratic only *)
Theorem watom_interchange : forall n a b m m', watom_wf n a m -> watom_wf n b m' -> watom_eq a b = Ok true -> b_offset (m_base (w_moded a)) = b_offset (m_base (w_moded b)) ->
  b_quadratic (m_base (w_moded a)) = b_quadratic (m_base (w_moded b)) -> a = b.
Proof.
  intros n a b m m' Wa Wb E O Q. destruct (watom_equality n a b m m' Wa Wb) as (e & Ee & H). rewrite E in Ee. injection Ee as <-. destruct (proj1 H eq_refl) as (Hc & Hw & Hm). subst m'.
  destruct Wa as (_ & _ & Ma). destruct Wb as (_ & _ & Mb). pose proof (moded_same n _ m Ma) as Sa. pose proof (moded_same n _ m Mb) as Sb. rewrite <- O, <- Q in Sb. destruct a, b. cbn in *. subst. congruence.
Qed.
Theorem watom_eq_ignores : forall c w m o q o' q', watom_eq (mk_watom c w (mk_moded (lag_of m) (bnd_of m) (mk_base (length w) o q))) (mk_watom c w (mk_moded (lag_of m) (bnd_of m) (mk_base (length w) o' q'))) = Ok true.
Proof.
  intros c w m o q o' q'. unfold watom_eq. cbn [w_class w_weights w_moded]. rewrite (proj2 (wclass_eqb_spec c c) eq_refl). unfold np_all2. rewrite Nat.eqb_refl. cbn [rmap]. f_equal. apply andb_true_iff. split.
  - apply (mode_eqb_spec _ _ m m); auto.
  - apply (forallb_combine_eq _ ext_eqb ext_eqb_spec); auto.
Qed.
(** weights of different lengths: one weight counts as all of them, other lengths raise *)
Theorem watom_eq_lengths : forall c r n lam, 0 <= r -> 0 <= lam -> exists a b, new_watom c [Fin r] (Some lam) None None None = Ok a /\ new_watom c (repeat (Fin r) n) (Some lam) None None None = Ok b /\ watom_eq a b = Ok true /\ watom_eq b a = Ok true.
Proof.
  intros c r n lam Hr Hl. assert (W : forall k, Forall weight_legal (repeat (Fin r) k)) by (intros k; apply Forall_forall; intros x Hx; apply repeat_spec in Hx; subst; cbn; auto).
  pose proof (proj1 (new_watom_correct c [Fin r] (Lagrange lam) None None Hl) (W 1%nat)) as E1. pose proof (proj1 (new_watom_correct c (repeat (Fin r) n) (Lagrange lam) None None Hl) (W n)) as E2.
  eexists. eexists. split; [exact E1|]. split; [exact E2|]. unfold watom_eq. cbn [w_class w_weights w_moded]. rewrite (proj2 (wclass_eqb_spec c c) eq_refl).
  assert (T : ext_eqb (Fin r) (Fin r) = true) by (apply ext_eqb_spec; auto). unfold mode_eqb. cbn [m_bound m_lagrange bnd_of lag_of]. rewrite (proj2 (oeq_spec (Some lam) (Some lam)) eq_refl).
  assert (F1 : forallb (ext_eqb (Fin r)) (repeat (Fin r) n) = true). { apply forallb_forall. intros x Hx. apply repeat_spec in Hx. subst. auto. }
  assert (F2 : forallb (fun x => ext_eqb x (Fin r)) (repeat (Fin r) n) = true). { apply forallb_forall. intros x Hx. apply repeat_spec in Hx. subst. auto. }
  unfold np_all2. cbn [length]. rewrite repeat_length. destruct n as [|[|n]].
  - split; reflexivity.
  - cbn [Nat.eqb repeat combine forallb fst snd]. rewrite T. split; reflexivity.
  - change (Nat.eqb 1 (S (S n))) with false. change (Nat.eqb (S (S n)) 1) with false. cbv iota. rewrite F1. split; [reflexivity|]. destruct (repeat (Fin r) (S (S n))) as [|x [|y l]] eqn:ER; try discriminate. rewrite F2. reflexivity.
Qed.
Theorem watom_eq_raises : forall c v w m m', (2 <= length v)%nat -> (2 <= length w)%nat -> length v <> length w -> watom_eq (mk_watom c v m) (mk_watom c w m') = Err ValueError.
Proof.
  intros c v w m m' Hv Hw N. unfold watom_eq. cbn [w_class w_weights]. rewrite (proj2 (wclass_eqb_spec c c) eq_refl). unfold np_all2. apply Nat.eqb_neq in N. rewrite N.
  destruct v as [|x [|y v]]; cbn in Hv; try lia. destruct w as [|z [|t w]]; cbn in Hw; try lia. auto.
Qed.

(** slope *)
Theorem slope_eq_ignores : forall c v w m o q o' q', slope_eq (mk_slope c v (mk_moded (lag_of m) (bnd_of m) (mk_base (length v) o q))) (mk_slope c w (mk_moded (lag_of m) (bnd_of m) (mk_base (length w) o' q'))) = true.
Proof. intros c v w m o q o' q'. unfold slope_eq. cbn [s_class M_slope.s_moded]. apply andb_true_iff. split; [destruct c; auto|]. apply (mode_eqb_spec _ _ m m); auto. Qed.
Theorem slope_copied : forall n a m, slope_wf n a m -> slope_copy a = Ok a.
Proof.
  intros n a m (Hn & Hw & Hmd). pose proof (moded_same n _ m Hmd) as S. pose proof Hmd as (E1 & E2 & Hm & _). unfold slope_copy. rewrite E1, E2. rewrite (new_slope_ok _ n) by auto. rewrite S. destruct a; auto.
Qed.

(** mixed lasso *)
Theorem mlatom_equality : forall keys a b, (forall g, In g keys <-> ml_weights a g <> None \/ ml_weights b g <> None) ->
  (mlatom_eq keys a b = true <-> ml_dual a = ml_dual b /\ ml_labels a = ml_labels b /\ (forall g, ml_weights a g = ml_weights b g) /\ ml_par a = ml_par b).
Proof.
  intros keys a b K. unfold mlatom_eq. rewrite !andb_true_iff, zlist_eqb_spec, Bool.eqb_true_iff, Nat.eqb_eq, forallb_forall. split.
  - intros ((((H1 & H2) & H3) & H4) & H5). split; auto. split; auto. split; [|destruct (Req_EM_T (ml_par a) (ml_par b)); [auto|discriminate]].
    intros g. destruct (ml_weights a g) as [r|] eqn:Ea; [|destruct (ml_weights b g) as [s|] eqn:Eb; auto].
    + assert (Hg : In g keys) by (apply K; left; congruence). specialize (H4 g Hg). apply opt_eqb_spec in H4. congruence.
    + assert (Hg : In g keys) by (apply K; right; congruence). specialize (H4 g Hg). apply opt_eqb_spec in H4. congruence.
  - intros (H1 & H2 & H3 & H4). rewrite H2. repeat split; auto. { intros g _. apply opt_eqb_spec. auto. } destruct (Req_EM_T (ml_par a) (ml_par b)); auto.
Qed.
Theorem mlatom_copied : forall n a, mlatom_wf n a -> mlatom_copy (ml_ids a) a = a.
Proof. intros n a (L & _ & _ & W & _). unfold mlatom_copy. rewrite L, (new_base_same n) by auto. destruct a; auto. Qed.

(** simplex *)
Theorem simplex_equality : forall a b, simplex_eq a b = true <-> x_class a = x_class b /\ b_shape (x_base a) = b_shape (x_base b).
Proof. intros a b. unfold simplex_eq. rewrite andb_true_iff, Nat.eqb_eq. assert (simplexclass_eqb (x_class a) (x_class b) = true <-> x_class a = x_class b) by (destruct (x_class a), (x_class b); cbn; split; intros; congruence). tauto. Qed.
Theorem simplex_copied : forall n a, base_wf n (x_base a) -> simplex_copy a = a.
Proof. intros n a W. unfold simplex_copy. replace (b_shape (x_base a)) with n by (symmetry; apply W). rewrite (new_base_same n) by auto. destruct a; auto. Qed.

(** linear constraints *)
Definition near (r s : vec) : Prop := forall i, (i < length r)%nat -> Rabs (nth i s 0 - nth i r 0) <= / 10 ^ 8 + / 10 ^ 5 * Rabs (nth i r 0).
Lemma allclose_near : forall r s, length r = length s -> (allclose s r = true <-> near r s).
Proof.
  induction r as [|x r IH]; intros [|y s] L; try discriminate; [split; auto; intros _ i Hi; cbn in Hi; lia|].
  unfold allclose in *. cbn [combine map forallb fst snd]. rewrite andb_true_iff. rewrite IH by (cbn in L; lia). unfold near. split.
  - intros [H1 H2] [|i] Hi; cbn; [destruct (Rle_dec _ _) as [H|]; [exact H|discriminate]|]. apply H2. cbn in Hi. lia.
  - intros H. split; [pose proof (H 0%nat ltac:(cbn; lia)) as H0; cbn [nth] in H0; destruct (Rle_dec _ _) as [|N]; auto; contradiction|]. intros i Hi. apply (H (S i)). cbn. lia.
Qed.
Lemma near_refl : forall r, near r r.
Proof.
  intros r i Hi. rewrite Rminus_diag_eq by auto. rewrite Rabs_R0. assert (0 < / 10 ^ 8) by (apply Rinv_0_lt_compat; apply pow_lt; lra). assert (0 < / 10 ^ 5) by (apply Rinv_0_lt_compat; apply pow_lt; lra). pose proof (Rabs_pos (nth i r 0)). nra.
Qed.
Theorem lcon_equality : forall n a b, length (l_basis a) = length (l_basis b) -> Forall (fun r => length r = n) (l_basis a) -> Forall (fun r => length r = n) (l_basis b) ->
  exists e, lcon_eq a b = Ok e /\ (e = true <-> l_class a = l_class b /\ b_shape (l_base a) = b_shape (l_base b) /\
    forall i j, (i < length (l_basis a))%nat -> (j < n)%nat -> Rabs (nth j (nth i (l_basis b) []) 0 - nth j (nth i (l_basis a) []) 0) <= / 10 ^ 8 + / 10 ^ 5 * Rabs (nth j (nth i (l_basis a) []) 0)).
Proof.
  intros n a b L Fa Fb. unfold lcon_eq. destruct (lclass_eqb (l_class a) (l_class b)) eqn:Ec.
  2:{ exists false. split; auto. split; [discriminate|]. intros (H & _). rewrite H in Ec. destruct (l_class b); discriminate. }
  assert (Hc : l_class a = l_class b) by (destruct (l_class a), (l_class b); cbn in Ec; congruence).
  destruct (Nat.eqb (b_shape (l_base a)) (b_shape (l_base b))) eqn:Es.
  2:{ exists false. split; auto. split; [discriminate|]. intros (_ & H & _). apply Nat.eqb_neq in Es. contradiction. }
  apply Nat.eqb_eq in Es. unfold np_all2. rewrite L, Nat.eqb_refl. eexists. split; [reflexivity|]. rewrite <- L.
  assert (K : forall A B : list vec, length A = length B -> Forall (fun r => length r = n) A -> Forall (fun r => length r = n) B ->
    (forallb (fun p => allclose (snd p) (fst p)) (combine A B) = true <-> forall i j, (i < length A)%nat -> (j < n)%nat -> Rabs (nth j (nth i B []) 0 - nth j (nth i A []) 0) <= / 10 ^ 8 + / 10 ^ 5 * Rabs (nth j (nth i A []) 0))).
  { induction A as [|r A IH]; intros [|s B] LL FA FB; try discriminate; [split; auto; cbn; lia|]. inversion FA as [|? ? Hr FA']; subst. inversion FB as [|? ? Hs FB']; subst.
    cbn [combine forallb fst snd]. rewrite andb_true_iff, allclose_near by congruence. rewrite IH by (auto; cbn in LL; lia). split.
    - intros [H1 H2] [|i] j Hi Hj; cbn [nth]; [apply H1; lia|apply H2; cbn in Hi; lia].
    - intros H. split; [intros j Hj; apply (H 0%nat j); cbn; lia|intros i j Hi Hj; apply (H (S i) j); cbn; lia]. }
  rewrite K by auto. tauto.
Qed.
Theorem lcon_copied : forall n a, base_wf n (l_base a) -> lcon_copy a = a.
Proof. intros n a W. unfold lcon_copy, new_lcon. replace (b_shape (l_base a)) with n by (symmetry; apply W). rewrite (new_base_same n) by auto. destruct a; auto. Qed.
(** three lines in the plane *)
Definition plane_line (c s : R) : lcon := new_lcon LProjection 2 [[c; s]] None None.
Lemma line_eq : forall c s c' s', lcon_eq (plane_line c s) (plane_line c' s') = Ok (if Rle_dec (Rabs (c' - c)) (/ 10 ^ 8 + / 10 ^ 5 * Rabs c) then (if Rle_dec (Rabs (s' - s)) (/ 10 ^ 8 + / 10 ^ 5 * Rabs s) then true else false) else false).
Proof. intros. unfold lcon_eq, plane_line, new_lcon, np_all2, allclose. cbn. destruct (Rle_dec (Rabs (c' - c)) _), (Rle_dec (Rabs (s' - s)) _); auto. Qed.
Lemma line_orthonormal : forall c s, c * c + s * s = 1 -> orthonormal 2 [[c; s]].
Proof. intros c s H. split; intros i; [intros Hi; cbn in Hi; assert (i = 0)%nat by lia; subst; auto|]. intros j Hi Hj. cbn in Hi, Hj. assert (i = 0 /\ j = 0)%nat as [-> ->] by lia. cbn. unfold dot, vmul. cbn. lra. Qed.

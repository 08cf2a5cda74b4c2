(** Linear constraints: proofs. *)
From Coq Require Import Reals List Lra Lia Psatz Arith Bool.
From Verif Require Import M_affine P_affine P_affine2 Vec Spec SpecLoss M_quad M_prox M_semi M_shift SpecAtom SpecBase P_quad P_calc P_sep P_cv P_prox P_semi P_shift P_conj P_cones P_cox3 M_linear SpecLinear.
Import ListNotations.
Local Open Scope R_scope.

Lemma nth_vscal0 : forall c (x : vec) j, nth j (vscal c x) 0 = c * nth j x 0.
Proof. induction x as [|a x IH]; intros [|j]; cbn; auto; ring. Qed.
Section Basis.
Variables (n : nat) (B : list vec).
Hypothesis O : orthonormal n B.
Lemma rows_length : Forall (fun r => length r = n) B.
Proof. apply Forall_forall. intros r I. apply (In_nth _ _ []) in I. destruct I as (i & Hi & <-). apply O. auto. Qed.
Lemma nth_mat_vec : forall x i, (i < length B)%nat -> nth i (mat_vec B x) 0 = dot (row B i) x.
Proof. intros x i Hi. unfold mat_vec. rewrite (nth_indep _ 0 ((fun r => dot r x) [])) by (rewrite map_length; auto). rewrite (map_nth (fun r => dot r x)). auto. Qed.
Lemma mv_length : forall x, length (mat_vec B x) = length B.
Proof. intros. apply map_length. Qed.
Lemma onto_length : forall x, length x = n -> length (onto_rows B x) = n.
Proof. intros x Lx. unfold onto_rows. rewrite Lx. apply P_affine.mat_tvec_length, rows_length. Qed.
Lemma nth_tvec : forall D u j, Forall (fun r => length r = n) D -> length u = length D -> (j < n)%nat -> nth j (mat_tvec n D u) 0 = sum_over (length D) (fun i => nth i u 0 * nth j (row D i) 0).
Proof.
  intros D u j F. revert u. induction F as [|r D Lr F IH]; intros [|a u] Lu Hj; try discriminate; cbn [mat_tvec length].
  - unfold sum_over. cbn. apply nth_zeros.
  - assert (Lt := P_affine.mat_tvec_length n D u F). unfold vadd. rewrite (nth_zip0 _ _ _ n) by (auto; unfold vscal; rewrite map_length; auto).
    rewrite nth_vscal0, IH by (auto; cbn in Lu; lia). unfold sum_over at 2. cbn [seq map]. unfold vsum. cbn [fold_right]. unfold row at 2. cbn [nth]. f_equal. rewrite <- seq_shift, map_map. reflexivity.
Qed.
Lemma tvec_in : forall u, length u = length B -> in_rows n B (mat_tvec n B u).
Proof. intros u Lu. split; [apply P_affine.mat_tvec_length, rows_length|]. exists (fun i => nth i u 0). intros j Hj. apply nth_tvec; auto. apply rows_length. Qed.
Lemma in_tvec : forall x, in_rows n B x -> exists u, length u = length B /\ x = mat_tvec n B u.
Proof.
  intros x (Lx & a & H). exists (map a (seq 0 (length B))). split; [rewrite map_length, seq_length; auto|]. apply (nth_ext _ _ 0 0); [rewrite P_affine.mat_tvec_length by apply rows_length; auto|]. intros j Hj. rewrite Lx in Hj.
  rewrite nth_tvec by (first [apply rows_length|rewrite map_length, seq_length; auto|auto]). rewrite H by auto. apply sum_over_ext. intros i Hi. rewrite nth_seq_map by auto. auto.
Qed.
Lemma mv_tvec : forall u, length u = length B -> mat_vec B (mat_tvec n B u) = u.
Proof.
  intros u Lu. apply (nth_ext _ _ 0 0); [rewrite mv_length; auto|]. intros i Hi. rewrite mv_length in Hi. rewrite nth_mat_vec by auto.
  assert (E := mat_adjoint n B (row B i) u rows_length (proj1 O i Hi) Lu). rewrite <- E. rewrite (dot_index (length B)) by (auto; apply mv_length).
  rewrite (sum_over_ext _ _ (fun j => if Nat.eq_dec j i then nth j u 0 else 0)).
  - rewrite (sum_over_single _ i) by (auto; intros m Hm N; destruct (Nat.eq_dec m i); congruence). destruct (Nat.eq_dec i i); congruence.
  - intros j Hj. rewrite nth_mat_vec by auto. rewrite (proj2 O j i Hj Hi). destruct (Nat.eq_dec j i); ring.
Qed.
Lemma onto_in : forall x, length x = n -> in_rows n B (onto_rows B x).
Proof. intros x Lx. unfold onto_rows. rewrite Lx. apply tvec_in, mv_length. Qed.
Lemma onto_self : forall x, in_rows n B x -> onto_rows B x = x.
Proof. intros x I. assert (Lx := proj1 I). destruct (in_tvec x I) as (u & Lu & ->). unfold onto_rows. rewrite Lx, mv_tvec; auto. Qed.
Lemma residual_off : forall x, length x = n -> off_rows n B (vsub x (onto_rows B x)).
Proof.
  intros x Lx. assert (Lo := onto_length x Lx). split; [unfold vsub; rewrite vzip_length; congruence|]. intros i Hi. rewrite <- nth_mat_vec by auto.
  assert (Lr := proj1 O i Hi). rewrite nth_mat_vec by auto. rewrite dot_sub_r by congruence. rewrite <- !nth_mat_vec by auto. unfold onto_rows. rewrite Lx, mv_tvec by apply mv_length. ring.
Qed.
Lemma orth : forall v w, in_rows n B v -> off_rows n B w -> dot v w = 0.
Proof.
  intros v w I (Lw & H). destruct (in_tvec v I) as (u & Lu & ->). rewrite dot_comm, <- (mat_adjoint n) by (auto; apply rows_length). rewrite (dot_index (length B)) by (auto; apply mv_length).
  apply P_cox2.sum_over_0. intros i Hi. rewrite nth_mat_vec, H by auto. ring.
Qed.
Lemma off_onto : forall x, off_rows n B x -> onto_rows B x = zeros n.
Proof.
  intros x Ho. assert (Lx := proj1 Ho). assert (I := onto_in x Lx). assert (E : sqn (onto_rows B x) = 0).
  { assert (R := residual_off x Lx). assert (E1 := orth _ _ I Ho). assert (E2 := orth _ _ I R). rewrite dot_sub_r in E2 by (rewrite ?onto_length; congruence). unfold sqn. lra. }
  apply sqn_eq_zero in E. rewrite onto_length in E; auto.
Qed.
Lemma rows_sub : forall x y, in_rows n B x -> in_rows n B y -> in_rows n B (vsub x y).
Proof.
  intros x y (Lx & a & Ha) (Ly & b & Hb). split; [unfold vsub; rewrite vzip_length; congruence|]. exists (fun i => a i - b i). intros j Hj. unfold vsub. rewrite (nth_zip0 _ _ _ n) by auto. rewrite Ha, Hb by auto.
  rewrite (sum_over_ext _ (fun i => (a i - b i) * nth j (row B i) 0) (fun i => a i * nth j (row B i) 0 + (-1) * (b i * nth j (row B i) 0))) by (intros; ring). rewrite sum_over_plus, sum_over_scal. ring.
Qed.
Lemma off_sub : forall x y, off_rows n B x -> off_rows n B y -> off_rows n B (vsub x y).
Proof. intros x y (Lx & a) (Ly & b). split; [unfold vsub; rewrite vzip_length; congruence|]. intros i Hi. rewrite dot_sub_r by (rewrite ?(proj1 O i Hi); congruence). rewrite a, b by auto. ring. Qed.
Lemma pythagoras : forall (S : vec -> Prop) x p, length x = n -> S p -> length p = n -> (forall v, S v -> length v = n) -> (forall v, S v -> dot (vsub x p) (vsub p v) = 0) -> is_proj n S x p.
Proof.
  intros S x p Lx Sp Lp SL H. split; auto. split; auto. intros v Lv Sv. assert (E : sqn (vsub x v) = sqn (vsub x p) + sqn (vsub p v)).
  { assert (D := H v Sv). replace (vsub x v) with (vadd (vsub x p) (vsub p v)).
    - rewrite sqn_add by (unfold vsub; rewrite !vzip_length; congruence). rewrite D. ring.
    - apply (nth_ext _ _ 0 0); [unfold vadd, vsub; rewrite !vzip_length; rewrite ?vzip_length; congruence|]. intros i Hi. unfold vadd, vsub in *. rewrite vzip_length in Hi by (rewrite !vzip_length; congruence). rewrite vzip_length in Hi by congruence.
      rewrite !(nth_zip0 _ _ _ n) by (rewrite ?vzip_length; auto; try congruence; lia). ring. }
  assert (P := sqn_nonneg (vsub p v)). split; [lra|]. intros Q. symmetry. apply (vsub_eq_zero p v); [congruence|]. lra.
Qed.
Theorem prox_projects : forall k x, length x = n -> is_proj n (subspace n B k) x (lcon_prox k B x).
Proof.
  intros k x Lx. assert (Lo := onto_length x Lx). assert (I := onto_in x Lx). assert (R := residual_off x Lx). destruct k; cbn [subspace lcon_prox].
  - apply pythagoras; auto; [intros v Sv; apply Sv|]. intros v Sv. rewrite dot_comm. apply orth; auto. apply rows_sub; auto.
  - apply pythagoras; auto; [apply R|intros v Sv; apply Sv|]. intros v Sv. replace (vsub x (vsub x (onto_rows B x))) with (onto_rows B x); [apply orth; auto; apply off_sub; auto|].
    apply (nth_ext _ _ 0 0); [unfold vsub; rewrite !vzip_length; rewrite ?vzip_length; congruence|]. intros i Hi. rewrite Lo in Hi. unfold vsub. rewrite !(nth_zip0 _ _ _ n) by (rewrite ?vzip_length; auto; congruence). ring.
Qed.
End Basis.
Lemma indic_argmin : forall n L x (S : vec -> Prop) h p, 0 < L -> length x = n -> indicates n S h -> is_proj n S x p -> is_unique_argmin n (prox_objective L x h) p.
Proof.
  intros n L x S h p HL Hx Hh (Hp & HS & H). unfold prox_objective. assert (Ep := proj1 (Hh p Hp) HS). split; [split; [auto|split]|].
  - rewrite Ep. simpl. eauto.
  - intros v Hv. rewrite Ep. destruct (Classical_Prop.classic (S v)) as [I|I]; [rewrite (proj1 (Hh v Hv) I)|rewrite (proj2 (Hh v Hv) I)]; simpl; auto. destruct (H v Hv I) as [H1 _]. nra.
  - intros v Hv. rewrite Ep. destruct (Classical_Prop.classic (S v)) as [I|I]; [rewrite (proj1 (Hh v Hv) I)|rewrite (proj2 (Hh v Hv) I)]; simpl; [|tauto]. intros Hle. destruct (H v Hv I) as [H1 H2]. apply H2. nra.
Qed.
Theorem lcon_proximal_ok : forall n k B g p h, orthonormal n B -> base_wf n g -> q_shape n p -> 0 < coef (b_quadratic g) + coef p -> some_array g p -> indicates n (subspace n B k) h ->
  exists v, lcon_proximal (mk_lcon k B g) (AQuad p) = Ok v /\ prox_spec n h g p v.
Proof.
  intros n k B g p h O W Q P A Hh. apply shifted_prox_correct; auto. intros x Lx. eexists. split; [reflexivity|]. apply (indic_argmin n _ x (subspace n B k)); auto. apply prox_projects; auto.
Qed.
Lemma zeros_in : forall n k B, orthonormal n B -> subspace n B k (zeros n).
Proof.
  intros n k B O. assert (Lz : length (zeros n) = n) by (unfold zeros, const_vec; apply repeat_length). destruct k; cbn; split; auto.
  - exists (fun _ => 0). intros j Hj. rewrite nth_zeros. symmetry. apply P_cox2.sum_over_0. intros; ring.
  - intros i Hi. apply dot_zeros_r.
Qed.
Lemma sub_scal : forall n k B t x, subspace n B k x -> subspace n B k (vscal t x).
Proof.
  intros n [|] B t x; cbn.
  - intros (L & a & H). split; [unfold vscal; rewrite map_length; auto|]. exists (fun i => t * a i). intros j Hj. rewrite nth_vscal0, H by auto. rewrite <- sum_over_scal. apply sum_over_ext. intros; ring.
  - intros (L & H). split; [unfold vscal; rewrite map_length; auto|]. intros i Hi. rewrite dot_comm. rewrite dot_scal_l. rewrite dot_comm, H by auto. ring.
Qed.
Lemma sub_orth : forall n k B x y, orthonormal n B -> subspace n B k x -> subspace n B (other_class k) y -> dot x y = 0.
Proof. intros n [|] B x y O; cbn; intros; [apply (orth n B); auto|rewrite dot_comm; apply (orth n B); auto]. Qed.
Lemma split_sum : forall n B x, orthonormal n B -> length x = n -> forall k, vadd (lcon_prox k B x) (lcon_prox (other_class k) B x) = x.
Proof.
  intros n B x O Lx k. assert (Lo := onto_length n B O x Lx). assert (E : length (vadd (lcon_prox k B x) (lcon_prox (other_class k) B x)) = n) by (destruct k; cbn; unfold vadd, vsub; rewrite !vzip_length; rewrite ?vzip_length; congruence).
  apply (nth_ext _ _ 0 0); [congruence|]. intros i Hi. rewrite E in Hi. destruct k; cbn; unfold vadd, vsub; rewrite !(nth_zip0 _ _ _ n) by (rewrite ?vzip_length; auto; congruence); ring.
Qed.
Lemma lin_fenchel : forall n k B h h' u, orthonormal n B -> indicates n (subspace n B k) h -> indicates n (subspace n B (other_class k)) h' -> length u = n -> is_fenchel n h u (h' u).
Proof.
  intros n k B h h' u O Hh Hh' Lu. assert (Fi : forall x r, length x = n -> h x = Fin r -> subspace n B k x /\ r = 0).
  { intros x r Lx E. destruct (Classical_Prop.classic (subspace n B k x)) as [I|I]; [rewrite (proj1 (Hh x Lx) I) in E; injection E as <-; auto|rewrite (proj2 (Hh x Lx) I) in E; discriminate]. }
  destruct (Classical_Prop.classic (subspace n B (other_class k) u)) as [I|I].
  - rewrite (proj1 (Hh' u Lu) I). split.
    + intros x r Lx E. destruct (Fi x r Lx E) as [Sx ->]. rewrite dot_comm, (sub_orth n k B x u O Sx I). lra.
    + intros e He. assert (Lz : length (zeros n) = n) by (unfold zeros, const_vec; apply repeat_length). exists (zeros n), 0. split; auto. split; [apply (Hh (zeros n) Lz), zeros_in; auto|]. rewrite dot_zeros_r. lra.
  - rewrite (proj2 (Hh' u Lu) I). destruct (prox_projects n B O k u Lu) as (Lp & Sp & _). destruct (prox_projects n B O (other_class k) u Lu) as (Lq & Sq & _). assert (E := split_sum n B u O Lu k). set (p := lcon_prox k B u) in *. set (q := lcon_prox (other_class k) B u) in *.
    apply ray_unbounded with (x := p) (rho := 0) (slope := sqn p); auto.
    + intros t Ht. exists 0. split; [|lra]. apply (Hh (vscal t p)); [unfold vscal; rewrite map_length; auto|]. apply sub_scal; auto.
    + rewrite <- E, dot_add_l by congruence. rewrite (dot_comm q p), (sub_orth n k B p q O Sp Sq). unfold sqn. lra.
    + assert (P := sqn_nonneg p). destruct (Req_dec (sqn p) 0) as [Z|Z]; [|lra]. exfalso. apply I. apply sqn_eq_zero in Z. rewrite Lp in Z. rewrite <- E, Z. rewrite vadd_comm, vadd_zeros_r; auto.
Qed.
Theorem lcon_conjugate_ok : forall n k B g h h', orthonormal n B -> base_wf n g -> coef (b_quadratic g) = 0 -> indicates n (subspace n B k) h -> indicates n (subspace n B (other_class k)) h' ->
  exists d, lcon_conjugate (mk_lcon k B g) = LCon (mk_lcon (other_class k) B d) /\ base_wf n d /\ (forall u, length u = n -> is_fenchel n (base_doc n h g) u (base_doc n h' d u)) /\
  exists e, lcon_conjugate (mk_lcon (other_class k) B d) = LCon (mk_lcon k B e) /\ base_wf n e /\ forall v, length v = n -> base_doc n h e v = base_doc n h g v.
Proof.
  intros n k B g h h' O W C Hh Hh'. destruct (conjugate_base_fenchel n h h' g W C) as (d & E & Wd & F); [intros u Lu; apply (lin_fenchel n k B); auto|].
  destruct (conjugate_base_twice n h g W C) as (d' & e & E1 & E2 & We & H). assert (d' = d) by congruence. subst d'. exists d. unfold lcon_conjugate. cbn [l_class l_base l_basis]. rewrite E. split; auto. split; auto. split; auto. exists e. rewrite E2. split; [destruct k; auto|]. auto.
Qed.
(** ** The feasibility tests *)
Lemma quotient_test : forall a m, a / Rmax m 1 < tol <-> a < tol * Rmax m 1.
Proof.
  intros a m. assert (P : 0 < Rmax m 1) by (eapply Rlt_le_trans; [|apply Rmax_r]; lra). split; intros H.
  - apply (Rmult_lt_compat_r (Rmax m 1)) in H; auto. unfold Rdiv in H. rewrite Rmult_assoc, Rinv_l, Rmult_1_r in H by lra. auto.
  - apply (Rmult_lt_reg_r (Rmax m 1)); auto. unfold Rdiv. rewrite Rmult_assoc, Rinv_l, Rmult_1_r by lra. auto.
Qed.
Theorem rows_test : forall n B x, orthonormal n B -> length x = n -> forall k,
  lcon_constraint k B x = Fin 0 <-> exists v, in_rows n B v /\ norm (vsub x v) < tol * Rmax (norm x) 1.
Proof.
  intros n B x O Lx k. assert (E : lcon_constraint k B x = if Rlt_dec (norm (vsub x (onto_rows B x)) / Rmax (norm x) 1) tol then Fin 0 else PInf) by (destruct k; reflexivity). rewrite E. split.
  - destruct (Rlt_dec _ _) as [H|]; [|discriminate]. intros _. apply quotient_test in H. exists (onto_rows B x). split; auto. apply onto_in; auto.
  - intros (v & Iv & H). destruct (Rlt_dec _ _) as [|N]; auto. exfalso. apply N. apply quotient_test. eapply Rle_lt_trans; [|exact H]. destruct (prox_projects n B O LProjection x Lx) as (_ & _ & P). destruct (P v (proj1 Iv) Iv) as [P1 _]. unfold norm. apply sqrt_le_1_alt. exact P1.
Qed.
Theorem test_total : forall k B x, lcon_constraint k B x = Fin 0 \/ lcon_constraint k B x = PInf.
Proof. intros. unfold lcon_constraint. destruct (Rlt_dec _ _); auto. Qed.
Theorem complement_inverted : forall n B x, orthonormal n B -> length x = n -> (in_rows n B x -> lcon_constraint LComplement B x = Fin 0) /\ (off_rows n B x -> tol <= norm x -> lcon_constraint LComplement B x = PInf).
Proof.
  intros n B x O Lx. split.
  - intros I. apply (rows_test n); auto. exists x. split; auto. rewrite vsub_self. rewrite norm_zeros. assert (P : 0 < Rmax (norm x) 1) by (eapply Rlt_le_trans; [|apply Rmax_r]; lra). unfold tol. assert (0 < / 10 ^ 5) by (apply Rinv_0_lt_compat, pow_lt; lra). nra.
  - intros I H. destruct (test_total LComplement B x) as [E|]; auto. exfalso. unfold lcon_constraint in E. cbn [lcon_prox] in E. rewrite (off_onto n B O x I) in E. rewrite vsub_zeros_r in E by auto. destruct (Rlt_dec _ _) as [C|]; [|discriminate]. apply quotient_test in C.
    unfold Rmax in C. destruct (Rle_dec (norm x) 1) as [L|L]; [lra|]. assert (tol < 1). { unfold tol. rewrite <- Rinv_1. apply Rinv_lt_contravar; [lra|]. lra. } nra.
Qed.

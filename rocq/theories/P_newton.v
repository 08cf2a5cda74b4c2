(** BFGS updates. *)
From Coq Require Import Reals List Lra Lia Arith Bool.
From Verif Require Import M_affine SpecAffine P_affine M_loss SpecLoss M_smooth SpecSmooth P_smooth Vec Spec SpecConvex M_quad P_quad P_calc M_fista M_problem SpecNewton M_newton.
Import ListNotations.
Local Open Scope R_scope.

Ltac lc := unfold vec in *; first [congruence|lia].
(** ** Matrix algebra *)
Lemma mat_zip_length : forall f A B, length A = length B -> length (mat_zip f A B) = length A.
Proof. intros f. induction A as [|a A IH]; intros [|b B] L; cbn in *; auto; try discriminate. Qed.
Lemma nth_mat_zip : forall f A B i, length A = length B -> (i < length A)%nat -> nth i (mat_zip f A B) [] = f (nth i A []) (nth i B []).
Proof. intros f. induction A as [|a A IH]; intros [|b B] [|i] L Hi; cbn in *; try lia; auto. apply IH; lia. Qed.
Lemma square_zip : forall (f : vec -> vec -> vec) n A B, (forall x y, length x = n -> length y = n -> length (f x y) = n) -> square n A -> square n B -> square n (mat_zip f A B).
Proof.
  intros f n A B Hf (LA & FA) (LB & FB). split; [rewrite mat_zip_length; lc|]. assert (L : length A = length B) by lc. clear LA LB. revert B FB L. induction A as [|a A IH]; intros [|b B] FB L; cbn; auto; try discriminate.
  constructor; [apply Hf; [exact (Forall_inv FA)|exact (Forall_inv FB)]|]. apply IH; [exact (Forall_inv_tail FA)|exact (Forall_inv_tail FB)|]. injection L; auto.
Qed.
Lemma square_add : forall n A B, square n A -> square n B -> square n (mat_add A B).
Proof. intros n A B. apply square_zip. intros. rewrite vadd_length; lc. Qed.
Lemma square_sub : forall n A B, square n A -> square n B -> square n (mat_sub A B).
Proof. intros n A B. apply square_zip. intros. rewrite vsub_length; lc. Qed.
Lemma square_scal : forall n c A, square n A -> square n (mat_scal c A).
Proof. intros n c A (L & F). split; [unfold mat_scal; rewrite map_length; auto|]. unfold mat_scal. apply Forall_map. eapply Forall_impl; [|exact F]. cbn. intros. rewrite vscal_length. auto. Qed.
Lemma square_outer : forall n y z, length y = n -> length z = n -> square n (outer y z).
Proof. intros n y z Ly Lz. split; [unfold outer; rewrite map_length; auto|]. unfold outer. apply Forall_map. apply Forall_forall. intros. rewrite vscal_length. auto. Qed.
Lemma row_length : forall n A i, square n A -> (i < n)%nat -> length (nth i A []) = n.
Proof. intros n A i (L & F) Hi. rewrite Forall_forall in F. apply F. apply nth_In. lia. Qed.
Lemma entry_add : forall n A B i j, square n A -> square n B -> (i < n)%nat -> (j < n)%nat -> entry (mat_add A B) i j = entry A i j + entry B i j.
Proof.
  intros n A B i j SA SB Hi Hj. unfold entry, mat_add. destruct SA as [LA FA] eqn:EA; clear EA. destruct SB as [LB FB] eqn:EB; clear EB. rewrite nth_mat_zip by lc. unfold vadd. rewrite (Vec.nth_vzip _ _ _ _ 0 0); auto; rewrite !(row_length n) by (auto; split; auto); auto.
Qed.
Lemma entry_sub : forall n A B i j, square n A -> square n B -> (i < n)%nat -> (j < n)%nat -> entry (mat_sub A B) i j = entry A i j - entry B i j.
Proof.
  intros n A B i j SA SB Hi Hj. unfold entry, mat_sub. destruct SA as [LA FA] eqn:EA; clear EA. destruct SB as [LB FB] eqn:EB; clear EB. rewrite nth_mat_zip by lc. unfold vsub. rewrite (Vec.nth_vzip _ _ _ _ 0 0); auto; rewrite !(row_length n) by (auto; split; auto); auto.
Qed.
Lemma entry_scal : forall n c A i j, square n A -> (i < n)%nat -> (j < n)%nat -> entry (mat_scal c A) i j = c * entry A i j.
Proof.
  intros n c A i j S Hi Hj. unfold entry, mat_scal. change (@nil R) with (vscal c []) at 1. rewrite map_nth. unfold vscal. rewrite (nth_map_R (Rmult c) _ _ 0 0); auto. rewrite (row_length n); auto.
Qed.
Lemma entry_outer : forall n y z i j, length y = n -> length z = n -> (i < n)%nat -> (j < n)%nat -> entry (outer y z) i j = nth i y 0 * nth j z 0.
Proof.
  intros n y z i j Ly Lz Hi Hj. unfold entry, outer. rewrite (nth_indep _ [] (vscal 0 z)) by (rewrite map_length; lc). rewrite (map_nth (fun a => vscal a z)). unfold vscal. rewrite (nth_map_R _ _ _ 0 0); auto. lia.
Qed.
Lemma symmetric_add : forall n A B, symmetric n A -> symmetric n B -> symmetric n (mat_add A B).
Proof. intros n A B (SA & EA) (SB & EB). split; [apply square_add; auto|]. intros i j Hi Hj. rewrite !(entry_add n) by auto. rewrite EA, EB; auto. Qed.
Lemma symmetric_sub : forall n A B, symmetric n A -> symmetric n B -> symmetric n (mat_sub A B).
Proof. intros n A B (SA & EA) (SB & EB). split; [apply square_sub; auto|]. intros i j Hi Hj. rewrite !(entry_sub n) by auto. rewrite EA, EB; auto. Qed.
Lemma symmetric_scal : forall n c A, symmetric n A -> symmetric n (mat_scal c A).
Proof. intros n c A (SA & EA). split; [apply square_scal; auto|]. intros i j Hi Hj. rewrite !(entry_scal n) by auto. rewrite EA; auto. Qed.
Lemma symmetric_outer : forall n y, length y = n -> symmetric n (outer y y).
Proof. intros n y L. split; [apply square_outer; auto|]. intros i j Hi Hj. rewrite !(entry_outer n) by auto. ring. Qed.

Lemma mat_vec_length : forall A x, length (mat_vec A x) = length A.
Proof. intros. unfold mat_vec. apply map_length. Qed.
Lemma mat_vec_zip : forall (f : vec -> vec -> vec) (g : R -> R -> R) n x, length x = n -> (forall a b, length a = n -> length b = n -> dot (f a b) x = g (dot a x) (dot b x)) ->
  forall A B, Forall (fun r => length r = n) A -> Forall (fun r => length r = n) B -> length A = length B -> mat_vec (mat_zip f A B) x = vzip g (mat_vec A x) (mat_vec B x).
Proof.
  intros f g n x Lx Hf. induction A as [|a A IH]; intros [|b B] FA FB L; try discriminate; auto.
  change (dot (f a b) x :: mat_vec (mat_zip f A B) x = g (dot a x) (dot b x) :: vzip g (mat_vec A x) (mat_vec B x)). f_equal; [apply Hf; [exact (Forall_inv FA)|exact (Forall_inv FB)]|]. apply IH; [exact (Forall_inv_tail FA)|exact (Forall_inv_tail FB)|injection L; auto].
Qed.
Lemma mat_vec_add : forall n A B x, square n A -> square n B -> length x = n -> mat_vec (mat_add A B) x = vadd (mat_vec A x) (mat_vec B x).
Proof. intros n A B x (LA & FA) (LB & FB) Lx. apply (mat_vec_zip _ _ n); auto; [|exact (eq_trans LA (eq_sym LB))]. intros. apply dot_add_l; lc. Qed.
Lemma mat_vec_sub : forall n A B x, square n A -> square n B -> length x = n -> mat_vec (mat_sub A B) x = vsub (mat_vec A x) (mat_vec B x).
Proof. intros n A B x (LA & FA) (LB & FB) Lx. apply (mat_vec_zip _ _ n); auto; [|exact (eq_trans LA (eq_sym LB))]. intros. apply dot_sub_l; lc. Qed.
Lemma mat_vec_scal : forall c A x, mat_vec (mat_scal c A) x = vscal c (mat_vec A x).
Proof. intros. unfold mat_vec, mat_scal, vscal at 2. rewrite !map_map. apply map_ext. intros. apply dot_scal_l. Qed.
Lemma mat_vec_outer : forall y z x, mat_vec (outer y z) x = vscal (dot z x) y.
Proof. intros. unfold mat_vec, outer, vscal at 2. rewrite map_map. apply map_ext. intros. rewrite dot_scal_l. ring. Qed.
Lemma nth_mat_tvec : forall n D u j, Forall (fun r => length r = n) D -> length u = length D -> (j < n)%nat -> nth j (mat_tvec n D u) 0 = dot (map (fun r => nth j r 0) D) u.
Proof.
  intros n. induction D as [|r D IH]; intros [|a u] j F L Hj; try discriminate; cbn [mat_tvec map]; [rewrite P_affine.nth_zeros, dot_nil_l; auto|].
  assert (Lr := Forall_inv F). apply Forall_inv_tail in F. cbn beta in Lr. cbn in L. unfold vadd. rewrite (Vec.nth_vzip _ _ _ _ 0 0) by (rewrite ?vscal_length, ?(mat_tvec_length n) by auto; lia).
  unfold vscal. rewrite (nth_map_R _ _ _ 0 0) by lia. rewrite dot_cons, IH by (auto; lia). ring.
Qed.
Lemma symmetric_tvec : forall n A u, symmetric n A -> length u = n -> mat_tvec n A u = mat_vec A u.
Proof.
  intros n A u ((LA & FA) & E) Lu. assert (L1 : length (mat_tvec n A u) = n) by (apply mat_tvec_length; auto). apply nth_ext_R; [rewrite mat_vec_length; lc|]. intros j Hj. rewrite L1 in Hj.
  rewrite nth_mat_tvec by (auto; lc). unfold mat_vec. rewrite (nth_indep (map _ A) 0 (dot [] u)) by (rewrite map_length; lc). rewrite (map_nth (fun r => dot r u)). f_equal.
  assert (Lr : length (nth j A []) = n) by (apply row_length; [split; auto|auto]). apply nth_ext_R; [rewrite map_length; lc|]. intros i Hi. rewrite map_length in Hi. assert (Hi' : (i < n)%nat) by lc. clear Hi. rename Hi' into Hi.
  rewrite (nth_indep (map _ A) 0 (nth j [] 0)) by (rewrite map_length; lc). rewrite (map_nth (fun r => nth j r 0)). apply (E i j); auto.
Qed.
Lemma symmetric_dot : forall n A x y, symmetric n A -> length x = n -> length y = n -> dot (mat_vec A x) y = dot x (mat_vec A y).
Proof. intros n A x y S Lx Ly. rewrite (mat_adjoint n) by (auto; try apply (proj1 S); destruct S as ((? & ?) & _); lc). rewrite symmetric_tvec; auto. Qed.
Lemma mat_linear_add : forall n A x y, square n A -> length x = n -> length y = n -> mat_vec A (vadd x y) = vadd (mat_vec A x) (mat_vec A y).
Proof.
  intros n A x y (_ & F) Lx Ly. induction A as [|r A IH]; auto. change (dot r (vadd x y) :: mat_vec A (vadd x y) = (dot r x + dot r y) :: vadd (mat_vec A x) (mat_vec A y)).
  pose proof (Forall_inv F) as E. f_equal; [apply dot_add_r; lc|apply IH; exact (Forall_inv_tail F)].
Qed.
Lemma mat_linear_scal : forall A c x, mat_vec A (vscal c x) = vscal c (mat_vec A x).
Proof. intros. unfold mat_vec, vscal at 2. rewrite map_map. apply map_ext. intros. apply dot_scal_r. Qed.
Lemma symmetric_is_map : forall n A, symmetric n A -> symmetric_map n (mat_vec A).
Proof.
  intros n A S. destruct S as (Q & E) eqn:ES; clear ES. split; [intros; rewrite mat_vec_length; apply Q|]. split; [intros; apply (mat_linear_add n); auto|]. split; [intros; apply mat_linear_scal|]. intros. apply (symmetric_dot n); auto.
Qed.
Lemma form_line : forall n A d s t, symmetric n A -> length d = n -> length s = n -> form A (vadd d (vscal t s)) = form A d + 2 * t * dot s (mat_vec A d) + t * t * form A s.
Proof.
  intros n A d s t S Ld Ls. assert (Q := proj1 S). assert (LA := proj1 Q). unfold form. rewrite (mat_linear_add n) by (auto; rewrite vscal_length; auto). rewrite mat_linear_scal.
  rewrite !dot_add_l, !dot_add_r by (rewrite ?vadd_length, ?vscal_length, ?mat_vec_length; rewrite ?vscal_length, ?mat_vec_length; lc). rewrite !dot_scal_l, !dot_scal_r.
  rewrite <- (symmetric_dot n A d s) by auto. rewrite (dot_comm (mat_vec A d) s). ring.
Qed.
Lemma pd_form_nonneg : forall n A d, positive_definite n A -> length d = n -> 0 <= form A d.
Proof.
  intros n A d (S & P) L. destruct (list_eq_dec Req_EM_T d (zeros n)) as [->|N]; [|left; auto]. unfold form. rewrite dot_zeros_l. lra.
Qed.
(** ** The update *)
Lemma update_ok : forall n H x0 x1 g0 g1 H', square n H -> length x0 = n -> length x1 = n -> length g0 = n -> length g1 = n -> update_hessian H x0 x1 g0 g1 = Ok H' ->
  let y := vsub g1 g0 in let s := vsub x1 x0 in dot y s <> 0 /\ form H s <> 0 /\ (symmetric n H -> symmetric n H') /\
  forall d, length d = n -> mat_vec H' d = vadd (mat_vec H d) (vsub (vscal (dot y d / dot y s) y) (vscal (dot (mat_vec H s) d / form H s) (mat_vec H s))).
Proof.
  intros n H x0 x1 g0 g1 H' Q L0 L1 M0 M1 E. cbv zeta. unfold update_hessian in E. set (y := vsub g1 g0) in *. set (s := vsub x1 x0) in *.
  assert (Ly : length y = n) by (unfold y; rewrite vsub_length; lc). assert (Ls : length s = n) by (unfold s; rewrite vsub_length; lc). assert (LB : length (mat_vec H s) = n) by (rewrite mat_vec_length; apply Q).
  destruct (Rlt_dec _ _); [discriminate|]. destruct (Req_EM_T (dot y s) 0) as [|N1]; [discriminate|]. destruct (Req_EM_T (dot s _) 0) as [|N2]; [discriminate|]. apply Ok_inj in E. subst H'.
  split; auto. split; auto. split.
  - intros S. apply symmetric_add; auto. apply symmetric_sub; apply symmetric_scal; apply symmetric_outer; auto.
  - intros d Ld. assert (Q1 := square_outer n y y Ly Ly). assert (Q2 := square_outer n _ _ LB LB).
    rewrite (mat_vec_add n) by (auto; apply square_sub; apply square_scal; auto). rewrite (mat_vec_sub n) by (auto; apply square_scal; auto). rewrite !mat_vec_scal, !mat_vec_outer, !vscal_vscal. f_equal. f_equal; f_equal; unfold form; field; auto.
Qed.
Lemma form_update : forall n H x0 x1 g0 g1 H', symmetric n H -> length x0 = n -> length x1 = n -> length g0 = n -> length g1 = n -> update_hessian H x0 x1 g0 g1 = Ok H' ->
  let y := vsub g1 g0 in let s := vsub x1 x0 in forall d, length d = n -> form H' d = form H d - dot s (mat_vec H d) * dot s (mat_vec H d) / form H s + dot y d * dot y d / dot y s.
Proof.
  intros n H x0 x1 g0 g1 H' S L0 L1 M0 M1 E y s d Ld. destruct (update_ok n H x0 x1 g0 g1 H' (proj1 S) L0 L1 M0 M1 E) as (N1 & N2 & _ & V). fold y s in N1, N2, V.
  assert (Ly : length y = n) by (unfold y; rewrite vsub_length; lc). assert (Ls : length s = n) by (unfold s; rewrite vsub_length; lc). assert (LB : forall v, length (mat_vec H v) = n) by (intros; rewrite mat_vec_length; apply S).
  unfold form at 1. rewrite V by auto. rewrite dot_add_r by (rewrite ?vsub_length; rewrite ?vscal_length, ?LB; lc). rewrite dot_sub_r by (rewrite ?vscal_length, ?LB; lc). rewrite !dot_scal_r.
  rewrite (dot_comm d y), (dot_comm d (mat_vec H s)), (symmetric_dot n H s d) by auto. fold (form H d). unfold Rdiv. ring.
Qed.
Theorem bfgs_update : forall n H x0 x1 g0 g1, positive_definite n H -> length x0 = n -> length x1 = n -> length g0 = n -> length g1 = n -> 0 < dot (vsub g1 g0) (vsub x1 x0) ->
  exists H', update_hessian H x0 x1 g0 g1 = Ok H' /\ positive_definite n H' /\ mat_vec H' (vsub x1 x0) = vsub g1 g0.
Proof.
  intros n H x0 x1 g0 g1 PD L0 L1 M0 M1 Pys. assert (S := proj1 PD). set (y := vsub g1 g0) in *. set (s := vsub x1 x0) in *.
  assert (Ly : length y = n) by (unfold y; rewrite vsub_length; lc). assert (Ls : length s = n) by (unfold s; rewrite vsub_length; lc). assert (LB : forall v, length (mat_vec H v) = n) by (intros; rewrite mat_vec_length; apply S).
  assert (Ns : s <> zeros n). { intros E. rewrite E, dot_zeros_r in Pys. lra. } assert (Ps : 0 < form H s) by (apply PD; auto).
  assert (E : exists H', update_hessian H x0 x1 g0 g1 = Ok H').
  { unfold update_hessian. fold y s. destruct (Rlt_dec _ _) as [K|_]; [exfalso; assert (0 < / 10 ^ 5) by (apply Rinv_0_lt_compat; lra); lra|]. destruct (Req_EM_T _ _) as [K|_]; [exfalso; lra|]. destruct (Req_EM_T _ _) as [K|_]; [exfalso; unfold form in Ps; lra|eauto]. }
  destruct E as (H' & E). exists H'. split; auto. destruct (update_ok n H x0 x1 g0 g1 H' (proj1 S) L0 L1 M0 M1 E) as (N1 & N2 & S' & V). fold y s in N1, N2, V. specialize (S' S).
  split.
  - split; auto. intros d Ld Nd. assert (F := form_update n H x0 x1 g0 g1 H' S L0 L1 M0 M1 E d Ld). fold y s in F. rewrite F.
    set (b := dot s (mat_vec H d)). set (t := - (b / form H s)). set (e := vadd d (vscal t s)). assert (Le : length e = n) by (unfold e; rewrite vadd_length; rewrite ?vscal_length; lc).
    assert (Fe : form H e = form H d - b * b / form H s). { unfold e. rewrite (form_line n) by auto. fold b. unfold t. field. lra. }
    destruct (list_eq_dec Req_EM_T e (zeros n)) as [Z|Z].
    + assert (Ed : d = vscal (- t) s). { assert (K : vadd d (vscal t s) = zeros n) by exact Z. apply (f_equal (fun v => vsub v (vscal t s))) in K. rewrite vsub_vadd in K by (rewrite vscal_length; lc). rewrite K. rewrite vsub_zeros_l by (rewrite vscal_length; lc). rewrite vscal_vscal. f_equal. ring. }
      assert (Nt : t <> 0). { intros E0. apply Nd. rewrite Ed, E0, Ropp_0, vscal_0. lc. }
      assert (Pe : form H e = 0). { rewrite Z. unfold form. apply dot_zeros_l. } rewrite <- Fe, Pe. rewrite Ed. rewrite dot_scal_r. replace (- t * dot y s * (- t * dot y s) / dot y s) with (t * t * dot y s) by (field; lra).
      assert (0 < t * t). { assert (0 <= t * t) by nra. assert (t * t <> 0) by (apply Rmult_integral_contrapositive; auto). lra. } nra.
    + assert (0 < form H e) by (apply PD; auto). rewrite <- Fe. assert (0 <= dot y d * dot y d / dot y s). { apply Rmult_le_pos; [apply Rle_0_sqr|]. left. apply Rinv_0_lt_compat. lra. } lra.
  - rewrite V by auto. replace (dot y s / dot y s) with 1 by (field; auto). replace (dot (mat_vec H s) s / form H s) with 1 by (unfold form; rewrite (dot_comm (mat_vec H s) s); field; exact N2). rewrite !vscal_1.
    apply nth_ext_R; [rewrite vadd_length; rewrite ?vsub_length; rewrite ?LB; lc|]. intros i Hi. rewrite vadd_length in Hi by (rewrite vsub_length; rewrite ?LB; lc). rewrite LB in Hi. unfold vadd, vsub. rewrite (Vec.nth_vzip _ _ _ _ 0 0) by (rewrite ?vzip_length; rewrite ?LB; lc). rewrite (Vec.nth_vzip _ _ _ _ 0 0) by (rewrite ?LB; lc). ring.
Qed.

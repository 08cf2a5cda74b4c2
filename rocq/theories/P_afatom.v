(** Proofs about affine atoms. *)
From Coq Require Import Reals List Lra Lia Arith Bool.
From Verif Require Import M_affine SpecAffine P_affine Vec Spec M_quad P_quad M_prox M_semi SpecAtom P_semi P_conj M_afatom.
Import ListNotations.
Local Open Scope R_scope.

Lemma vsub_vopp : forall x a : vec, length x = length a -> vsub x (vopp a) = vadd x a.
Proof. intros x a L. pattern x, a. apply vec_ind2; auto. intros p q X Y _ IH. unfold vsub, vadd, vopp in *. cbn. rewrite IH. f_equal. ring. Qed.
Lemma vopp_zeros_inv : forall (a : vec) n, vopp a = zeros n -> a = zeros n.
Proof. induction a as [|x a IH]; intros [|n] H; try discriminate; auto. cbn in H. change (zeros (S n)) with (0 :: zeros n) in *. injection H as H1 H2. rewrite (IH n H2). f_equal. lra. Qed.
(** The atom made by new_atom *)
Lemma new_atom_wf : forall c n m (off : vec) q, mode_ok m -> length off = n -> q_shape n q ->
  exists a, new_atom c n (lag_of m) (bnd_of m) (Some off) (Some q) = Ok a /\ atom_wf n a /\ atom_mode a m /\ klass a = c /\ atom_off n a = off /\ a_quadratic a = q /\ copy_atom a = Ok a.
Proof.
  intros c n m off q Hm Ho Hq. rewrite new_atom_ok by auto. eexists. split; [reflexivity|].
  match goal with |- atom_wf n ?a /\ _ => assert (W : atom_wf n a) end.
  { split; [auto|]. split; auto. cbn. intros o. destruct (M_quad.all_zero off) eqn:E; [discriminate|]. intros Eo. injection Eo as <-. split; auto. intros C. rewrite C, all_zero_zeros in E. discriminate. }
  split; auto. split; [split; auto|]. split; auto. split; [|split; auto; apply (copy_correct n _ m); auto; split; auto].
  unfold atom_off. cbn. destruct (M_quad.all_zero off) eqn:E; auto. apply -> P_quad.all_zero_spec in E. cbn. congruence.
Qed.
Theorem cls_affine_spec : forall c D n (alpha : vec) m q, mode_ok m -> Forall (fun r => length r = n) D -> length alpha = length D -> q_shape (length D) q ->
  exists A, cls_affine c D n (Some alpha) (lag_of m) (bnd_of m) (Some q) = Ok A /\ cls_linear c D n (lag_of m) (bnd_of m) (Some q) (Some alpha) = Ok A /\
    aa_map A = matrix D n None /\ atom_wf (length D) (aa_atom A) /\ atom_mode (aa_atom A) m /\ klass (aa_atom A) = c /\ atom_off (length D) (aa_atom A) = vopp alpha /\ a_quadratic (aa_atom A) = q.
Proof.
  intros c D n alpha m q Hm HD Ha Hq. destruct (new_atom_wf c (length D) m (vopp alpha) q Hm ltac:(rewrite vopp_length; auto) Hq) as (a & E & W & M & K & O & Q & C).
  unfold cls_affine, cls_linear. cbn [option_map]. match goal with |- context[rbind ?X _] => replace X with (Ok a) by (symmetry; exact E) end. cbn [rbind]. unfold new_affine_atom. rewrite C. cbn [rbind]. unfold matrix. cbn [t_off]. eexists. repeat (split; [reflexivity|]). cbn [aa_atom]. auto 10.
Qed.
Theorem cls_affine_value : forall c D n (alpha : vec) lam q x chk, 0 <= lam -> c <> CConMax -> c <> CConPosPart -> (1 <= length D)%nat ->
  Forall (fun r => length r = n) D -> length alpha = length D -> q_shape (length D) q -> length x = n ->
  exists A, cls_affine c D n (Some alpha) (Some lam) None (Some q) = Ok A /\
    aa_objective A x chk = Ok (ext_add (mode_fun c (Lagrange lam) (vadd (mat_vec D x) alpha))
      (Fin (quad_fun (coef q) (fbcast (length D) (center q)) (fbcast (length D) (linear_term q)) (constant_term q) (mat_vec D x)))).
Proof.
  intros c D n alpha lam q x chk Hl K1 K2 HD1 HD Ha Hq Lx. destruct (cls_affine_spec c D n alpha (Lagrange lam) q Hl HD Ha Hq) as (A & E & _ & Em & W & M & K & O & Q). exists A. split; auto.
  unfold aa_objective. rewrite Em. unfold matrix. cbn [t_lin]. assert (Lv : length (mat_vec D x) = length D) by apply map_length.
  rewrite (nonsmooth_objective_lagrange (length D) (aa_atom A) lam (mat_vec D x) chk) by (auto; congruence). f_equal. unfold atom_doc, doc_objective. rewrite K, O, Q. rewrite vsub_vopp by congruence. auto.
Qed.
Theorem cls_affine_constraint : forall c D n (alpha : vec) b q x, 0 <= b -> c = CL1 \/ c = CSup \/ c = CL2 \/ c = CPosPart -> (1 <= length D)%nat ->
  Forall (fun r => length r = n) D -> length alpha = length D -> q_shape (length D) q -> length x = n ->
  exists A e, cls_affine c D n (Some alpha) None (Some b) (Some q) = Ok A /\ aa_objective A x true = Ok e /\
    (in_ball c b (vadd (mat_vec D x) alpha) -> e = Fin (q_denot (length D) q (mat_vec D x))) /\
    (~ in_ball c (b * (1 + / 10 ^ 5)) (vadd (mat_vec D x) alpha) -> e = PInf).
Proof.
  intros c D n alpha b q x Hb Hc HD1 HD Ha Hq Lx. destruct (cls_affine_spec c D n alpha (Bound b) q Hb HD Ha Hq) as (A & E & _ & Em & W & M & K & O & Q). exists A.
  assert (Lv : length (mat_vec D x) = length D) by apply map_length. rewrite <- K in Hc.
  destruct (nonsmooth_objective_bound (length D) (aa_atom A) b (mat_vec D x) HD1 W M Hb Lv Hc) as (_ & e & Ee & H1 & H2). exists e. split; auto. unfold aa_objective. rewrite Em. unfold matrix. cbn [t_lin]. split; auto.
  rewrite O, K, Q in *. rewrite vsub_vopp in * by congruence. auto.
Qed.
Theorem cls_shift_value : forall c (alpha : vec) lam q x chk, 0 <= lam -> c <> CConMax -> c <> CConPosPart -> (1 <= length x)%nat ->
  length alpha = length x -> q_shape (length x) q ->
  exists a, cls_shift c alpha (Some lam) None (Some q) = Ok a /\
    nonsmooth_objective a x chk = Ok (ext_add (mode_fun c (Lagrange lam) (vadd x alpha))
      (Fin (quad_fun (coef q) (fbcast (length x) (center q)) (fbcast (length x) (linear_term q)) (constant_term q) x))).
Proof.
  intros c alpha lam q x chk Hl K1 K2 Hn Ha Hq. destruct (new_atom_wf c (length x) (Lagrange lam) (vopp alpha) q Hl ltac:(rewrite vopp_length; auto) Hq) as (a & E & W & M & K & O & Q & C).
  exists a. unfold cls_shift. rewrite Ha. split; auto. rewrite (nonsmooth_objective_lagrange (length x) a lam x chk) by (auto; congruence). f_equal. unfold atom_doc, doc_objective. rewrite K, O, Q. rewrite vsub_vopp by congruence. auto.
Qed.
(** affine_atom over a transform with an offset *)
Lemma objective_offset : forall a a' v chk, klass a = klass a' -> a_lagrange a = a_lagrange a' -> a_bound a = a_bound a' -> a_quadratic a = a_quadratic a' -> apply_offset a v = apply_offset a' v ->
  nonsmooth_objective a v chk = nonsmooth_objective a' v chk.
Proof. intros a a' v chk E1 E2 E3 E4 E5. unfold nonsmooth_objective. rewrite E1, E2, E3, E4, E5. auto. Qed.
Theorem affine_atom_value : forall n a m lam t o x chk, (1 <= m)%nat -> atom_wf m a -> 0 <= lam -> atom_mode a (Lagrange lam) -> klass a <> CConMax -> klass a <> CConPosPart ->
  true_adjoint t -> t_out t = m -> t_in t = n -> t_off t = Some o -> (forall b, o = Some b -> length b = m) -> length x = n ->
  exists A, new_affine_atom a t true = Ok A /\
    aa_objective A x chk = Ok (ext_add (mode_fun (klass a) (Lagrange lam) (vsub (vsub (t_lin t x) (atom_off m a)) (off_vec m o)))
      (Fin (quad_fun (coef (a_quadratic a)) (fbcast m (center (a_quadratic a))) (fbcast m (linear_term (a_quadratic a))) (constant_term (a_quadratic a)) (t_lin t x)))).
Proof.
  intros n a m lam t o x chk Hm W Hl M K1 K2 A Eo Ei Et Lo Lx. unfold new_affine_atom. rewrite (copy_correct m a (Lagrange lam) W Hl M). cbn [rbind]. rewrite Et.
  assert (Lv : length (t_lin t x) = m) by (rewrite <- Eo; apply A; congruence). assert (La := atom_off_length m a W).
  set (v := t_lin t x) in *. set (qq := Fin _).
  assert (Base : forall off' : vec, length off' = m -> nonsmooth_objective (mk_atom (klass a) (shape a) (a_lagrange a) (a_bound a) (Some off') (a_quadratic a)) v chk = Ok (ext_add (mode_fun (klass a) (Lagrange lam) (vsub v off')) qq)).
  { intros off' L'. destruct W as (W1 & W2 & W3). destruct (M_quad.all_zero off') eqn:Z.
    - apply -> P_quad.all_zero_spec in Z. set (a0 := mk_atom (klass a) (shape a) (a_lagrange a) (a_bound a) None (a_quadratic a)). rewrite (objective_offset _ a0 v chk); auto.
      + rewrite (nonsmooth_objective_lagrange m a0 lam v chk); auto; [|split; [auto|split; [discriminate|auto]]]. unfold atom_doc, doc_objective, qq. cbn. f_equal. f_equal. f_equal. rewrite Z, L'. auto.
      + unfold apply_offset. cbn. rewrite Z, vsub_zeros_r; auto; congruence.
    - set (a0 := mk_atom (klass a) (shape a) (a_lagrange a) (a_bound a) (Some off') (a_quadratic a)). rewrite (nonsmooth_objective_lagrange m a0 lam v chk); auto.
      split; auto. split; auto. cbn. intros o' Eo'. injection Eo' as <-. split; auto. intros C. rewrite C, all_zero_zeros in Z. discriminate. }
  destruct o as [b|].
  - specialize (Lo b eq_refl). cbn [off_vec]. unfold atom_off. destruct (a_offset a) as [p|] eqn:Ep.
    + eexists. split; [reflexivity|]. unfold aa_objective. cbn [aa_atom aa_map t_lin]. fold v. unfold atom_off in La. rewrite Ep in La. cbn [off_vec] in *. rewrite Base by (rewrite vadd_length; congruence). rewrite vsub_vadd_r by congruence. auto.
    + eexists. split; [reflexivity|]. unfold aa_objective. cbn [aa_atom aa_map t_lin]. fold v. cbn [off_vec]. rewrite vsub_zeros_r by auto. unfold set_offset. destruct (M_quad.all_zero b) eqn:Zb; [|apply Base; auto].
      rewrite Ep. apply -> P_quad.all_zero_spec in Zb. rewrite <- (Base b Lo). apply objective_offset; auto. unfold apply_offset. cbn. rewrite Zb, vsub_zeros_r; auto; congruence.
  - eexists. split; [reflexivity|]. unfold aa_objective. cbn [aa_atom aa_map off_vec]. fold v. rewrite (vsub_zeros_r (vsub v (atom_off m a))) by (rewrite vsub_length; congruence). apply (nonsmooth_objective_lagrange m a lam v chk); auto.
Qed.
(** the documented h(D beta + alpha) fails *)
Lemma affine_atom_sign : exists a A, new_atom CL1 1 (Some 1) None None None = Ok a /\ new_affine_atom a (matrix [[1]] 1 (Some [1])) true = Ok A /\
  aa_objective A [1] false = Ok (Fin 0) /\ mode_fun CL1 (Lagrange 1) (t_aff (matrix [[1]] 1 (Some [1])) [1]) = Fin 2.
Proof.
  assert (Hq : q_shape 1 (mk_iq 0 (FScal 0) (FScal 0) 0)) by (split; exact I).
  assert (E : new_atom CL1 1 (Some 1) None None None = Ok (mk_atom CL1 1 (Some 1) None None (mk_iq 0 (FScal 0) (FScal 0) 0))). { unfold new_atom, is_neg. destruct (Rlt_dec 1 0); [exfalso; lra|]. auto. }
  eexists. set (a := mk_atom CL1 1 (Some 1) None None _) in E.
  destruct (affine_atom_value 1 a 1 1 (matrix [[1]] 1 (Some [1])) (Some [1]) [1] false) as (A & E1 & E2); auto; try discriminate; try lra.
  - split; auto. split; [discriminate|auto].
  - split; auto.
  - apply good_matrix; [repeat constructor|]. intros b Hb. injection Hb as <-. auto.
  - intros b Hb. injection Hb as <-. auto.
  - exists A. split; [exact E|]. split; [exact E1|]. split.
    + rewrite E2. f_equal. unfold matrix. cbn. unfold quad_fun, sqn, dot, vsum, vmul, ell1. cbn. f_equal. unfold vsum. cbn. replace (1 * 1 + 0 - 0 - 1) with 0 by ring. rewrite Rabs_R0. field.
    + unfold matrix. cbn. unfold ell1, vsum, dot, vsum, vmul. cbn. f_equal. replace (1 + (1 * 1 + 0)) with 2 by ring. rewrite Rabs_pos_eq by lra. ring.
Qed.
Lemma shift_sign : exists a, cls_shift CL1 [1] (Some 1) None None = Ok a /\ nonsmooth_objective a [1] false = Ok (Fin 2) /\ mode_fun CL1 (Lagrange 1) (vsub [1] [1]) = Fin 0.
Proof.
  destruct (cls_shift_value CL1 [1] 1 (mk_iq 0 (FScal 0) (FScal 0) 0) [1] false) as (a & E1 & E2); try discriminate; auto; try lra; [split; exact I|].
  exists a. split; [exact E1|]. rewrite E2. cbn. unfold quad_fun, sqn, dot, vsum, vmul, ell1, vsum. cbn. split; f_equal; [f_equal|].
  - rewrite Rabs_pos_eq by lra. field.
  - replace (1 - 1) with 0 by ring. rewrite Rabs_R0. ring.
Qed.
(** a transform with an offset which is not a plain one cannot be used *)
Lemma affine_atom_nested : forall a t b, (exists a', copy_atom a = Ok a') -> t_off t = Some (Some b) -> new_affine_atom a t false = Err AttributeError.
Proof. intros a t b (a' & E) Et. unfold new_affine_atom. rewrite E. cbn [rbind]. rewrite Et. auto. Qed.
Theorem affine_dual : forall c D n (alpha : vec) m q, mode_ok m -> Forall (fun r => length r = n) D -> length alpha = length D -> q_shape (length D) q -> coef q = 0 ->
  exists A L d, cls_affine c D n (Some alpha) (lag_of m) (bnd_of m) (Some q) = Ok A /\ aa_dual A = Ok (L, d) /\
    (forall x, length x = n -> t_lin L x = mat_vec D x) /\
    forall u, length u = length D -> is_fenchel (length D) (atom_doc (length D) (aa_atom A) m) u (atom_doc (length D) d (dual_mode m) u).
Proof.
  intros c D n alpha m q Hm HD Ha Hq Hc. destruct (cls_affine_spec c D n alpha m q Hm HD Ha Hq) as (A & E & _ & Em & W & M & K & O & Q).
  destruct (conjugate_correct (length D) (aa_atom A) m W Hm M ltac:(rewrite Q; auto)) as (d & Ed & _ & _ & _ & F). exists A, (aa_map A), d. split; auto. split.
  - unfold aa_dual. rewrite (copy_correct (length D) _ m W Hm M). cbn [rbind]. rewrite Em. unfold matrix. cbn [t_out]. 
    match goal with |- rbind (get_conjugate ?X) _ = _ => assert (EX : X = aa_atom A) end.
    { destruct W as (W1 & _). destruct (aa_atom A) as [k s l b o q']. change (s = length D) in W1. subst s. reflexivity. }
    rewrite EX, Ed. auto.
  - split; auto. intros x Lx. rewrite Em. auto.
Qed.
Theorem cls_linear_value : forall c D n lam q x chk, 0 <= lam -> c <> CConMax -> c <> CConPosPart -> (1 <= length D)%nat ->
  Forall (fun r => length r = n) D -> q_shape (length D) q -> length x = n ->
  exists A, cls_linear c D n (Some lam) None (Some q) None = Ok A /\
    aa_objective A x chk = Ok (ext_add (mode_fun c (Lagrange lam) (mat_vec D x))
      (Fin (quad_fun (coef q) (fbcast (length D) (center q)) (fbcast (length D) (linear_term q)) (constant_term q) (mat_vec D x)))).
Proof.
  intros c D n lam q x chk Hl K1 K2 HD1 HD Hq Lx.
  set (a := mk_atom c (length D) (Some lam) None None q).
  assert (W : atom_wf (length D) a) by (split; [auto|split; [discriminate|auto]]). assert (M : atom_mode a (Lagrange lam)) by (split; auto).
  exists (mk_affine_atom a (matrix D n None)). split.
  - unfold cls_linear, new_atom, is_neg. cbn [option_map]. destruct (Rlt_dec lam 0); [exfalso; lra|]. cbn [rbind fresh_offset]. change (mk_atom c (@length vec D) (Some lam) None None q) with a. unfold new_affine_atom. rewrite (copy_correct (length D) a (Lagrange lam) W Hl M). auto.
  - unfold aa_objective. cbn [aa_atom aa_map]. unfold matrix. cbn [t_lin]. assert (Lv : length (mat_vec D x) = length D) by apply map_length.
    rewrite (nonsmooth_objective_lagrange (length D) a lam (mat_vec D x) chk) by auto. f_equal. unfold atom_doc, doc_objective, a. unfold atom_off. cbn [klass a_offset a_quadratic off_vec]. rewrite vsub_zeros_r by auto. auto.
Qed.

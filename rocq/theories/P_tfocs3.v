(** tfocs on the interval |v| <= 1: examples and counterexamples. *)
From Coq Require Import Reals List Lra Lia Arith Bool.
From Verif Require Import M_affine SpecAffine P_affine M_loss M_smooth SpecSmooth P_smooth Vec Spec SpecConvex M_quad P_quad P_calc P_sep P_loss M_prox M_semi SpecAtom P_semi P_conj M_shift SpecBase P_shift M_afatom SpecCone M_cones P_cones M_fista SpecFista P_fista P_fista2 M_problem SpecProblem P_problem P_separable P_problem2 M_sconj SpecSconj P_sconj P_block3 P_path2 P_admm M_nesta SpecNesta P_nesta P_nesta2 P_nesta3 P_nesta4 P_tfocs P_tfocs2.
Import ListNotations.
Local Open Scope R_scope.

(** minimize v^2/2 - cv over |v| <= 1, with h = 0 *)
Definition box_atom : atom := mk_atom CL1 1 None (Some 1) None no_quad.
Definition bowl (c : R) : iq := mk_iq 1 (FScal 0) (FVec [- c]) 0.
Definition box_args (c : R) (eps : list R) (max_iters : nat) (coef_tol : R) : tfocs_args :=
  mk_tfocs (PrimAtom box_atom) (identity_map 1) (of_cone (new_cone KZeroCon 1 None None)) [0] (Some eps) 0 max_iters coef_tol (Some (bowl c)).
Definition box_fun (c : R) (v : vec) : ext := if Rle_dec (Rabs (hd 0 v)) 1 then Fin (hd 0 v * hd 0 v / 2 - c * hd 0 v) else PInf.
Definition at_zero (u : vec) : ext := if Req_EM_T (hd 0 u) 0 then Fin 0 else PInf.
Definition nothing_fun (v : vec) : ext := Fin 0.
Lemma zero_conjugates : conjugates 1 nothing_fun at_zero.
Proof.
  split; intros u Lu; destruct (one_vec u Lu) as (a & ->).
  - unfold at_zero. cbn [hd]. destruct (Req_EM_T a 0) as [->|Ha].
    + split.
      * intros x r Lx Ex. destruct (one_vec x Lx) as (b & ->). injection Ex as <-. rewrite dot_one. lra.
      * intros e He. exists [0], 0. split; [auto|]. split; [auto|]. rewrite dot_one. lra.
    + intros M. exists [(M + 1) / a], 0. split; [auto|]. split; [auto|]. rewrite dot_one. replace (a * ((M + 1) / a)) with (M + 1) by (field; auto). lra.
  - split.
    + intros x r Lx Ex. destruct (one_vec x Lx) as (b & ->). unfold at_zero in Ex. cbn [hd] in Ex. destruct (Req_EM_T b 0) as [->|]; [|discriminate]. injection Ex as <-. rewrite dot_one. lra.
    + intros e He. exists [0], 0. split; [auto|]. unfold at_zero. cbn [hd]. destruct (Req_EM_T 0 0); [|tauto]. split; auto. rewrite dot_one. lra.
Qed.
Lemma at_zero_exact : exact_obj 1 at_zero (of_cone (new_cone KZeroCon 1 None None)).
Proof.
  apply (exact_obj_ext 1 (base_doc 1 (cone_fun KZeroCon) (new_base 1 None None))).
  - intros x Lx. destruct (one_vec x Lx) as (a & ->). unfold base_doc, at_zero. cbn [hd]. destruct (Req_EM_T a 0) as [->|Ha].
    + rewrite cone_fun_in. * cbn [ext_add b_quadratic new_base coef center linear_term constant_term fbcast]. f_equal. unfold quad_fun. rewrite const_vec_0, dot_zeros_l. lra. * cbn. repeat constructor. ring.
    + rewrite cone_fun_out; [reflexivity|]. cbn. intros K. inversion K; subst. lra.
  - apply (cone_exact 1 (new_cone KZeroCon 1 None None)); [cbn; lia|discriminate|discriminate| |cbn; lra]. split; auto. split; [intros o Eo; discriminate|split; exact Logic.I].
Qed.
Lemma box_doc : forall t, atom_doc 1 box_atom (Bound 1) [t] = if Rle_dec (Rabs t) 1 then Fin 0 else PInf.
Proof.
  intros t. unfold atom_doc, doc_objective, atom_off. cbn [a_offset a_quadratic box_atom klass off_vec no_quad coef center linear_term constant_term fbcast mode_fun doc_seminorm ext_scale]. rewrite vsub_zeros_r by auto. unfold quad_fun. rewrite const_vec_0, dot_zeros_l. rewrite ell1_one. destruct (Rle_dec (Rabs t) 1); cbn [ext_add]; auto. f_equal. lra.
Qed.
Lemma box_for : forall c eps mx ct, tfocs_for (box_args c eps mx ct) 1 (box_fun c) nothing_fun at_zero.
Proof.
  intros c eps mx ct. split; cbn [box_args tf_primal tf_map tf_quadratic tf_dual identity_map t_out].
  - exists (atom_doc 1 box_atom (Bound 1)). split.
    + apply PF_atom; cbn; auto; try lra; [|split; auto]. split; auto. split; [intros o Eo; discriminate|split; exact Logic.I].
    + intros v Lv. destruct (one_vec v Lv) as (t & ->). unfold box_fun, plus_quad, quad_or_zero. cbn [hd]. rewrite box_doc. destruct (Rle_dec (Rabs t) 1); cbn [ext_add]; auto. f_equal. unfold q_denot, quad_fun, bowl, sqn, dot, vsum. cbn. field.
  - split; [apply identity_adjoint|]. split; [split; [reflexivity|]|auto]. intros x Lx. destruct (one_vec x Lx) as (t & ->). cbn. f_equal. ring.
  - split; [discriminate|]. split; [intros o E; discriminate|]. intros v Lv. destruct (one_vec v Lv) as (t & ->). cbn. f_equal. ring.
  - exists 1. split; [lra|]. intros x Lx. rewrite Rmult_1_l. apply Rle_refl.
  - intros q E. injection E as <-. repeat split; cbn; auto; lra.
  - apply at_zero_exact.
  - apply zero_conjugates.
Qed.
Definition zero_run : solver := fun _ _ _ _ => Ok (mk_answer [0] [0] [0]).
Lemma box_solves : forall c eps mx ct, solves_tfocs zero_run (box_args c eps mx ct) 1.
Proof.
  intros c epsl mx ct idx eps x conj C dsq start f h HE Lx Ec Ed EC D EX. exists (mk_answer [0] [0] [0]). split; [reflexivity|]. split; [|reflexivity]. cbn [an_coefs]. cbn [box_args tf_map identity_map t_out] in *.
  assert (P0 : forall L w g, 0 < L -> length w = 1%nat -> length g = 1%nat -> c_prox D L w g = [0]).
  { intros L w g HL Lw Lg. injection Ed as <-. unfold D, tfocs_problem. cbn [c_prox]. assert (EX0 := inner_exact 1 at_zero (of_cone (new_cone KZeroCon 1 None None)) zero_quad (fun _ => 0) (fun _ => Fin 0) (fun _ => [0])).
    assert (EX1 : exact_problem 1 (fun _ => 0) (plus_quad 1 at_zero zero_quad) (mk_composite (fun _ => Fin 0) (fun _ => [0]) (inner_nonsmooth (of_cone (new_cone KZeroCon 1 None None)) zero_quad) (inner_proximal (of_cone (new_cone KZeroCon 1 None None)) zero_quad) 0)).
    { apply EX0; auto.
      - intros a b t _ _ _. lra.
      - intros a La. split; auto. intros d Ld. destruct (one_vec d Ld) as (d1 & ->). rewrite dot_one, Rmult_0_l. intros e He. exists (mkposreal 1 ltac:(lra)). intros t _ _. replace ((0 - 0) / t - 0) with (0 : R) by (unfold Rdiv; ring). rewrite Rabs_R0. exact He.
      - apply at_zero_exact.
      - destruct (zero_quad_ok 1). repeat split; auto; cbn; lra. }
    destruct (ex_prox _ _ _ _ EX1 L w g HL Lw Lg) as (Lp & (r & Er) & _). cbn [c_prox] in Lp, Er. cbn [box_args tf_dual] in *. destruct (one_vec _ Lp) as (p & Ep). rewrite Ep in *. unfold plus_quad, at_zero in Er. cbn [hd] in Er. destruct (Req_EM_T p 0) as [->|]; [reflexivity|discriminate]. }
  apply (fixed_is_min 1 f h D EX [0] 1); auto; [lra|]. apply P0; auto; [lra|]. destruct (ex_gradient _ _ _ _ EX [0] eq_refl) as (Lg & _). exact Lg.
Qed.
(** A round on the interval *)
Lemma box_round : forall c r y, exact_tround 1 (identity_map 1) (box_fun c) at_zero r -> 0 < r_eps r -> r_center r = [y] -> r_dual r = [clip ((c + r_eps r * y) / (1 + r_eps r))].
Proof.
  intros c r y ER HE Ec. destruct ER as (S & HS & (Lp & (rp & Erp) & _) & MU). destruct (one_vec _ Lp) as (p & Ep). rewrite Ep in *. unfold at_zero in Erp. cbn [hd] in Erp. destruct (Req_EM_T p 0) as [->|]; [|discriminate]. cbn [identity_map t_adj vopp map] in MU. rewrite Ec in MU. set (e := r_eps r) in *.
  destruct MU as (Lu & (ru & Eru) & M). destruct (one_vec _ Lu) as (u & Eu). rewrite Eu in *. set (t := (c + e * y) / (1 + e)). assert (Et : t * (1 + e) = c + e * y) by (unfold t; field; lra). unfold regularized, box_fun in Eru. cbn [hd] in Eru. destruct (Rle_dec (Rabs u) 1) as [Hu|]; [|discriminate]. clear Eru.
  assert (R := clip_range t). specialize (M [clip t] eq_refl). cbv beta in M. unfold regularized, box_fun in M. cbn [hd] in M. destruct (Rle_dec (Rabs u) 1); [|lra]. destruct (Rle_dec (Rabs (clip t)) 1) as [Hc|Hc]; [|exfalso; apply Hc; apply Rabs_le; lra]. cbn [ext_add ext_le] in M. unfold sqn, dot, vsum in M. cbn in M.
  assert (Hu' : -1 <= u <= 1) by (split; [pose proof (Rle_abs (- u)); rewrite Rabs_Ropp in *; lra|pose proof (Rle_abs u); lra]). f_equal.
  assert (Q : (u - t) * (u - t) <= (clip t - t) * (clip t - t)). { apply Rmult_le_reg_l with ((1 + e) / 2); [lra|]. assert (Hc2 : c = t * (1 + e) - e * y) by lra. clearbody t. rewrite Hc2 in M. lra. }
  clear M. destruct (clip_cases t) as [(H1 & H2)|[(H1 & H2)|(H1 & H2)]]; rewrite H2 in *; nra.
Qed.
Theorem tfocs_momentum : exists run F P h G o, tfocs_for F 1 P h G /\ solves_tfocs run F 1 /\ (forall e, In e (schedule (tf_epsilon F) (tf_max_iters F)) -> 0 < e) /\ tfocs run F = Ok o /\
  (exists rs r c, o_rounds o = rs ++ [r] /\ composed_affine P h (tf_map F) (r_dual r) = Fin c) /\ composed_affine P h (tf_map F) (o_primal o) = PInf /\ (tf_max_iters F < length (o_rounds o))%nat.
Proof.
  set (F := box_args (13 / 10) [1; 1] 1 0). assert (TF := box_for (13 / 10) [1; 1] 1 0). fold F in TF.
  destruct (tfocs_ran zero_run F 1 _ _ at_zero TF (box_solves _ _ _ _)) as (o & Eo & [R1 R2 R3 R4 (rs & r & E1 & E2 & E3 & F1 & Sb & E5)]); [discriminate|cbn; intros e [<-|[<-|[]]]; lra|].
  exists zero_run, F, (box_fun (13 / 10)), nothing_fun, at_zero, o. split; [exact TF|]. split; [apply box_solves|]. split; [cbn; intros e [<-|[<-|[]]]; lra|]. split; [exact Eo|].
  assert (Bf : o_broke o = false). { destruct (o_broke o); auto. exfalso. destruct Sb as [Sb _]. specialize (Sb eq_refl). unfold tsettled in Sb. change (tf_coef_tol F) with 0 in Sb. pose proof (norm_nonneg (vsub (r_center r) (r_dual r))). lra. }
  rewrite Bf in *. destruct E3 as (L2 & Ed). change (length (schedule (tf_epsilon F) (tf_max_iters F))) with 2%nat in L2. rewrite L2. destruct (o_rounds o) as [|r0 [|r1 [|]]] eqn:Er; try discriminate. cbn [length firstn map] in R3. injection R3 as Ee0 Ee1. destruct R2 as (I0 & C0 & I1 & C1 & _). apply Forall_cons_iff in R1. destruct R1 as (X0 & R1). apply Forall_cons_iff in R1. destruct R1 as (X1 & _).
  change (tf_map F) with (identity_map 1) in *. change (zeros 1) with [0] in C0, C1, Ed.
  assert (D0 := box_round _ r0 0 X0 ltac:(rewrite Ee0; lra) C0). rewrite Ee0 in D0. assert (K0 : clip ((13 / 10 + 1 * 0) / (1 + 1)) = 13 / 20) by (destruct (clip_cases ((13 / 10 + 1 * 0) / (1 + 1))) as [(H1 & H2)|[(H1 & H2)|(H1 & H2)]]; lra). rewrite K0 in D0.
  rewrite D0 in C1. cbn in C1. replace (0 + (1 + 0 / (0 + 3)) * (13 / 20 - 0)) with (13 / 20) in C1 by field.
  assert (D1 := box_round _ r1 (13 / 20) X1 ltac:(rewrite Ee1; lra) C1). rewrite Ee1 in D1. assert (K1 : clip ((13 / 10 + 1 * (13 / 20)) / (1 + 1)) = 39 / 40) by (destruct (clip_cases ((13 / 10 + 1 * (13 / 20)) / (1 + 1))) as [(H1 & H2)|[(H1 & H2)|(H1 & H2)]]; lra). rewrite K1 in D1.
  assert (Ev : o_primal o = [169 / 160]). { rewrite Ed. cbn [center_after]. rewrite D0, D1. cbn. f_equal. field. }
  split; [|split; [|cbn; lia]].
  - exists [r0], r1. rewrite D1. unfold composed_affine, box_fun, nothing_fun. cbn [hd]. destruct (Rle_dec (Rabs (39 / 40)) 1) as [|K]; [cbn [ext_add]; eauto|exfalso; apply K; rewrite Rabs_pos_eq; lra].
  - rewrite Ev. unfold composed_affine, box_fun. cbn [hd]. destruct (Rle_dec _ 1) as [K|]; auto. exfalso. rewrite Rabs_pos_eq in K; lra.
Qed.
Theorem tfocs_empty : forall run F c dsq, prim_conjugate (tf_primal F) = Ok c -> tfocs_quadratic (tf_map F) = Ok dsq -> schedule (tf_epsilon F) (tf_max_iters F) = [] -> tfocs run F = Err NameError.
Proof. intros run F c dsq E1 E2 E3. unfold tfocs. rewrite E1. cbn [rbind]. rewrite E2, E3. reflexivity. Qed.
Theorem tfocs_offsetless : forall run F c, prim_conjugate (tf_primal F) = Ok c -> t_off (tf_map F) = None -> tfocs run F = Err AttributeError.
Proof. intros run F c E1 E2. unfold tfocs. rewrite E1. cbn [rbind]. unfold tfocs_quadratic. rewrite E2. reflexivity. Qed.
(** minimizer on the interval *)
Lemma box_min : forall c, is_argmin 1 (composed_affine (box_fun c) nothing_fun (identity_map 1)) [clip c].
Proof.
  intros c. assert (R := clip_range c). split; auto. unfold composed_affine, box_fun, nothing_fun. cbn [hd]. destruct (Rle_dec (Rabs (clip c)) 1) as [_|K]; [|exfalso; apply K, Rabs_le; lra]. split; [cbn; eauto|]. intros z Lz. destruct (one_vec z Lz) as (s & ->). cbn [hd]. destruct (Rle_dec (Rabs s) 1) as [Hs|]; cbn [ext_add ext_le]; auto.
  assert (-1 <= s <= 1) by (split; [pose proof (Rle_abs (- s)); rewrite Rabs_Ropp in *; lra|pose proof (Rle_abs s); lra]). destruct (clip_cases c) as [(H1 & H2)|[(H1 & H2)|(H1 & H2)]]; rewrite H2.
  - assert (0 <= (s + 1) * ((s - 1) / 2 - c)) by (apply Rmult_le_pos; lra). lra.
  - assert (Q := Rle_0_sqr (s - c)). unfold Rsqr in Q. lra.
  - assert (0 <= (1 - s) * (c - (1 + s) / 2)) by (apply Rmult_le_pos; lra). lra.
Qed.

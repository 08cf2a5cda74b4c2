(** C29-C32, C51, C64, C65: affine transforms, and atoms composed with them. *)
From Coq Require Import Reals List Lra Lia Arith Bool.
From Verif Require Import M_slope SpecIso M_affine SpecAffine P_affine P_affine2 M_buffer SpecBuffer P_buffer M_fused SpecFused P_fused Vec Spec M_quad P_quad M_prox M_semi SpecAtom M_afatom P_afatom.
Import ListNotations.
Local Open Scope R_scope.

(** ** C29 *)
Theorem C29_adjoint_partial : forall t, built t -> true_adjoint t /\ linear t.
Proof. intros t B. split; [apply built_good; auto|apply adjoint_linear, built_good; auto]. Qed.
Print Assumptions C29_adjoint_partial.
Theorem C29_normalize : forall M p ctr scl icpt ddof value, Forall (fun r => length r = p) M ->
  exists T, normalize M p ctr scl icpt ddof value = Ok T /\ true_adjoint T /\ linear T.
Proof. intros M p ctr scl icpt ddof value H. destruct (normalize_total M p ctr scl icpt ddof value) as [T E]. exists T. split; auto. apply C29_adjoint_partial. eapply normalize_built; eauto. Qed.
Print Assumptions C29_normalize.
(** an index given twice *)
Theorem C29_selector_repeated_refuted : exists T, selector [0; 0]%nat 1 (identity 2) = Ok T /\ dot (t_lin T [1]) [1; 1] = 2 /\ dot [1] (t_adj T [1; 1]) = 1.
Proof. exact selector_repeated. Qed.
Print Assumptions C29_selector_repeated_refuted.
(** aslinear reports its shapes the wrong way round *)
Theorem C29_aslinear_refuted : let t := matrix [[1; 2]] 2 None in built t /\ ~ true_adjoint (aslinear t).
Proof.
  cbv zeta. split; [apply b_matrix; [repeat constructor|discriminate]|]. intros (H & _ & _). destruct aslinear_shapes as (E1 & E2 & _).
  specialize (H [0] ltac:(rewrite E1; reflexivity)). rewrite E2 in H. discriminate.
Qed.
Print Assumptions C29_aslinear_refuted.
(** a selection of two coordinates, centred, stacked on a diagonal with an offset *)
Example C29_case : exists S T, selector [2; 0]%nat 3 (centering 2) = Ok S /\ vstack [S; diagonal [1; 2; 3] (Some [1; 1; 1]); matrix [[1; 2; 3]] 3 None] = Ok T /\ built T.
Proof.
  destruct (selector [2; 0]%nat 3 (centering 2)) as [S|] eqn:ES; [|discriminate]. exists S.
  assert (BS : built S). { apply (b_selector [2; 0]%nat 3 (centering 2)); auto; [apply b_centering| |].
    - apply NoDup_cons; [cbn; intros [H|[]]; discriminate|]. apply NoDup_cons; [cbn; tauto|apply NoDup_nil].
    - apply Forall_cons; [lia|]. apply Forall_cons; [lia|auto]. }
  assert (IS : t_in S = 3%nat) by (cbn in ES; apply Ok_inj in ES; subst S; auto).
  destruct (vstack [S; diagonal [1; 2; 3] (Some [1; 1; 1]); matrix [[1; 2; 3]] 3 None]) as [T|] eqn:ET.
  - exists T. split; [reflexivity|]. split; [reflexivity|]. refine (b_vstack _ T _ ET). intros t [<-|[<-|[<-|[]]]]; auto.
    + apply b_diagonal. intros a E. injection E as <-. reflexivity.
    + apply b_matrix; [repeat constructor|discriminate].
  - exfalso. unfold vstack in ET. cbn in ET. rewrite IS in ET. cbn in ET. discriminate.
Qed.

(** ** C30 *)
Theorem C30_affine : forall t, built t -> affine t.
Proof. intros t B. apply built_good. auto. Qed.
Print Assumptions C30_affine.
Theorem C30_offset_partial : forall t, reported t -> reports_offset t.
Proof. exact reported_reports. Qed.
Print Assumptions C30_offset_partial.
(** offsets lost by the constructors *)
Theorem C30_composition_refuted : exists T, composition [shift_only [1]] = Ok T /\ built T /\ t_off T = Some None /\ t_aff T [0] = [1] /\ t_lin T [0] = [0].
Proof. exact composition_offset_lost. Qed.
Theorem C30_residual_refuted : exists T, residual (shift_only [1]) = Ok T /\ built T /\ t_off T = Some None /\ t_aff T [0] = [-1] /\ t_lin T [0] = [0].
Proof. exact residual_offset_lost. Qed.
Theorem C30_scalar_multiply_refuted : let T := scalar_multiply (shift_only [1]) 2 in built T /\ ~ reports_offset T.
Proof.
  cbv zeta. destruct times_offset_lost as (B & E & H). split; auto. intros R. unfold reports_offset in R. rewrite E in R. specialize (R [0] eq_refl). destruct H as [H1 H2]. rewrite R, H2 in H1. injection H1 as H1. lra.
Qed.
Theorem C30_wrap_refuted : let T := wrap (shift_only [1]) None in built T /\ t_off T = Some None /\ t_aff T [0] = [1] /\ t_lin T [0] = [0].
Proof. exact wrap_offset_lost. Qed.
Theorem C30_affine_sum_refuted : exists T, affine_sum [shift_only [/ 10 ^ 9]] None = Ok T /\ built T /\ t_off T = Some None /\ t_aff T [0] <> t_lin T [0].
Proof. exact sum_offset_lost. Qed.
Theorem C30_missing_attribute_refuted : forall s n t, t_off (scaler s) = None /\ t_off (reshape n) = None /\ t_off (add_intercept t) = None.
Proof. exact missing_offsets. Qed.
Print Assumptions C30_composition_refuted.
Print Assumptions C30_residual_refuted.
Print Assumptions C30_scalar_multiply_refuted.
Print Assumptions C30_wrap_refuted.
Print Assumptions C30_affine_sum_refuted.
Print Assumptions C30_missing_attribute_refuted.
Example C30_case : exists T a, vstack [diagonal [1; 2] (Some [1; 1]); shift_only [3; 4]] = Ok T /\ reported T /\ t_off T = Some (Some a) /\ a <> zeros 4.
Proof.
  eexists. eexists. split; [reflexivity|]. split; [apply (r_vstack [diagonal [1; 2] (Some [1; 1]); shift_only [3; 4]]); [|reflexivity]|].
  - intros t [<-|[<-|[]]]; [apply b_diagonal; intros a E; injection E as <-; reflexivity|apply b_shift_only].
  - cbn. destruct (Req_EM_T _ 0) as [H|]; [exfalso; lra|]. cbn. split; [reflexivity|]. intros H. injection H. intros; lra.
Qed.

(** ** C31 *)
(** An object just built, whose parts own different arrays; a program that creates arrays and passes them to adjoint_map, in any order
    and number: the next result is the value of the adjoint. *)
Theorem C31_value_partial : forall l o h m k, new_object o -> NoDup (buffers o) -> (forall r, In r (buffers o) -> (r < length h)%nat) -> shaped o m k -> legal m (h, o) l ->
  let s := run (h, o) l in forall u, (u < length (fst s))%nat -> length (read (fst s) u) = m ->
  forall h' o' r, adj_call (snd s) (fst s) u = (h', o', r) -> read h' r = adj_value o (read (fst s) u).
Proof. intros l o h m k N D B S Lg. apply (history_value l o h m k (new_owns o h N D B) S Lg). Qed.
Print Assumptions C31_value_partial.
Theorem C31_stable_partial : forall l o h m, bufferless o -> legal m (h, o) l -> forall r, (r < length h)%nat -> read (fst (run (h, o) l)) r = read h r.
Proof. exact history_stable. Qed.
Print Assumptions C31_stable_partial.
Theorem C31_selector_same_array_refuted : forall idx n inner b h u h1 o1 r1, adj_call (Sel idx n inner b) h u = (h1, o1, r1) ->
  forall h' u' h2 o2 r2, adj_call o1 h' u' = (h2, o2, r2) -> r2 = r1.
Proof. intros idx n inner b h u h1 o1 r1 E h' u' h2 o2 r2. exact (selector_shares idx n inner b h u h1 o1 r1 E h' u' h2 o2 r2). Qed.
Theorem C31_selector_refuted : let o := Sel [0%nat] 2 Same None in let h := [[1]; [5]] in
  let '(h1, o1, r1) := adj_call o h 0%nat in read h1 r1 = [1; 0] /\ let '(h2, _, _) := adj_call o1 h1 1%nat in read h2 r1 = [5; 0].
Proof. exact selector_overwrites. Qed.
Theorem C31_posneg_refuted : let o := Pos Same 2%nat in let h := [[1]; [5]; [0; 0]] in
  let '(h1, o1, r1) := adj_call o h 0%nat in read h1 r1 = [1; - 1] /\ let '(h2, _, _) := adj_call o1 h1 1%nat in read h2 r1 = [5; - 5].
Proof. exact posneg_overwrites. Qed.
(** writing into a returned array changes a later result *)
Theorem C31_corrupted_refuted : let o := Sel [0%nat] 2 Same None in let h := [[1]] in
  let s := run (h, o) [Call 0%nat; Put 1%nat [7; 7]] in let '(h2, _, r2) := adj_call (snd s) (fst s) 0%nat in read h2 r2 = [1; 7] /\ adj_value o [1] = [1; 0].
Proof. exact selector_corrupted. Qed.
Print Assumptions C31_selector_same_array_refuted.
Print Assumptions C31_selector_refuted.
Print Assumptions C31_posneg_refuted.
Print Assumptions C31_corrupted_refuted.
Example C31_case : let o := Chain Same (Sel [1%nat; 0%nat; 3%nat; 2%nat] 5 (Pos (Times 2 Same) 0%nat) None) in let h := [[0; 0; 0; 0]; [1; 2]] in
  new_object o /\ NoDup (buffers o) /\ (forall r, In r (buffers o) -> (r < length h)%nat) /\ shaped o 2 5 /\ legal 2 (h, o) [New [3; 4]; Call 2%nat; Call 1%nat].
Proof.
  cbv zeta. split; [cbn; auto|]. split; [cbn; repeat constructor; auto|]. split; [cbn; intros r [<-|[]]; lia|]. split; [cbn; exists 2%nat; repeat split; auto; exists 2%nat; auto|].
  cbn. destruct (Req_EM_T 2 1); [exfalso; lra|]. cbn. destruct (Req_EM_T 2 1); [exfalso; lra|]. cbn. repeat split; auto; lia.
Qed.

(** ** C32 *)
Theorem C32_affine : forall c D n (alpha : vec) lam q x chk, 0 <= lam -> c <> CConMax -> c <> CConPosPart -> (1 <= length D)%nat ->
  Forall (fun r => length r = n) D -> length alpha = length D -> q_shape (length D) q -> length x = n ->
  exists A, cls_affine c D n (Some alpha) (Some lam) None (Some q) = Ok A /\
    aa_objective A x chk = Ok (ext_add (mode_fun c (Lagrange lam) (vadd (mat_vec D x) alpha))
      (Fin (quad_fun (coef q) (fbcast (length D) (center q)) (fbcast (length D) (linear_term q)) (constant_term q) (mat_vec D x)))).
Proof. exact cls_affine_value. Qed.
Print Assumptions C32_affine.
Theorem C32_affine_constraint : forall c D n (alpha : vec) b q x, 0 <= b -> c = CL1 \/ c = CSup \/ c = CL2 \/ c = CPosPart -> (1 <= length D)%nat ->
  Forall (fun r => length r = n) D -> length alpha = length D -> q_shape (length D) q -> length x = n ->
  exists A e, cls_affine c D n (Some alpha) None (Some b) (Some q) = Ok A /\ aa_objective A x true = Ok e /\
    (in_ball c b (vadd (mat_vec D x) alpha) -> e = Fin (q_denot (length D) q (mat_vec D x))) /\
    (~ in_ball c (b * (1 + / 10 ^ 5)) (vadd (mat_vec D x) alpha) -> e = PInf).
Proof. exact cls_affine_constraint. Qed.
Print Assumptions C32_affine_constraint.
Theorem C32_linear : forall c D n lam q x chk, 0 <= lam -> c <> CConMax -> c <> CConPosPart -> (1 <= length D)%nat ->
  Forall (fun r => length r = n) D -> q_shape (length D) q -> length x = n ->
  exists A, cls_linear c D n (Some lam) None (Some q) None = Ok A /\
    aa_objective A x chk = Ok (ext_add (mode_fun c (Lagrange lam) (mat_vec D x))
      (Fin (quad_fun (coef q) (fbcast (length D) (center q)) (fbcast (length D) (linear_term q)) (constant_term q) (mat_vec D x)))).
Proof. exact cls_linear_value. Qed.
Print Assumptions C32_linear.
(** linear accepts an offset as well, and treats it like affine. *)
Theorem C32_linear_offset : forall c D n (alpha : vec) m q, mode_ok m -> Forall (fun r => length r = n) D -> length alpha = length D -> q_shape (length D) q ->
  exists A, cls_affine c D n (Some alpha) (lag_of m) (bnd_of m) (Some q) = Ok A /\ cls_linear c D n (lag_of m) (bnd_of m) (Some q) (Some alpha) = Ok A.
Proof. intros c D n alpha m q Hm HD La Hq. destruct (cls_affine_spec c D n alpha m q Hm HD La Hq) as (A & E1 & E2 & _). exists A. auto. Qed.
Print Assumptions C32_linear_offset.
(** shift evaluates h(x + alpha), where h(x - alpha) is documented. *)
Theorem C32_shift_partial : forall c (alpha : vec) lam q x chk, 0 <= lam -> c <> CConMax -> c <> CConPosPart -> (1 <= length x)%nat ->
  length alpha = length x -> q_shape (length x) q ->
  exists a, cls_shift c alpha (Some lam) None (Some q) = Ok a /\
    nonsmooth_objective a x chk = Ok (ext_add (mode_fun c (Lagrange lam) (vadd x alpha))
      (Fin (quad_fun (coef q) (fbcast (length x) (center q)) (fbcast (length x) (linear_term q)) (constant_term q) x))).
Proof. exact cls_shift_value. Qed.
Print Assumptions C32_shift_partial.
Theorem C32_shift_refuted : exists a, cls_shift CL1 [1] (Some 1) None None = Ok a /\ nonsmooth_objective a [1] false = Ok (Fin 2) /\ mode_fun CL1 (Lagrange 1) (vsub [1] [1]) = Fin 0.
Proof. exact shift_sign. Qed.
Print Assumptions C32_shift_refuted.
(** affine_atom over a transform with offset b subtracts b, where its documentation adds it. *)
Theorem C32_affine_atom_partial : forall n a m lam t o x chk, (1 <= m)%nat -> atom_wf m a -> 0 <= lam -> atom_mode a (Lagrange lam) -> klass a <> CConMax -> klass a <> CConPosPart ->
  true_adjoint t -> t_out t = m -> t_in t = n -> t_off t = Some o -> (forall b, o = Some b -> length b = m) -> length x = n ->
  exists A, new_affine_atom a t true = Ok A /\
    aa_objective A x chk = Ok (ext_add (mode_fun (klass a) (Lagrange lam) (vsub (vsub (t_lin t x) (atom_off m a)) (off_vec m o)))
      (Fin (quad_fun (coef (a_quadratic a)) (fbcast m (center (a_quadratic a))) (fbcast m (linear_term (a_quadratic a))) (constant_term (a_quadratic a)) (t_lin t x)))).
Proof. exact affine_atom_value. Qed.
Print Assumptions C32_affine_atom_partial.
Theorem C32_affine_atom_refuted : exists a A, new_atom CL1 1 (Some 1) None None None = Ok a /\ new_affine_atom a (matrix [[1]] 1 (Some [1])) true = Ok A /\
  aa_objective A [1] false = Ok (Fin 0) /\ mode_fun CL1 (Lagrange 1) (t_aff (matrix [[1]] 1 (Some [1])) [1]) = Fin 2.
Proof. exact affine_atom_sign. Qed.
Print Assumptions C32_affine_atom_refuted.
(** and a transform with an offset that is not itself an affine_transform cannot be used *)
Theorem C32_nested_refuted : forall a t b, (exists a', copy_atom a = Ok a') -> t_off t = Some (Some b) -> new_affine_atom a t false = Err AttributeError.
Proof. exact affine_atom_nested. Qed.
Print Assumptions C32_nested_refuted.
Theorem C32_dual : forall c D n (alpha : vec) m q, mode_ok m -> Forall (fun r => length r = n) D -> length alpha = length D -> q_shape (length D) q -> coef q = 0 ->
  exists A L d, cls_affine c D n (Some alpha) (lag_of m) (bnd_of m) (Some q) = Ok A /\ aa_dual A = Ok (L, d) /\
    (forall x, length x = n -> t_lin L x = mat_vec D x) /\
    forall u, length u = length D -> is_fenchel (length D) (atom_doc (length D) (aa_atom A) m) u (atom_doc (length D) d (dual_mode m) u).
Proof. exact affine_dual. Qed.
Print Assumptions C32_dual.
Example C32_case : let D := [[1; 0; 2]; [0; 3; 1]] in Forall (fun r => length r = 3%nat) D /\ length [1; 2] = length D /\ q_shape (length D) (mk_iq 0 (FScal 0) (FVec [1; 1]) 2) /\ mode_ok (Lagrange 2).
Proof. cbv zeta. split; [repeat constructor|]. split; auto. split; [split; [exact I|reflexivity]|cbn; lra]. Qed.

(** ** C51 *)
Theorem C51_divided_differences : forall f (X : vec) order sorted, NoDup X -> (order <= length X)%nat ->
  exists T, difference_transform X order sorted = Ok T /\ true_adjoint T /\ let Y := if sorted then X else np_sort X in
    t_in T = length X /\ t_out T = (length X - order)%nat /\
    t_lin T (map f Y) = map (divided f Y order) (seq 0 (length X - order)).
Proof. intros f X order sorted H1 H2. destruct (difference_values f X order sorted H1 H2) as (T & E & H). exists T. split; auto. split; auto. apply built_good. eapply difference_built; eauto. Qed.
Print Assumptions C51_divided_differences.
(** Polynomials of lower degree give 0, those of degree [order] their leading coefficient. *)
Theorem C51_polynomials : forall c (X : vec) order sorted, NoDup X -> (order <= length X)%nat -> (length c <= S order)%nat ->
  exists T, difference_transform X order sorted = Ok T /\
    t_lin T (map (poly c) (if sorted then X else np_sort X)) = const_vec (length X - order) (if Nat.eqb (length c) (S order) then last c 0 else 0).
Proof. exact difference_polynomial. Qed.
Print Assumptions C51_polynomials.
Theorem C51_too_high : forall (X : vec) order sorted, (length X < order)%nat -> difference_transform X order sorted = Err ValueError.
Proof. exact difference_too_high. Qed.
Print Assumptions C51_too_high.
Theorem C51_inverse_partial : forall X, increasing X -> (1 <= length X)%nat -> exists D V, trend_filter X 1 = Ok D /\ trend_filter_inverse X 1 = Ok V /\
  true_adjoint V /\ t_in V = t_out D /\ t_out V = t_in D /\
  (forall x, length x = t_in V -> t_lin D (t_lin V x) = x /\ mean (t_lin V x) = 0) /\
  (forall v, length v = t_in D -> t_lin V (t_lin D v) = map (fun a => a - mean v) v).
Proof. exact inverse_spec. Qed.
Print Assumptions C51_inverse_partial.
Theorem C51_inverse_order : forall X order, order <> 1%nat -> trend_filter_inverse X order = Err ValueError.
Proof. exact inverse_order. Qed.
Print Assumptions C51_inverse_order.
(** unsorted knots *)
Theorem C51_inverse_unsorted_refuted : exists D V, trend_filter [0; 2; 1] 1 = Ok D /\ trend_filter_inverse [0; 2; 1] 1 = Ok V /\ t_lin D (t_lin V [0; 1]) = [0; - 1].
Proof. exact inverse_unsorted. Qed.
Print Assumptions C51_inverse_unsorted_refuted.
(** adjoint_map on arrays with columns *)
Theorem C51_inverse_adjoint_2d_refuted : let s := steps_of [0; 1; 2] in
  dot (concat (tfi_linear2 s [[1; 0]])) [0; 0; 1] = / 3 /\ dot [1; 0] (concat (tfi_adjoint2 s [[0; 0; 1]])) = - / 3.
Proof. exact inverse_adjoint_2d. Qed.
Print Assumptions C51_inverse_adjoint_2d_refuted.
Example C51_case : increasing [0; 1; 3; 4] /\ NoDup [0; 1; 3; 4] /\ (2 <= length [0; 1; 3; 4])%nat.
Proof. assert (increasing [0; 1; 3; 4]) by (cbn; repeat split; lra). split; auto. split; [apply increasing_NoDup; auto|cbn; lia]. Qed.

(** ** C64 *)
Theorem C64_normalized_columns : forall M p ctr scl ddof value, Forall (fun r => length r = p) M -> M <> [] -> 0 < INR (length M) - ddof ->
  exists T, normalize M p ctr scl false ddof value = Ok T /\ t_in T = p /\ t_out T = length M /\ forall j, (j < p)%nat ->
    let c := column_of T j in
    let centred := if ctr then map (fun a => a - mean (column M j)) (column M j) else column M j in
    let sd v := sqrt (sqn v / (INR (length M) - (if ctr then ddof else ddof - 1))) in
    (ctr = true -> vsum c = 0) /\
    (exists k, c = vscal k centred /\ (scl = false -> k = 1)) /\
    (scl = true -> sd centred <> 0 -> 0 <= value -> sd c = value) /\
    (scl = true -> sd centred = 0 -> c = zeros (length M)).
Proof. exact normalize_spec. Qed.
Print Assumptions C64_normalized_columns.
Theorem C64_intercept : forall M p ctr scl ddof value b x, exists T T0, normalize M p ctr scl true ddof value = Ok T /\ normalize M p ctr scl false ddof value = Ok T0 /\
  t_in T = S (t_in T0) /\ t_lin T (b :: x) = map (fun v => v + b) (t_lin T0 x).
Proof. exact normalize_intercept. Qed.
Print Assumptions C64_intercept.
Example C64_case : let M := [[1; 2]; [3; 2]; [5; 2]] in Forall (fun r => length r = 2%nat) M /\ M <> [] /\ 0 < INR (length M) - 1.
Proof. cbv zeta. split; [repeat constructor|]. split; [discriminate|cbn; lra]. Qed.

(** ** C65 *)
Theorem C65_power_L_partial : forall its tol t L v r, true_adjoint t -> opnorm_bound t L -> length v = t_in t -> (2 <= its)%nat -> tol < 1 ->
  tol < Rabs (norm (t_adj t (t_lin t v)) - 1) / norm (t_adj t (t_lin t v)) -> power_L its tol t v = Ok r -> r <= L.
Proof. exact power_L_bound. Qed.
Print Assumptions C65_power_L_partial.
(** stopped by an unlucky start: 1 for an operator of squared norm 1/4 *)
Theorem C65_power_L_refuted : exists t, built t /\ opnorm_bound t (1/4) /\ forall its, (1 <= its)%nat -> power_L its (/ 10 ^ 8) t [4] = Ok 1.
Proof. exact power_L_one_pass. Qed.
Print Assumptions C65_power_L_refuted.
Example C65_case : let t := matrix [[2]] 1 None in true_adjoint t /\ opnorm_bound t 4 /\ / 10 ^ 8 < Rabs (norm (t_adj t (t_lin t [1])) - 1) / norm (t_adj t (t_lin t [1])).
Proof.
  cbv zeta. split; [apply built_good, b_matrix; [repeat constructor|discriminate]|]. split.
  - intros [|a [|b x]] Lx; try discriminate. cbn. unfold sqn, dot, vsum, vmul. cbn. nra.
  - assert (N : norm (t_adj (matrix [[2]] 1 None) (t_lin (matrix [[2]] 1 None) [1])) = 4).
    { cbn. unfold norm, sqn, dot, vsum, vmul, mat_vec. cbn. unfold dot, vsum, vmul. cbn. match goal with |- sqrt ?e = _ => replace e with (4 * 4) by ring end. apply sqrt_square. lra. }
    rewrite N. rewrite Rabs_pos_eq by lra. lra.
Qed.

(** Proofs about nonsmooth.solve, smooth.solve, simple_problem and separable. *)
From Coq Require Import Reals List Lra Lia Arith Bool.
From Verif Require Import M_affine SpecAffine P_affine M_loss SpecLoss M_smooth SpecSmooth P_smooth Vec Spec SpecConvex M_quad P_quad P_calc P_sep P_loss M_prox M_semi SpecAtom P_semi P_conj M_shift SpecBase P_shift SpecCone M_cones P_cones M_fista SpecFista M_problem P_fista P_fista2 SpecProblem.
Import ListNotations.
Local Open Scope R_scope.

(** ** Convexity *)
Lemma ext_le_refl : forall a, ext_le a a.
Proof. intros [r|]; simpl; auto; lra. Qed.
Lemma fenchel_convex : forall n F G, (forall u, length u = n -> is_fenchel n F u (G u)) -> convex_ext n G.
Proof.
  intros n F G H x y t a b Lx Ly Ht Ex Ey. assert (Lz : length (between x y t) = n) by (apply between_length; auto).
  assert (Hx := H x Lx). assert (Hy := H y Ly). assert (Hz := H _ Lz). rewrite Ex in Hx. rewrite Ey in Hy. destruct Hx as [Hx _]. destruct Hy as [Hy _].
  assert (K : forall w r, length w = n -> F w = Fin r -> dot (between x y t) w - r <= (1 - t) * a + t * b).
  { intros w r Lw Ew. specialize (Hx w r Lw Ew). specialize (Hy w r Lw Ew). unfold between. rewrite dot_add_l, dot_scal_l, dot_sub_l by vlen. nra. }
  destruct (G (between x y t)) as [v|] eqn:Ez; simpl in *.
  - destruct (Rle_dec v ((1 - t) * a + t * b)) as [|N]; auto. exfalso. destruct Hz as [_ Hz]. destruct (Hz (v - ((1 - t) * a + t * b))) as (w & r & Lw & Ew & Hw); [lra|]. specialize (K w r Lw Ew). lra.
  - destruct (Hz ((1 - t) * a + t * b)) as (w & r & Lw & Ew & Hw). specialize (K w r Lw Ew). lra.
Qed.
Lemma quad_between : forall n q x y t, q_shape n q -> length x = n -> length y = n -> 0 <= t <= 1 ->
  q_denot n q (between x y t) = (1 - t) * q_denot n q x + t * q_denot n q y - coef q / 2 * (t * (1 - t)) * sqn (vsub y x).
Proof.
  intros n q x y t [S1 S2] Lx Ly Ht. unfold q_denot, quad_fun. assert (L1 := fbcast_length n _ S1). assert (L2 := fbcast_length n _ S2).
  set (m := fbcast n (center q)) in *. set (e := fbcast n (linear_term q)) in *. rewrite dot_between by congruence. unfold between.
  rewrite !sqn_sub, sqn_add, sqn_scal, dot_scal_r, dot_add_l, dot_scal_l, !dot_sub_l, !dot_sub_r by vlen. rewrite (sqn_sub y x) by congruence. rewrite (dot_comm y x). unfold sqn. lra.
Qed.
Lemma plus_quad_convex : forall n H q, convex_ext n H -> q_shape n q -> 0 <= coef q -> convex_ext n (plus_quad n H q).
Proof.
  intros n H q C Sq Hq x y t a b Lx Ly Ht Ex Ey. unfold plus_quad in *. destruct (H x) as [rx|] eqn:E1; [|discriminate]. destruct (H y) as [ry|] eqn:E2; [|discriminate].
  injection Ex as <-. injection Ey as <-. specialize (C x y t rx ry Lx Ly Ht E1 E2). destruct (H (between x y t)) as [rz|]; simpl in *; [|auto].
  rewrite (quad_between n) by auto. assert (0 <= coef q / 2 * (t * (1 - t)) * sqn (vsub y x)). { apply Rmult_le_pos; [|apply sqn_nonneg]. apply Rmult_le_pos; nra. } lra.
Qed.
Lemma convex_ext_ext : forall n F G, (forall x, length x = n -> F x = G x) -> convex_ext n F -> convex_ext n G.
Proof. intros n F G E C x y t a b Lx Ly Ht Ex Ey. rewrite <- E in * by (auto using between_length). apply C; auto. Qed.
Lemma convex_shift : forall n H o, length o = n -> convex_ext n H -> convex_ext n (fun x => H (vsub x o)).
Proof.
  intros n H o Lo C x y t a b Lx Ly Ht Ex Ey. assert (E : vsub (between x y t) o = between (vsub x o) (vsub y o) t).
  { unfold between. assert (K : length (vsub (vadd x (vscal t (vsub y x))) o) = n) by vlen. apply nth_ext with 0 0; [vlen|]. intros i Hi. rewrite K in Hi. unfold vsub, vadd, vscal. nths n. lra. }
  cbv beta. rewrite E. apply C; auto; vlen.
Qed.
Lemma mode_convex : forall c n m, mode_ok m -> convex_ext n (mode_fun c m).
Proof.
  intros c n m Hm. apply fenchel_convex with (mode_fun (pair_class c) (dual_mode m)). intros u Lu.
  assert (K := mode_fenchel (pair_class c) (dual_mode m) n u Lu ltac:(destruct m; auto)). replace (dual_mode (dual_mode m)) with m in K by (destruct m; auto). rewrite pair_invol in K. auto.
Qed.
Lemma cone_convex : forall k n, cone_dim k n -> convex_ext n (cone_fun k).
Proof. intros k n Hd. apply fenchel_convex with (cone_fun (polar_class k)). intros u Lu. rewrite <- (polar_invol k) at 2. apply cone_fenchel; auto. destruct k; auto. Qed.

(** ** The atoms of the model as objects *)
Lemma atom_canonical : forall n a m, atom_wf n a -> atom_mode a m -> mode_ok m -> new_atom (klass a) n (lag_of m) (bnd_of m) (Some (atom_off n a)) (Some (a_quadratic a)) = Ok a.
Proof.
  intros n a m (Hs & Ho & Hq) [El Eb] Hm. rewrite new_atom_ok by auto. destruct a as [k sh la bo off q]. cbn in *. subst sh la bo. unfold atom_off. cbn. f_equal. f_equal.
  destruct off as [o|]; cbn.
  - destruct (Ho o eq_refl) as [Lo No]. destruct (all_zero o) eqn:E; auto. apply P_quad.all_zero_spec in E. congruence.
  - replace (all_zero (zeros n)) with true; auto. symmetry. apply P_quad.all_zero_spec. unfold zeros. rewrite repeat_length. auto.
Qed.
Lemma atom_off_len : forall n a, atom_wf n a -> length (atom_off n a) = n.
Proof. intros n a (Hs & Ho & Hq). unfold atom_off, off_vec. destruct (a_offset a) as [o|]; [apply Ho; auto|unfold zeros; apply repeat_length]. Qed.
Lemma atom_prox : forall n a m p, (1 <= n)%nat -> atom_wf n a -> mode_ok m -> atom_mode a m -> q_shape n p -> 0 < coef (a_quadratic a) + coef p -> has_vec (a_quadratic a) \/ has_vec p \/ a_offset a <> None ->
  exists v, proximal a (AQuad p) = Ok v /\ is_unique_argmin n (plus_quad n (atom_doc n a m) p) v.
Proof.
  intros n a m p Hn W Hm Em Hp HL Hv. destruct (proximal_correct (klass a) n m (atom_off n a) (a_quadratic a) p) as (a' & v & E1 & E2 & E3); auto.
  - apply atom_off_len; auto.
  - apply W.
  - destruct Hv as [H|[H|H]]; auto. right. right. unfold atom_off. destruct (a_offset a) as [o|] eqn:E; [|tauto]. destruct W as (_ & Ho & _). apply Ho. auto.
  - assert (a' = a) by (apply Ok_inj; etransitivity; [symmetry; exact E1|apply atom_canonical; auto]). subst a'. exists v. split; auto.
Qed.
Lemma atom_doc_convex : forall n a m, atom_wf n a -> mode_ok m -> 0 <= coef (a_quadratic a) -> convex_ext n (atom_doc n a m).
Proof.
  intros n a m W Hm Hc. apply (plus_quad_convex n (fun x => mode_fun (klass a) m (vsub x (atom_off n a))) (a_quadratic a)); auto; [|apply W].
  apply convex_shift; [apply atom_off_len; auto|]. apply mode_convex; auto.
Qed.
(** the classes and modes whose values are right (C12, C55) *)
Definition value_ok (c : snclass) (m : smode) : Prop :=
  match m with Lagrange _ => c <> CConMax /\ c <> CConPosPart | Bound _ => c = CL1 \/ c = CSup \/ c = CL2 \/ c = CPosPart end.
Theorem atom_exact : forall n a m, (1 <= n)%nat -> atom_wf n a -> mode_ok m -> atom_mode a m -> value_ok (klass a) m -> 0 <= coef (a_quadratic a) -> exact_obj n (atom_doc n a m) (of_atom a).
Proof.
  intros n a m Hn W Hm Em Hv Hc. split.
  - apply atom_doc_convex; auto.
  - intros x r chk Lx E. unfold of_atom. cbn [o_value]. destruct m as [lam|b].
    + rewrite (nonsmooth_objective_lagrange n a lam) by (auto; apply Hv). congruence.
    + destruct (nonsmooth_objective_bound n a b x) as (E0 & e & E1 & E2 & _); auto. unfold atom_doc, doc_objective in E. destruct (mode_fun (klass a) (Bound b) (vsub x (atom_off n a))) as [s|] eqn:Es; [|discriminate].
      assert (s = 0 /\ in_ball (klass a) b (vsub x (atom_off n a))) as [-> I]. { unfold mode_fun in Es. unfold in_ball. destruct (doc_seminorm (klass a) (vsub x (atom_off n a))) as [u|]; [|discriminate]. destruct (Rle_dec u b); [|discriminate]. injection Es as <-. auto. }
      cbn [ext_add] in E. replace r with (q_denot n (a_quadratic a) x) by (injection E as <-; unfold q_denot; lra). destruct chk; auto. rewrite E1, E2 by auto. auto.
  - intros q Sq Hq V. cbn [of_atom o_prox]. destruct (atom_prox n a m q) as (v & E & M); auto; [lra|]. exists v. split; auto. apply M.
Qed.
Theorem cone_exact : forall n c, cone_dim (c_class c) n -> c_class c <> KL2 -> c_class c <> KL2Polar -> base_wf n (c_base c) -> 0 <= coef (b_quadratic (c_base c)) ->
  exact_obj n (base_doc n (cone_fun (c_class c)) (c_base c)) (of_cone c).
Proof.
  intros n [k g] Hd N1 N2 W Hc. cbn in *. assert (Lo := base_off_length n g W). split.
  - apply (plus_quad_convex n (fun x => cone_fun k (vsub x (base_off n g))) (b_quadratic g)); auto; [|apply W]. apply convex_shift; auto. apply cone_convex; auto.
  - intros x r chk Lx E. cbn. destruct (cone_objective_correct k n g x Hd W Lx) as (E1 & E2 & _). unfold base_doc in E. destruct (cone_fun k (vsub x (base_off n g))) as [s|] eqn:Es; [|discriminate]. apply cone_fun_fin in Es. destruct Es as [I ->].
    destruct chk; [rewrite E2 by auto; unfold base_doc; rewrite cone_fun_in by auto; rewrite <- E; auto|rewrite E1; unfold base_doc; rewrite <- E; auto].
  - intros q Sq Hq V. destruct (cone_proximal_correct k n g q) as (v & E & M); auto; [lra|right; left; auto|]. exists v. split; auto. apply M.
Qed.

Lemma exact_obj_ext : forall n H H' A, (forall x, length x = n -> H x = H' x) -> exact_obj n H A -> exact_obj n H' A.
Proof.
  intros n H H' A E EX. split.
  - apply (convex_ext_ext n H); auto. apply EX.
  - intros x r chk Lx Ex. apply (eo_value _ _ _ EX); auto. rewrite E; auto.
  - intros q Sq Hq V. destruct (eo_prox _ _ _ EX q Sq Hq V) as (v & Ev & Lv & (r & Er) & M). exists v. split; auto. unfold plus_quad in *. rewrite E in Er by auto. split; auto. split; [eauto|]. intros z Lz. rewrite <- !E by auto. auto.
Qed.
Lemma zero_exact : forall n, (1 <= n)%nat -> exact_obj n (fun _ => Fin 0) (of_cone (new_cone KZero n None None)).
Proof.
  intros n Hn. apply (exact_obj_ext n (base_doc n (cone_fun KZero) (new_base n None None))).
  - intros x Lx. unfold base_doc. rewrite cone_fun_in by (cbn; exact I). cbn [ext_add b_quadratic new_base coef center linear_term constant_term fbcast]. f_equal. unfold quad_fun. rewrite const_vec_0, dot_zeros_l. lra.
  - apply (cone_exact n (new_cone KZero n None None)); [exact Hn|discriminate|discriminate| |cbn; lra]. split; auto. split; [intros o Eo; discriminate|split; exact I].
Qed.

(** ** nonsmooth.solve *)
Theorem nonsmooth_solve_spec : forall n H A q, exact_obj n H A -> q_shape n q -> 0 < coef q -> has_vec q ->
  exists v x, nonsmooth_solve A (Some q) = Ok (v, x) /\ is_argmin n (plus_quad n H q) x /\ v = plus_quad n H q x.
Proof.
  intros n H A q EX Sq Hq V. destruct (eo_prox _ _ _ EX q Sq Hq V) as (x & E & M). assert (M' := M). destruct M as (Lx & (r & Er) & _). unfold plus_quad in Er. destruct (H x) as [hx|] eqn:Eh; [|discriminate].
  unfold nonsmooth_solve. rewrite E. cbn [rbind]. rewrite (eo_value _ _ _ EX x hx false Lx Eh). cbn [rmap ext_add]. exists (Fin (0 + hx + q_func q x)), x. split; auto. split; auto. unfold plus_quad. rewrite Eh. cbn. f_equal. rewrite (q_func_eq n) by auto. lra.
Qed.

(** ** Sums of quadratics *)
Lemma add_quad : forall n q p, q_shape n q -> q_shape n p -> center_ok n q -> center_ok n p -> exists s, q_add q (AQuad p) = Ok s /\ q_shape n s /\ center_ok n s /\ coef s = coef q + coef p /\ (has_vec q \/ has_vec p -> has_vec s) /\
  forall x, length x = n -> q_denot n s x = q_denot n q x + q_denot n p x.
Proof.
  intros n q p Sq Sp Cq Cp. destruct (q_add_denot n q p Sq Sp Cq Cp) as (s & E & Ss & Cs & Hd). exists s. split; auto. split; auto. split; auto. cbn [q_add] in E. apply Ok_inj in E. subst s. cbn [coef]. split; [reflexivity|]. split; auto.
  unfold has_vec. cbn [center linear_term]. unfold collapsed. destruct (center q) as [|cq|vq], (linear_term q) as [|lq|wq], (center p) as [|cp|vp], (linear_term p) as [|lp|wp]; cbn; tauto.
Qed.
Lemma good_sum : forall n q p, good_quad n q -> good_quad n p -> exists s, q_add q (AQuad p) = Ok s /\ good_quad n s /\ forall x, length x = n -> q_denot n s x = q_denot n q x + q_denot n p x.
Proof.
  intros n q p (Sq & Cq & Hq) (Sp & Cp & Hp). destruct (add_quad n q p Sq Sp Cq Cp) as (s & E & Ss & Cs & Ec & _ & Hd). exists s. split; auto. split; auto. split; auto. split; auto. lra.
Qed.

(** ** simple_problem *)
Lemma smooth_convex : forall n a, good_smooth n a -> convex_on n (s_func a).
Proof.
  intros n a (W & C & _ & Hx). apply (tangent_convex n (s_func a) (s_grad a)).
  - intros x Lx. destruct (smooth_gradient a n x W Lx) as [L _]; [apply Hx; auto|auto].
  - intros x y Lx Ly. apply (smooth_tangent a n); auto. apply Hx; auto.
Qed.
Theorem simple_exact : forall n H P, good_smooth n (p_smooth P) -> exact_obj n H (p_atom P) -> good_quad n (p_quadratic P) ->
  exact_problem n (s_func (p_smooth P)) (simple_fun n (p_smooth P) H (p_quadratic P)) (simple_composite P).
Proof.
  intros n H P GS EX GQ. assert (GS' := GS). destruct GS' as (W & C & (Sa & Ca & Ha) & Hx). assert (GQ' := GQ). destruct GQ' as (Sq & Cq & Hq).
  split; cbn [c_smooth c_grad c_nonsmooth c_prox simple_composite].
  - apply smooth_convex; auto.
  - intros x Lx. apply smooth_gradient; auto. apply Hx; auto.
  - apply plus_quad_convex; auto. apply plus_quad_convex; auto. apply EX.
  - auto.
  - intros x r chk Lx E. unfold simple_fun, plus_quad in E. destruct (H x) as [hx|] eqn:Eh; [|discriminate]. unfold simple_nonsmooth. rewrite (eo_value _ _ _ EX x hx chk Lx Eh). cbn [rmap or_inf ext_add] in *. rewrite !(q_func_eq n) by auto. auto.
  - intros L w g HL Lw Lg. set (q0 := mk_iq L (FVec w) (FVec g) 0). assert (S0 : q_shape n q0) by (split; cbn; auto).
    destruct (add_quad n q0 (s_quadratic (p_smooth P)) S0 Sa I Ca) as (q1 & E1 & S1 & C1 & K1 & V1 & D1). destruct (add_quad n q1 (p_quadratic P) S1 Sq C1 Cq) as (q2 & E2 & S2 & C2 & K2 & V2 & D2).
    destruct (eo_prox _ _ _ EX q2) as (v & Ev & M); auto; [rewrite K2, K1; cbn; lra|apply V2; left; apply V1; left; exact I|].
    unfold simple_proximal. fold q0. rewrite E1. cbn [rbind]. rewrite E2. cbn [rbind]. rewrite Ev. cbn [or_nil].
    assert (K : forall z, length z = n -> plus_quad n H q2 z = ext_add (simple_fun n (p_smooth P) H (p_quadratic P) z) (Fin (L / 2 * sqn (vsub z w) + dot g z))).
    { intros z Lz. unfold simple_fun, plus_quad. destruct (H z) as [hz|]; cbn [ext_add]; auto. f_equal. rewrite D2, D1 by auto. change (q_denot n q0 z) with (L / 2 * sqn (vsub z w) + dot g z + 0). lra. }
    destruct M as (Lv & (r & Er) & Mv). split; auto. split; [exists r; rewrite <- K; auto|]. intros z Lz. rewrite <- !K by auto. auto.
Qed.
Lemma simple_value_spec : forall n H P x chk, good_smooth n (p_smooth P) -> exact_obj n H (p_atom P) -> good_quad n (p_quadratic P) -> length x = n ->
  (exists r, simple_fun n (p_smooth P) H (p_quadratic P) x = Fin r) -> simple_value P x chk = objective (s_func (p_smooth P)) (simple_fun n (p_smooth P) H (p_quadratic P)) x.
Proof.
  intros n H P x chk GS EX GQ Lx [r Er]. unfold simple_value, objective. f_equal. destruct (simple_exact n H P GS EX GQ) as [_ _ _ _ K _]. rewrite Er. apply (K x r chk); auto.
Qed.
Lemma exact_problem_ext : forall n f h h' C, (forall x, length x = n -> h x = h' x) -> exact_problem n f h C -> exact_problem n f h' C.
Proof.
  intros n f h h' C E EX. split; try apply EX.
  - apply (convex_ext_ext n h); auto. apply EX.
  - intros x r chk Lx Ex. apply (ex_nonsmooth _ _ _ _ EX); auto. rewrite E; auto.
  - intros L w g HL Lw Lg. destruct (ex_prox _ _ _ _ EX L w g HL Lw Lg) as (Lp & (r & Er) & M). split; auto. rewrite (E _ Lp) in Er. split; eauto. intros z Lz. rewrite <- (E z), <- (E (c_prox C L w g)) by auto. auto.
Qed.
Lemma plus_quad_add : forall n H q p s x, length x = n -> (forall x, length x = n -> q_denot n s x = q_denot n q x + q_denot n p x) -> plus_quad n H s x = plus_quad n (plus_quad n H q) p x.
Proof. intros n H q p s x Lx D. unfold plus_quad. destruct (H x); cbn [ext_add]; auto. f_equal. rewrite D by auto. lra. Qed.
(** The problem FISTA runs on, and what solve reports afterwards. *)
Theorem simple_solve_spec : forall n H P q loops fuel prm P' v x,
  good_smooth n (p_smooth P) -> exact_obj n H (p_atom P) -> good_quad n (p_quadratic P) -> good_quad n q ->
  length (p_coefs P) = n -> (exists r, H (p_coefs P) = Fin r) -> p_backtrack prm = true -> 0 < p_start_step prm ->
  simple_solve loops fuel prm P (Some q) = (P', Ok (v, x)) ->
  let h := plus_quad n (simple_fun n (p_smooth P) H (p_quadratic P)) q in
  P' = with_coefs P x /\ length x = n /\ (exists r, v = Fin r) /\ v = objective (s_func (p_smooth P)) h x /\
  exists newq s, q_add (p_quadratic P) (AQuad q) = Ok newq /\ let C := simple_composite (with_quadratic P newq) in
    exact_problem n (s_func (p_smooth P)) h C /\ good_start h C (p_coefs P) /\ fit loops fuel prm C (p_coefs P) None false = Ok s /\ s_coefs s = x.
Proof.
  intros n H P q loops fuel prm P' v x GS EX GQ Gq Lc (hc & Ehc) Hb Hs E h. unfold simple_solve in E. destruct (good_sum n (p_quadratic P) q GQ Gq) as (nq & En & Gn & Dn). rewrite En in E.
  destruct (fit loops fuel prm (simple_composite (with_quadratic P nq)) (p_coefs P) None false) as [s|e] eqn:Ef; [|discriminate]. injection E as EP Ev Ec.
  assert (X : exact_problem n (s_func (p_smooth P)) h (simple_composite (with_quadratic P nq))).
  { apply (exact_problem_ext n _ (simple_fun n (p_smooth P) H nq)). { intros z Lz. unfold h, simple_fun. apply plus_quad_add; auto. } apply (simple_exact n H (with_quadratic P nq)); auto. }
  assert (Hh : exists r, h (p_coefs P) = Fin r). { unfold h, simple_fun, plus_quad. rewrite Ehc. cbn [ext_add]. eauto. }
  assert (G : good_start h (simple_composite (with_quadratic P nq)) (p_coefs P)). { destruct Hh as (r & Er). unfold good_start. rewrite Er. apply (ex_nonsmooth _ _ _ _ X); auto. }
  assert (SF : steps_fit n prm (simple_composite (with_quadratic P nq))) by (left; auto).
  destruct (exact_fit n _ h _ X prm SF loops fuel (p_coefs P) None false s) as (_ & _ & _ & Lx); auto.
  destruct (finite_fit n _ h _ X prm SF loops fuel (p_coefs P) None false s) as (r & Er); auto.
  rewrite Ec in Lx, Er.
  assert (V : v = objective (s_func (p_smooth P)) h x).
  { rewrite <- Ev, Ec. assert (Eh : simple_fun n (p_smooth P) H nq x = h x) by (unfold h, simple_fun; apply plus_quad_add; auto).
    unfold objective. rewrite <- Eh. apply (simple_value_spec n H (with_coefs (with_quadratic P nq) x) x false); auto. cbn [p_smooth p_quadratic with_coefs with_quadratic]. exists r. rewrite Eh. auto. }
  split; [rewrite <- EP, Ec; destruct P; reflexivity|]. split; auto. split; [rewrite V; unfold objective; rewrite Er; cbn [ext_add]; eauto|]. split; auto.
  exists nq, s. cbv zeta. auto.
Qed.
(** If fit raises, the problem keeps the added quadratic. *)
Theorem simple_solve_raises : forall loops fuel prm P q newq e, q_add (p_quadratic P) (AQuad q) = Ok newq -> fit loops fuel prm (simple_composite (with_quadratic P newq)) (p_coefs P) None false = Err e ->
  simple_solve loops fuel prm P (Some q) = (with_quadratic P newq, Err e).
Proof. intros loops fuel prm P q newq e E F. unfold simple_solve. rewrite E. cbv zeta. rewrite F. reflexivity. Qed.

(** ** smooth.solve *)
Lemma square_min : forall n L l c, 0 < L -> length l = n -> is_argmin n (fun z => Fin (L / 2 * sqn z + dot l z + c)) (map (fun t => - t / L) l).
Proof.
  intros n L l c HL Ll. assert (E : map (fun t => - t / L) l = vscal (- / L) l) by (apply map_ext; intros t; field; lra). rewrite E. split; [vlen|]. split; [eauto|]. intros z Lz. cbn [ext_le].
  rewrite sqn_scal, dot_scal_r. assert (Q := sqn_nonneg (vadd z (vscal (/ L) l))). rewrite sqn_add, sqn_scal, dot_scal_r in Q by vlen. rewrite (dot_comm l z). unfold sqn in *. set (zz := dot z z) in *. set (ll := dot l l) in *. set (zl := dot z l) in *.
  assert (K : L / 2 * (- / L * - / L * ll) + - / L * ll = - (/ L / 2 * ll)) by (field; lra). assert (K2 : L / 2 * (zz + / L * / L * ll + 2 * (/ L * zl)) = L / 2 * zz + / L / 2 * ll + zl) by (field; lra). nra.
Qed.
Lemma smooth_proximal_spec : forall n a q, good_quad n (s_quadratic a) -> q_shape n q -> center_ok n q -> 0 < coef q -> has_vec q ->
  exists v, smooth_proximal a q = Ok v /\ is_argmin n (fun z => Fin (q_denot n (s_quadratic a) z + q_denot n q z)) v.
Proof.
  intros n a q (Sa & Ca & Ha) Sq Cq Hq V. destruct (add_quad n (s_quadratic a) q Sa Sq Ca Cq) as (t & E & St & Ct & Kt & Vt & Dt). unfold smooth_proximal. rewrite E. cbn [rbind].
  assert (Zt : center t = FScal 0). { cbn [q_add] in E. apply Ok_inj in E. subst t. reflexivity. }
  specialize (Vt (or_intror V)). unfold has_vec in Vt. rewrite Zt in Vt. destruct (linear_term t) as [|?|l] eqn:El; try (exfalso; tauto).
  destruct (Req_EM_T (coef t) 0) as [Z|_]; [exfalso; lra|]. assert (Ll : length l = n). { destruct St as [_ K]. rewrite El in K. exact K. }
  assert (M := square_min n (coef t) l (constant_term t)). destruct M as (L1 & _ & M); auto; [lra|]. eexists. split; [reflexivity|]. split; auto. split; [eauto|]. intros z Lz. rewrite <- !Dt by auto. specialize (M z Lz).
  assert (K : forall y, length y = n -> q_denot n t y = coef t / 2 * sqn y + dot l y + constant_term t). { intros y Ly. unfold q_denot. rewrite Zt, El. cbn [fbcast]. rewrite const_vec_0. unfold quad_fun. rewrite vsub_zeros_r by auto. reflexivity. }
  rewrite !K by auto. exact M.
Qed.
Lemma set_quadratic_func : forall a q x, s_func (set_quadratic a q) x = s_func a x.
Proof. intros a q x. destruct a; reflexivity. Qed.
Lemma set_quadratic_grad : forall a q x, s_grad (set_quadratic a q) x = s_grad a x.
Proof. intros a q x. destruct a; reflexivity. Qed.
Lemma set_quadratic_quadratic : forall a q, s_quadratic (set_quadratic a q) = q.
Proof. intros a q. destruct a; reflexivity. Qed.
Lemma set_quadratic_back : forall a q, set_quadratic (set_quadratic a q) (s_quadratic a) = a.
Proof. intros a q. destruct a; reflexivity. Qed.
Lemma set_quadratic_good : forall n a q, good_smooth n a -> good_quad n q -> good_smooth n (set_quadratic a q).
Proof. intros n a q (W & C & _ & Hx) G. destruct a; (split; [exact W|]; split; [exact C|]; split; [exact G|exact Hx]). Qed.
Theorem smooth_exact : forall n a l, good_smooth n a -> exact_problem n (s_func a) (own_quad n (s_quadratic a)) (smooth_composite a l).
Proof.
  intros n a l GS. assert (GS' := GS). destruct GS' as (W & C & G & Hx). assert (G' := G). destruct G' as (Sa & Ca & Ha). split; cbn [c_smooth c_grad c_nonsmooth c_prox smooth_composite].
  - apply smooth_convex; auto.
  - intros x Lx. apply smooth_gradient; auto. apply Hx; auto.
  - apply (convex_ext_ext n (plus_quad n (fun _ => Fin 0) (s_quadratic a))); [intros x Lx; unfold plus_quad, own_quad; cbn; f_equal; lra|]. apply plus_quad_convex; auto. intros x y t u v _ _ _ E1 E2. injection E1 as <-. injection E2 as <-. cbn. lra.
  - auto.
  - intros x r chk Lx E. rewrite (q_func_eq n) by auto. exact E.
  - intros L w g HL Lw Lg. set (q0 := mk_iq L (FVec w) (FVec g) 0). destruct (smooth_proximal_spec n a q0) as (v & Ev & Lv & _ & M); auto; [split; cbn; auto|exact I|exact I|]. rewrite Ev. cbn [or_nil].
    split; auto. split; [cbn; eauto|]. intros z Lz. specialize (M z Lz). change (q_denot n q0 z) with (L / 2 * sqn (vsub z w) + dot g z + 0) in M. change (q_denot n q0 v) with (L / 2 * sqn (vsub v w) + dot g v + 0) in M. cbn in M |- *. lra.
Qed.
Theorem smooth_solve_spec : forall n a q l loops fuel prm x0 a' x1 v x,
  good_smooth n a -> good_quad n q -> length x0 = n -> steps_fit n prm (smooth_composite a l) -> 0 < p_start_step prm ->
  smooth_solve loops fuel prm l a x0 (Some q) = (a', x1, Ok (v, x)) ->
  let h := plus_quad n (own_quad n (s_quadratic a)) q in
  a' = a /\ x1 = x /\ length x = n /\ v = s_func a x + q_denot n (s_quadratic a) x /\ (* not + q_denot n q x *)
  exists newq s, q_add (s_quadratic a) (AQuad q) = Ok newq /\ let C := smooth_composite (set_quadratic a newq) l in
    exact_problem n (s_func a) h C /\ good_start h C x0 /\ fit loops fuel prm C x0 None false = Ok s /\ s_coefs s = x.
Proof.
  intros n a q l loops fuel prm x0 a' x1 v x GS Gq L0 SF Hs E h. assert (GQ : good_quad n (s_quadratic a)) by apply GS. unfold smooth_solve in E. destruct (good_sum n (s_quadratic a) q GQ Gq) as (nq & En & Gn & Dn). rewrite En in E.
  destruct (fit loops fuel prm (smooth_composite (set_quadratic a nq) l) x0 None false) as [s|e] eqn:Ef; [|discriminate]. injection E as EP E1 Ev Ec.
  assert (Hh : forall z, length z = n -> own_quad n nq z = h z) by (intros z Lz; unfold h, plus_quad, own_quad; cbn; f_equal; auto).
  assert (X : exact_problem n (s_func a) h (smooth_composite (set_quadratic a nq) l)).
  { assert (X0 := smooth_exact n (set_quadratic a nq) l (set_quadratic_good n a nq GS Gn)). rewrite set_quadratic_quadratic in X0. apply (exact_problem_ext n _ _ h) in X0; auto.
    destruct X0 as [A1 A2 A3 A4 A5 A6]. split; auto; [intros y z t Ly Lz Ht; rewrite <- !(set_quadratic_func a nq); auto| |intros y Ly; cbn; rewrite set_quadratic_func; auto].
    intros y Ly. destruct (A2 y Ly) as [B1 B2]. split; auto. intros d Ld. specialize (B2 d Ld). apply derive_ext with (fun t => s_func (set_quadratic a nq) (vadd y (vscal t d))); auto. intros t. apply set_quadratic_func. }
  assert (G : good_start h (smooth_composite (set_quadratic a nq) l) x0). { unfold good_start. apply (ex_nonsmooth _ _ _ _ X); auto. }
  assert (SF' : steps_fit n prm (smooth_composite (set_quadratic a nq) l)).
  { destruct SF as [SF|[S1 S2]]; [left; auto|right; split; auto]. intros y z Ly Lz. cbn [c_grad smooth_composite c_lipschitz]. rewrite !set_quadratic_grad. apply (S2 y z); auto. }
  destruct (exact_fit n _ h _ X prm SF' loops fuel x0 None false s) as (_ & _ & _ & Lx); auto. rewrite Ec in *.
  rewrite set_quadratic_back in *. split; auto. split; auto. split; auto. split; [|exists nq, s; cbv zeta; auto].
  rewrite <- Ev. unfold smooth_value. rewrite (q_func_eq n); auto. apply GQ.
Qed.

(** ** No term lost *)
Lemma quiet_full : forall a x, quiet_parts a -> full_objective a x = meaning a x + q_denot (length x) (s_quadratic a) x.
Proof.
  induction a as [k m c off cw q|Q m c off q|m q|k m c off cw T goff q|a T q IH|l ws q IH] using satom_rect2; intros x K; cbn [full_objective meaning s_quadratic]; auto.
  - destruct K as [K1 K2]. rewrite IH by auto. rewrite K1. lra.
  - cbn [quiet_parts] in K. f_equal. f_equal. revert IH K. clear. induction l as [|a l IHl]; intros IH K; auto. destruct K as [[K1 K2] K3]. cbn [map]. f_equal; [rewrite (Forall_inv IH) by auto; rewrite K1; lra|]. apply IHl; auto. exact (Forall_inv_tail IH).
Qed.
Theorem full_kept : forall n a x, wf a n -> length x = n -> everywhere exact_case a x -> quiet_parts a -> s_objective n a x = full_objective a x.
Proof. intros n a x W Lx E K. rewrite quiet_full by auto. unfold s_objective, s_nonsmooth. rewrite (P_smooth.smooth_value a n) by auto. rewrite Lx. reflexivity. Qed.

(** ** first order conditions *)
Lemma first_order : forall n f (h : vec -> R) x g d, is_gradient n f x g -> length d = n -> (forall t, 0 <= t <= 1 -> h (vadd x (vscal t d)) <= (1 - t) * h x + t * h (vadd x d)) ->
  (forall t, 0 < t <= 1 -> f x + h x <= f (vadd x (vscal t d)) + h (vadd x (vscal t d))) -> length x = n -> 0 <= dot g d + h (vadd x d) - h x.
Proof.
  intros n f h x g d (Lg & G) Ld Ch M Lx. specialize (G d Ld). destruct (Rle_dec 0 (dot g d + h (vadd x d) - h x)) as [?|N]; auto. exfalso. set (A := dot g d + h (vadd x d) - h x) in *.
  destruct (G (- A / 2) ltac:(lra)) as (delta & Hd). set (t := Rmin 1 (delta / 2)). assert (Dp := cond_pos delta). assert (Ht : 0 < t <= 1) by (unfold t; split; [apply Rmin_pos; lra|apply Rmin_l]).
  assert (Hs : Rabs t < delta). { rewrite Rabs_right by lra. assert (t <= delta / 2) by apply Rmin_r. lra. } specialize (Hd t ltac:(lra) Hs). rewrite Rplus_0_l in Hd.
  replace (vadd x (vscal 0 d)) with x in Hd by (rewrite line_zero; auto; congruence). apply Rabs_def2 in Hd. destruct Hd as (Hd & _). specialize (M t Ht). specialize (Ch t ltac:(lra)).
  assert (f (vadd x (vscal t d)) - f x < t * (dot g d - A / 2)).
  { assert (X : (f (vadd x (vscal t d)) - f x) / t < dot g d - A / 2) by lra. apply (Rmult_lt_compat_r t) in X; [|lra]. unfold Rdiv in X at 1. rewrite Rmult_assoc, Rinv_l in X by lra. lra. }
  assert (t * (dot g d - A / 2) + t * (h (vadd x d) - h x) = t * (A / 2)) by (unfold A; field). assert (t * (A / 2) < 0) by nra. nra.
Qed.
(** ** gengrad *)
Lemma objective_convex : forall n f h, convex_on n f -> convex_ext n h -> convex_ext n (objective f h).
Proof.
  intros n f h Cf Ch x y t a b Lx Ly Ht Ex Ey. unfold objective in *. destruct (h x) as [hx|] eqn:E1; [|discriminate]. destruct (h y) as [hy|] eqn:E2; [|discriminate]. cbn in Ex, Ey. injection Ex as <-. injection Ey as <-.
  assert (K1 := Cf x y t Lx Ly Ht). assert (K2 := Ch x y t hx hy Lx Ly Ht E1 E2). destruct (h (between x y t)) as [hz|]; cbn in *; [lra|auto].
Qed.
(** The point gengrad's inner problem at x returns is x itself exactly at the minimizers of 2f + h. *)
Theorem gengrad_fixed : forall n f h g L x, convex_on n f -> gradient_of n f g -> convex_ext n h -> 0 < L -> length x = n ->
  is_argmin n (fun z => ext_add (objective f h z) (Fin (L / 2 * sqn (vsub z x) + dot (g x) z))) x -> is_argmin n (twice f h) x.
Proof.
  intros n f h g L x Cf Gf Ch HL Lx M. assert (C := objective_convex n f h Cf Ch). destruct (Gf x Lx) as [Lg _]. assert (M' := M). destruct M' as (_ & (r & Er) & _). unfold objective in Er. destruct (h x) as [hx|] eqn:Eh; [|discriminate].
  assert (Ex : objective f h x = Fin (f x + hx)) by (unfold objective; rewrite Eh; reflexivity).
  split; auto. split; [unfold twice; rewrite Eh; cbn; eauto|]. intros z Lz. unfold twice. rewrite Eh. destruct (h z) as [hz|] eqn:Ez; cbn [ext_add ext_le]; auto.
  assert (Ezz : objective f h z = Fin (f z + hz)) by (unfold objective; rewrite Ez; reflexivity).
  assert (K := prox_variational n (objective f h) L x (g x) x (f x + hx) z (f z + hz) C HL Lx Lg Lz M Ex Ezz). rewrite vsub_self, !dot_zeros_l in K.
  assert (T := convex_tangent n f x (g x) z Cf (Gf x Lx) Lx Lz). rewrite dot_sub_r in T by congruence. lra.
Qed.
Theorem gengrad_iff : forall n P h L x, let f := s_func (p_smooth P) in convex_on n f -> gradient_of n f (s_grad (p_smooth P)) -> convex_ext n h -> 0 < L -> length x = n ->
  is_argmin n (fun z => ext_add (objective f h z) (Fin (q_denot n (gengrad_quadratic P L x) z))) x <-> is_argmin n (twice f h) x.
Proof.
  intros n P h L x f Cf Gf Ch HL Lx. set (g := s_grad (p_smooth P)) in *. assert (Q : forall z, q_denot n (gengrad_quadratic P L x) z = L / 2 * sqn (vsub z x) + dot (g x) z + 0) by reflexivity. split; intros M.
  - apply (gengrad_fixed n f h g L x); auto. destruct M as (_ & (r & Er) & M). rewrite Q, Rplus_0_r in Er. split; auto. split; [eauto|]. intros z Lz. specialize (M z Lz). rewrite !Q, !Rplus_0_r in M. exact M.
  - destruct M as (_ & (r & Er) & M). unfold twice in Er, M. destruct (h x) as [hx|] eqn:Eh; [|discriminate]. unfold objective. split; auto. split; [rewrite Eh; cbn; eauto|]. intros z Lz. rewrite Eh. destruct (h z) as [hz|] eqn:Ez; cbn [ext_add ext_le]; auto. rewrite !Q.
    destruct (Gf x Lx) as [Lg Gx]. assert (T := convex_tangent n f x (g x) z Cf (Gf x Lx) Lx Lz).
    set (hR := fun v => match h v with Fin r => r | PInf => 0 end).
    assert (Ld : length (vsub z x) = n) by (unfold vsub; apply vzip_length2; auto). assert (Ezz : vadd x (vsub z x) = z) by (rewrite vadd_comm; apply vadd_vsub; congruence).
    assert (FO := first_order n (fun v => 2 * f v) hR x (vscal 2 (g x)) (vsub z x)).
    assert (0 <= dot (vscal 2 (g x)) (vsub z x) + hR (vadd x (vsub z x)) - hR x).
    { apply FO; auto.
      - split; [unfold vscal; rewrite map_length; auto|]. intros d Ld'. rewrite dot_scal_l. apply (derivable_pt_lim_scal _ 2 _ _ (Gx d Ld')).
      - intros t Ht. rewrite Ezz. assert (C := Ch x z t hx hz Lx Lz Ht Eh Ez). unfold between in C. unfold hR. rewrite Eh, Ez. destruct (h (vadd x (vscal t (vsub z x)))); cbn in C; [auto|tauto].
      - intros t Ht. assert (C := Ch x z t hx hz Lx Lz ltac:(lra) Eh Ez). unfold between in C. unfold hR. rewrite Eh. specialize (M (vadd x (vscal t (vsub z x)))). destruct (h (vadd x (vscal t (vsub z x)))); cbn in C; [|tauto]. cbn in M. apply M. unfold vadd. apply vzip_length2; auto. unfold vscal. rewrite map_length; auto. }
    rewrite Ezz in H. unfold hR in H. rewrite Eh, Ez in H. rewrite dot_scal_l in H. rewrite dot_sub_r in H, T by congruence. rewrite vsub_self. rewrite (sqn_zeros (length x)). assert (0 <= L / 2 * sqn (vsub z x)) by (apply Rmult_le_pos; [lra|apply sqn_nonneg]). lra.
Qed.

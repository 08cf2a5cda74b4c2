(** Proofs about smooth conjugates and smoothed atoms. *)
From Coq Require Import Reals List Lra Lia Arith Bool.
From Verif Require Import M_affine SpecAffine P_affine M_loss M_smooth SpecSmooth P_smooth Vec Spec SpecConvex M_quad P_quad P_calc P_sep P_loss M_prox M_semi SpecAtom P_semi P_conj M_shift SpecBase P_shift M_afatom SpecCone M_cones P_cones M_fista SpecFista M_problem SpecProblem P_problem M_sconj SpecSconj.
Import ListNotations.
Local Open Scope R_scope.

(** ** Conjugates of strongly convex functions *)
Definition tilted (K : vec -> ext) (x : vec) (z : vec) : ext := ext_add (K z) (Fin (- dot x z)).
Lemma strong_min : forall n H Q x v kv z kz, convex_ext n H -> q_shape n Q -> 0 < coef Q -> length x = n -> is_argmin n (tilted (plus_quad n H Q) x) v ->
  plus_quad n H Q v = Fin kv -> length z = n -> plus_quad n H Q z = Fin kz -> kv - dot x v + coef Q / 2 * sqn (vsub z v) <= kz - dot x z.
Proof.
  intros n H Q x v kv z kz C [S1 S2] HL Lx M Ev Lz Ez. assert (L1 := fbcast_length n _ S1). assert (L2 := fbcast_length n _ S2).
  unfold plus_quad, q_denot, quad_fun in *. set (w := fbcast n (center Q)) in *. set (e := fbcast n (linear_term Q)) in *. set (L := coef Q) in *. set (c := constant_term Q) in *.
  assert (Lv : length v = n) by apply M. destruct (H v) as [hv|] eqn:Hv; [|discriminate]. destruct (H z) as [hz|] eqn:Hz; [|discriminate]. cbn [ext_add] in Ev, Ez. injection Ev as <-. injection Ez as <-.
  assert (M' : is_argmin n (fun y => ext_add (H y) (Fin (L / 2 * sqn (vsub y w) + dot (vsub e x) y))) v).
  { destruct M as (_ & _ & M). split; auto. split; [rewrite Hv; cbn; eauto|]. intros y Ly. specialize (M y Ly). unfold tilted in M. rewrite Hv in *. cbn [ext_add] in *. destruct (H y) as [hy|]; cbn [ext_add ext_le] in *; auto. rewrite !dot_sub_l by vlen. lra. }
  assert (V := prox_variational n H L w (vsub e x) v hv z hz C HL L1 ltac:(vlen) Lz M' Hv Hz). rewrite !dot_sub_l in V by vlen. rewrite !sqn_sub by vlen. rewrite (dot_comm w v), (dot_comm w z), (dot_comm z v) in *. rewrite (dot_comm z w), (dot_comm v w) in *. unfold sqn in *. nra.
Qed.
Lemma tilted_fin : forall K x v, (exists r, tilted K x v = Fin r) -> exists k, K v = Fin k.
Proof. intros K x v [r E]. unfold tilted in E. destruct (K v) as [k|]; [eauto|discriminate]. Qed.
Lemma derive_squeeze : forall F l c, 0 <= c -> (forall h, F 0 + h * l <= F h) -> (forall h, F h <= F 0 + h * l + c * (h * h)) -> derivable_pt_lim F 0 l.
Proof.
  intros F l c Hc Lo Up eps He. assert (P : 0 < eps / (c + 1)) by (apply Rdiv_lt_0_compat; lra). exists (mkposreal _ P). intros h Hh Hb. cbn in Hb. rewrite Rplus_0_l.
  assert (B : Rabs ((F h - F 0) / h - l) <= c * Rabs h).
  { replace ((F h - F 0) / h - l) with ((F h - F 0 - h * l) / h) by (field; auto). unfold Rdiv. rewrite Rabs_mult, Rabs_inv. specialize (Lo h). specialize (Up h). rewrite (Rabs_right (F h - F 0 - h * l)) by lra.
    assert (Ph : 0 < Rabs h) by (apply Rabs_pos_lt; auto). apply Rmult_le_reg_r with (Rabs h); auto. rewrite Rmult_assoc, Rinv_l, Rmult_1_r by lra. assert (Rabs h * Rabs h = h * h) by (rewrite <- Rabs_mult; apply Rabs_right; nra). nra. }
  apply Rle_lt_trans with (c * Rabs h); auto. apply Rle_lt_trans with ((c + 1) * Rabs h); [pose proof (Rabs_pos h); nra|]. apply Rmult_lt_reg_l with (/ (c + 1)); [apply Rinv_0_lt_compat; lra|].
  rewrite <- Rmult_assoc, Rinv_l, Rmult_1_l by lra. unfold Rdiv in Hb. lra.
Qed.
Theorem conjugate_theory : forall n H Q f g, convex_ext n H -> q_shape n Q -> 0 < coef Q ->
  (forall x, length x = n -> is_argmin n (tilted (plus_quad n H Q) x) (g x) /\ plus_quad n H Q (g x) = Fin (dot x (g x) - f x)) ->
  smooth_conjugate_of n (plus_quad n H Q) (1 / coef Q) f g.
Proof.
  intros n H Q f g C SQ HQ D. assert (Lg : forall x, length x = n -> length (g x) = n) by (intros x Lx; apply (D x Lx)).
  assert (Up : forall x v k, length x = n -> length v = n -> plus_quad n H Q v = Fin k -> dot x v - k + coef Q / 2 * sqn (vsub v (g x)) <= f x).
  { intros x v k Lx Lv Ev. destruct (D x Lx) as [M E]. assert (K := strong_min n H Q x (g x) _ v k C SQ HQ Lx M E Lv Ev). lra. }
  assert (Tan : forall x y, length x = n -> length y = n -> f x + dot (g x) (vsub y x) + coef Q / 2 * sqn (vsub (g x) (g y)) <= f y).
  { intros x y Lx Ly. destruct (D x Lx) as [_ E]. assert (K := Up y (g x) _ Ly (Lg x Lx) E). assert (Lgx := Lg x Lx). rewrite dot_sub_r by vlen. rewrite (dot_comm (g x) y), (dot_comm (g x) x). lra. }
  assert (Lip : lipschitz_map n g (1 / coef Q)).
  { intros x y Lx Ly. assert (A := Tan x y Lx Ly). assert (B := Tan y x Ly Lx). assert (Lgx := Lg x Lx). assert (Lgy := Lg y Ly).
    assert (S : sqn (vsub (g y) (g x)) = sqn (vsub (g x) (g y))) by (rewrite !sqn_sub by vlen; rewrite (dot_comm (g y)); lra). rewrite S in B.
    assert (P : dot (g x) (vsub y x) + dot (g y) (vsub x y) = - dot (vsub (g x) (g y)) (vsub x y)). { rewrite !dot_sub_r, !dot_sub_l by vlen. lra. }
    assert (Le : coef Q * sqn (vsub (g x) (g y)) <= dot (vsub (g x) (g y)) (vsub x y)) by lra.
    assert (CS : dot (vsub (g x) (g y)) (vsub x y) <= norm (vsub (g x) (g y)) * norm (vsub x y)) by (apply cauchy_schwarz; vlen).
    rewrite <- norm_sq in Le. set (a := norm (vsub (g x) (g y))) in *. set (b := norm (vsub x y)) in *. assert (0 <= a) by apply norm_nonneg. assert (0 <= b) by apply norm_nonneg.
    unfold Rdiv. rewrite Rmult_1_l. apply Rmult_le_reg_l with (coef Q); auto. rewrite <- Rmult_assoc, Rinv_r, Rmult_1_l by lra. destruct (Req_dec a 0) as [->|Na]; [lra|]. apply Rmult_le_reg_l with a; [lra|]. nra. }
  assert (Ge : forall x y, length x = n -> length y = n -> f y <= f x + dot (g x) (vsub y x) + 1 / coef Q * sqn (vsub y x)).
  { intros x y Lx Ly. assert (A := Tan y x Ly Lx). assert (B := Lip y x Ly Lx). assert (Lgx := Lg x Lx). assert (Lgy := Lg y Ly). pose proof (sqn_nonneg (vsub (g y) (g x))).
    assert (CS : dot (vsub (g y) (g x)) (vsub y x) <= norm (vsub (g y) (g x)) * norm (vsub y x)) by (apply cauchy_schwarz; vlen). rewrite <- (norm_sq (vsub y x)). pose proof (norm_nonneg (vsub y x)).
    assert (E : dot (g y) (vsub x y) = - dot (g y) (vsub y x)) by (rewrite !dot_sub_r by vlen; lra). rewrite E in A. rewrite dot_sub_l in CS by vlen.
    assert (0 <= coef Q / 2 * sqn (vsub (g y) (g x))) by (apply Rmult_le_pos; lra). nra. }
  split; [|split; [|split; auto]].
  - intros x Lx. destruct (D x Lx) as [M E]. split; [|split; [auto|split; auto]].
    + split.
      * intros v r Lv Ev. assert (K := Up x v r Lx Lv Ev). pose proof (sqn_nonneg (vsub v (g x))). nra.
      * intros e He. exists (g x), (dot x (g x) - f x). split; auto. split; auto. lra.
    + intros v Lv Ev. assert (K := Up x v _ Lx Lv Ev). assert (Lgx := Lg x Lx). apply vsub_eq_zero; [vlen|]. pose proof (sqn_nonneg (vsub v (g x))). nra.
  - apply (tangent_convex n f g); auto. intros x y Lx Ly. assert (K := Tan x y Lx Ly). pose proof (sqn_nonneg (vsub (g x) (g y))). nra.
  - intros x Lx. split; auto. intros d Ld. apply derive_squeeze with (1 / coef Q * sqn d).
    + apply Rmult_le_pos; [|apply sqn_nonneg]. unfold Rdiv. rewrite Rmult_1_l. apply Rlt_le, Rinv_0_lt_compat; auto.
    + intros h. rewrite line_zero by congruence. assert (K := Tan x (vadd x (vscal h d)) Lx ltac:(vlen)). assert (E : vsub (vadd x (vscal h d)) x = vscal h d) by (apply vsub_vadd_l; vlen). rewrite E, dot_scal_r in K. pose proof (sqn_nonneg (vsub (g x) (g (vadd x (vscal h d))))). nra.
    + intros h. rewrite line_zero by congruence. assert (K := Ge x (vadd x (vscal h d)) Lx ltac:(vlen)). assert (E : vsub (vadd x (vscal h d)) x = vscal h d) by (apply vsub_vadd_l; vlen). rewrite E, dot_scal_r, sqn_scal in K. lra.
Qed.
Lemma attains_ext : forall n K K' L f g, (forall x, length x = n -> K x = K' x) -> smooth_conjugate_of n K L f g -> smooth_conjugate_of n K' L f g.
Proof.
  intros n K K' L f g E [A R]. split; auto. intros x Lx. destruct (A x Lx) as (F & Lg & Eg & U). split; [apply (is_fenchel_ext n K); auto|]. split; auto. split; [rewrite <- E; auto|].
  intros v Lv Ev. apply U; auto. rewrite E; auto.
Qed.
(** ** smooth_conjugate *)
Definition sc_query (s : iq) (x : vec) : iq := mk_iq (coef s + 0) (FScal 0) (fop Rplus (linear_term (collapsed s)) (linear_term (collapsed (mk_iq 0 (FScal 0) (FVec (vopp x)) 0)))) (constant_term (collapsed s) + constant_term (collapsed (mk_iq 0 (FScal 0) (FVec (vopp x)) 0))).
Lemma sc_query_ok : forall n s x, q_shape n s -> center_ok n s -> length x = n ->
  q_add s (AQuad (mk_iq 0 (FScal 0) (FVec (vopp x)) 0)) = Ok (sc_query s x) /\ q_shape n (sc_query s x) /\ coef (sc_query s x) = coef s /\ has_vec (sc_query s x) /\
  forall z, length z = n -> q_denot n (sc_query s x) z = q_denot n s z - dot x z.
Proof.
  intros n s x Ss Cs Lx. set (p := mk_iq 0 (FScal 0) (FVec (vopp x)) 0). assert (Sp : q_shape n p) by (split; [exact I|]; cbn; vlen).
  destruct (add_quad n s p Ss Sp Cs (or_introl eq_refl)) as (t & E & St & Ct & Kt & Vt & Dt). assert (Et : t = sc_query s x) by (apply Ok_inj in E; rewrite <- E; reflexivity). subst t.
  split; auto. split; auto. split; [rewrite Kt; cbn; lra|]. split; [apply Vt; right; exact I|]. intros z Lz. rewrite Dt by auto. unfold q_denot at 2, quad_fun, p. cbn [coef center linear_term constant_term fbcast]. rewrite dot_opp_l. lra.
Qed.
Lemma solve_finite : forall n H A own q, curved_obj n H own A -> q_shape n q -> 0 < coef own + coef q -> has_vec q ->
  exists v r, o_prox A q = Ok v /\ nonsmooth_solve A (Some q) = Ok (Fin r, v) /\ is_argmin n (plus_quad n (plus_quad n H own) q) v /\ plus_quad n (plus_quad n H own) q v = Fin r.
Proof.
  intros n H A own q CO Sq Hq V. destruct (co_prox _ _ _ _ CO q Sq Hq V) as (v & E & M). assert (M' := M). destruct M' as (Lv & (r & Er) & _). unfold plus_quad in Er at 1. destruct (plus_quad n H own v) as [k|] eqn:Ek; [|discriminate].
  cbn in Er. injection Er as Er. exists v, (k + q_denot n q v). split; auto. unfold nonsmooth_solve. rewrite E. cbn [rbind]. rewrite (co_value _ _ _ _ CO v k Lv Ek). cbn [rmap ext_add]. split; [|split; auto].
  - do 3 f_equal. rewrite (q_func_eq n) by auto. fold (q_denot n q v). lra.
  - unfold plus_quad at 1. rewrite Ek. reflexivity.
Qed.
Theorem sconj_spec : forall n H own A s, curved_obj n H own A -> q_shape n s -> center_ok n s -> 0 < coef own + coef s ->
  exists C, new_sconj A own (Some s) = Ok C /\ sc_lipschitz C = 1 / (coef own + coef s) /\
    exists f g, evaluates n (sc_eval C) f g /\ smooth_conjugate_of n (plus_quad n (plus_quad n H own) s) (sc_lipschitz C) f g.
Proof.
  intros n H own A s CO Ss Cs HL. destruct (co_shape _ _ _ _ CO) as [So Cc]. destruct (add_quad n own s So Ss Cc Cs) as (t & Et & St & Ct & Kt & _ & Dt).
  exists (mk_sconj A own s (1 / coef t)). unfold new_sconj. rewrite Et. cbn [rbind]. destruct (Req_EM_T (coef t) 0) as [Z|_]; [exfalso; lra|]. split; auto. cbn [sc_lipschitz]. split; [rewrite Kt; auto|].
  set (g := fun x => or_nil (o_prox A (sc_query s x))). set (f := fun x => match nonsmooth_solve A (Some (sc_query s x)) with Ok (Fin r, _) => - r | _ => 0 end). exists f, g.
  assert (D : forall x, length x = n -> exists r, o_prox A (sc_query s x) = Ok (g x) /\ nonsmooth_solve A (Some (sc_query s x)) = Ok (Fin r, g x) /\ r = - f x /\ is_argmin n (plus_quad n (plus_quad n H own) (sc_query s x)) (g x) /\ plus_quad n (plus_quad n H own) (sc_query s x) (g x) = Fin r).
  { intros x Lx. destruct (sc_query_ok n s x Ss Cs Lx) as (Eq & Sq & Kq & Vq & Dq). destruct (solve_finite n H A own (sc_query s x) CO Sq ltac:(lra) Vq) as (v & r & E1 & E2 & M & E3). unfold g, f. rewrite E1, E2. cbn [or_nil]. exists r. repeat split; auto; try apply M; try lra. }
  assert (EQ : forall x z, length x = n -> length z = n -> plus_quad n (plus_quad n H own) (sc_query s x) z = tilted (plus_quad n H t) x z).
  { intros x z Lx Lz. destruct (sc_query_ok n s x Ss Cs Lx) as (_ & _ & _ & _ & Dq). unfold tilted, plus_quad. destruct (H z) as [hz|]; cbn [ext_add]; auto. rewrite Dq, Dt by auto. f_equal. lra. }
  split.
  - intros x Lx. destruct (sc_query_ok n s x Ss Cs Lx) as (Eq & _). destruct (D x Lx) as (r & E1 & E2 & -> & _ & _). unfold sc_eval. cbn [sc_smoothing sc_atom]. rewrite Eq. cbn [rbind]. rewrite E1, E2. cbn [rbind rmap fst snd finite]. rewrite Ropp_involutive. auto.
  - apply (attains_ext n (plus_quad n H t)); [intros x Lx; apply plus_quad_add; auto|]. apply conjugate_theory; auto; [apply CO|rewrite Kt; auto|]. intros x Lx. destruct (D x Lx) as (r & _ & _ & -> & M & E). assert (Lg : length (g x) = n) by apply M. split.
    + destruct M as (_ & (v & Ev) & M). split; auto. rewrite EQ in Ev by auto. split; [eauto|]. intros z Lz. specialize (M z Lz). rewrite !EQ in M by auto. auto.
    + rewrite EQ in E by auto. unfold tilted in E. destruct (plus_quad n H t (g x)) as [k|]; [|discriminate]. cbn in E. injection E as E. f_equal. lra.
Qed.
(** ** the class conjugate *)
Lemma sub_linear_ok : forall n q v, q_shape n q -> length v = n -> q_shape n (sub_linear q v) /\ has_vec (sub_linear q v) /\ forall z, length z = n -> q_denot n (sub_linear q v) z = q_denot n q z - dot v z.
Proof.
  intros n q v [S1 S2] Lv. split; [split; [exact S1|]|split].
  - cbn. destruct (linear_term q) as [|c|l]; cbn in *; vlen.
  - unfold has_vec. cbn. destruct (center q); auto; destruct (linear_term q); cbn; auto.
  - intros z Lz. unfold q_denot, quad_fun. cbn [coef center linear_term constant_term sub_linear]. assert (E : fbcast n (match linear_term q with FNone => FVec (vopp v) | l => fop Rminus l (FVec v) end) = vsub (fbcast n (linear_term q)) v).
    { destruct (linear_term q) as [|c|l]; cbn [fop fbcast].
      - rewrite <- Lv. clear. induction v as [|a v IH]; auto. unfold vopp, vsub, zeros in *. cbn. rewrite IH. f_equal. lra.
      - rewrite <- Lv. clear. induction v as [|a v IH]; auto. unfold vsub, const_vec in *. cbn. rewrite IH. auto.
      - reflexivity. }
    rewrite E. assert (L2 := fbcast_length n _ S2). rewrite dot_sub_l by vlen. lra.
Qed.

Theorem conj_spec : forall n H own A s b, curved_obj n H own A -> q_shape n s -> center_ok n s -> 0 < coef own + coef s ->
  exists C, new_conj A own (Some s) b = Ok C /\
    exists f g, evaluates n (conj_eval C) (fun x => f (if b then vopp x else x)) (fun x => if b then vopp (g (vopp x)) else g x) /\
      smooth_conjugate_of n (plus_quad n (plus_quad n H own) s) (1 / (coef own + coef s)) f g.
Proof.
  intros n H own A s b CO Ss Cs HL. destruct (co_shape _ _ _ _ CO) as [So Cc]. destruct (add_quad n own s So Ss Cc Cs) as (t & Et & St & Ct & Kt & _ & Dt).
  exists (mk_conj A s b). unfold new_conj. rewrite Et. cbn [rbind]. destruct (Req_EM_T (coef t) 0) as [Z|_]; [exfalso; lra|]. split; auto.
  set (g := fun x => or_nil (o_prox A (sub_linear s x))). set (f := fun x => match o_value A (g x) false with Ok (Fin r) => - (0 + r) - q_func s (g x) + vsum (vmul x (g x)) | _ => 0 end). exists f, g.
  assert (D : forall x, length x = n -> exists k, o_prox A (sub_linear s x) = Ok (g x) /\ o_value A (g x) false = Ok (Fin k) /\ plus_quad n H own (g x) = Fin k /\ f x = - (0 + k) - q_func s (g x) + vsum (vmul x (g x)) /\ is_argmin n (plus_quad n (plus_quad n H own) (sub_linear s x)) (g x)).
  { intros x Lx. destruct (sub_linear_ok n s x Ss Lx) as (Sq & Vq & Dq). destruct (co_prox _ _ _ _ CO (sub_linear s x) Sq HL Vq) as (v & E & M). assert (Eg : g x = v) by (unfold g; rewrite E; reflexivity). rewrite Eg.
    assert (M' := M). destruct M' as (Lv & (r & Er) & _). unfold plus_quad in Er at 1. destruct (plus_quad n H own v) as [k|] eqn:Ek; [|discriminate]. assert (Ev := co_value _ _ _ _ CO v k Lv Ek). exists k. repeat split; auto; try apply M. unfold f. rewrite Eg, Ev. reflexivity. }
  assert (EQ : forall x z, length x = n -> length z = n -> plus_quad n (plus_quad n H own) (sub_linear s x) z = tilted (plus_quad n H t) x z).
  { intros x z Lx Lz. destruct (sub_linear_ok n s x Ss Lx) as (_ & _ & Dq). unfold tilted, plus_quad. destruct (H z) as [hz|]; cbn [ext_add]; auto. rewrite Dq, Dt by auto. f_equal. lra. }
  split.
  - intros x Lx. destruct b.
    + destruct (D (vopp x) ltac:(vlen)) as (k & E1 & E2 & E3 & E4 & M). unfold conj_eval. cbn [cj_negate cj_atom cj_quadratic]. rewrite E1. cbn [rbind]. rewrite E2. cbn [rbind rmap finite]. rewrite <- E4. auto.
    + destruct (D x Lx) as (k & E1 & E2 & E3 & E4 & M). unfold conj_eval. cbn [cj_negate cj_atom cj_quadratic]. rewrite E1. cbn [rbind]. rewrite E2. cbn [rbind rmap finite]. rewrite <- E4. auto.
  - apply (attains_ext n (plus_quad n H t)); [intros x Lx; apply plus_quad_add; auto|]. rewrite <- Kt. apply conjugate_theory; auto; [apply CO|rewrite Kt; auto|]. intros x Lx. destruct (D x Lx) as (k & _ & _ & E3 & E4 & M). assert (Lg : length (g x) = n) by apply M. split.
    + destruct M as (_ & (v & Ev) & M). split; auto. rewrite EQ in Ev by auto. split; [eauto|]. intros z Lz. specialize (M z Lz). rewrite !EQ in M by auto. auto.
    + rewrite (plus_quad_add n H own s t) by auto. unfold plus_quad at 1. rewrite E3. cbn [ext_add]. f_equal. rewrite E4, (q_func_eq n) by auto. fold (q_denot n s (g x)). unfold dot. lra.
Qed.
(** ** Atoms and cones *)
Lemma atom_curved : forall n a m, (1 <= n)%nat -> atom_wf n a -> mode_ok m -> atom_mode a m -> (forall l, m = Lagrange l -> klass a <> CConMax /\ klass a <> CConPosPart) -> center_ok n (a_quadratic a) ->
  curved_obj n (fun x => mode_fun (klass a) m (vsub x (atom_off n a))) (a_quadratic a) (of_atom a).
Proof.
  intros n a m Hn W Hm Em Hv Cq. split.
  - apply convex_shift; [apply atom_off_len; auto|]. apply mode_convex; auto.
  - split; auto. apply W.
  - intros x r Lx E. cbn [o_value of_atom]. destruct m as [lam|b].
    + rewrite (nonsmooth_objective_lagrange n a lam) by (auto; apply (Hv lam); auto). f_equal. exact E.
    + unfold nonsmooth_objective. destruct Em as [E1 E2]. cbn in E2. rewrite E2. cbn [rmap ext_add]. unfold plus_quad in E. cbn [mode_fun] in E. destruct (doc_seminorm _ _) as [d|]; [|discriminate]. destruct (Rle_dec d b); [|discriminate]. cbn in E. injection E as <-. do 2 f_equal. rewrite (q_func_eq n) by (auto; apply W). reflexivity.
  - intros q Sq Hq V. destruct (atom_prox n a m q Hn W Hm Em Sq Hq (or_intror (or_introl V))) as (v & E & M & _). exists v. split; auto.
Qed.
Lemma cone_curved : forall n c, cone_dim (c_class c) n -> c_class c <> KL2 -> c_class c <> KL2Polar -> base_wf n (c_base c) -> center_ok n (b_quadratic (c_base c)) ->
  curved_obj n (fun x => cone_fun (c_class c) (vsub x (base_off n (c_base c)))) (b_quadratic (c_base c)) (of_cone c).
Proof.
  intros n [k g] Hd N1 N2 W Cq. cbn [c_class c_base] in *. assert (Lo := base_off_length n g W). split.
  - apply convex_shift; auto. apply cone_convex; auto.
  - split; auto. apply W.
  - intros x r Lx E. unfold plus_quad in E. destruct (cone_objective_correct k n g x Hd W Lx) as (E1 & _). cbn [o_value of_cone]. rewrite E1. destruct (cone_fun k _) as [d|] eqn:Ed; [|discriminate]. apply cone_fun_fin in Ed. destruct Ed as [_ ->]. cbn in E. injection E as <-. reflexivity.
  - intros q Sq Hq V. destruct (cone_proximal_correct k n g q Hd N1 N2 W Sq Hq (or_intror (or_introl V))) as (v & E & M & _). exists v. split; auto.
Qed.
Lemma zero_quad_denot : forall n x, q_denot n zero_quad x = 0.
Proof. intros. unfold q_denot, quad_fun, zero_quad. cbn [coef center linear_term constant_term fbcast]. rewrite const_vec_0, dot_zeros_l. lra. Qed.
Lemma zero_quad_ok : forall n, q_shape n zero_quad /\ center_ok n zero_quad.
Proof. intros. split; [split; exact I|left; reflexivity]. Qed.
Lemma plus_zero : forall n H x, plus_quad n H zero_quad x = H x.
Proof. intros. unfold plus_quad. rewrite zero_quad_denot. destruct (H x); cbn; auto. f_equal. lra. Qed.
Lemma own_sconj : forall n H own A, curved_obj n H own A -> 0 < coef own ->
  exists C, new_sconj A own None = Ok C /\ sc_lipschitz C = 1 / coef own /\ exists f g, evaluates n (sc_eval C) f g /\ smooth_conjugate_of n (plus_quad n H own) (sc_lipschitz C) f g.
Proof.
  intros n H own A CO HL. destruct (zero_quad_ok n) as [Z1 Z2]. destruct (sconj_spec n H own A zero_quad CO Z1 Z2) as (C & E & EL & f & g & Ev & S); [cbn; lra|]. exists C. split; [exact E|]. split; [rewrite EL; cbn; f_equal; lra|]. exists f, g. split; auto.
  eapply attains_ext; [|exact S]. intros x Lx. apply plus_zero.
Qed.
Lemma conj_center : forall a d n, get_conjugate a = Ok d -> center_ok n (a_quadratic d).
Proof.
  intros a d n E. unfold get_conjugate in E. destruct (Req_EM_T _ _); [|discriminate]. unfold work_out_conjugate, new_atom in E. destruct (a_bound a), (a_lagrange a); try discriminate; destruct (is_neg _); try discriminate; destruct (is_neg _); try discriminate; apply Ok_inj in E; subst d; left; reflexivity.
Qed.
Lemma set_aquad_wf : forall n a q, atom_wf n a -> q_shape n q -> atom_wf n (set_aquad a q).
Proof. intros n a q (H1 & H2 & H3) S. split; auto. Qed.
(** the conjugate in dual mode is a penalty only for bound-mode atoms; its value must be computable *)
Lemma dual_curved : forall n a m d t, (1 <= n)%nat -> atom_wf n d -> mode_ok m -> klass d = pair_class (klass a) -> atom_mode d (dual_mode m) -> dual_value_ok (klass a) m -> q_shape n t -> center_ok n t ->
  curved_obj n (fun x => mode_fun (klass d) (dual_mode m) (vsub x (atom_off n d))) t (of_atom (set_aquad d t)).
Proof.
  intros n a m d t Hn W Hm Ek Em V St Ct. apply (atom_curved n (set_aquad d t) (dual_mode m)); auto.
  - apply set_aquad_wf; auto.
  - destruct m; auto.
  - intros l El. destruct m; [discriminate|]. cbn. rewrite Ek. exact V.
Qed.
Theorem atom_smoothed_spec : forall n a m sq, (1 <= n)%nat -> atom_wf n a -> mode_ok m -> atom_mode a m -> coef (a_quadratic a) = 0 -> dual_value_ok (klass a) m ->
  q_shape n sq -> center_ok n sq -> 0 < coef sq ->
  exists C G f g, atom_smoothed a sq = Ok C /\ sc_lipschitz C = 1 / coef sq /\ (forall u, length u = n -> is_fenchel n (atom_doc n a m) u (G u)) /\ (forall x, length x = n -> is_fenchel n G x (atom_doc n a m x)) /\
    evaluates n (sc_eval C) f g /\ smooth_conjugate_of n (plus_quad n G sq) (1 / coef sq) f g.
Proof.
  intros n a m sq Hn W Hm Em Hc V Ss Cs HL. destruct (conj_form n a m W Hm Em Hc) as (d & Ed & Ek & Emd & Wd & _ & _ & Ecd & _). destruct (conjugate_correct n a m W Hm Em Hc) as (d' & Ed' & _ & _ & _ & Fd). assert (d' = d) by congruence. subst d'.
  destruct (double_conjugate_correct n a m W Hm Em Hc) as (d' & e & Ed'' & Ee & _ & _ & _ & Dd). assert (d' = d) by congruence. subst d'. destruct (conjugate_correct n d (dual_mode m) Wd ltac:(destruct m; auto) Emd Ecd) as (e' & Ee' & _ & _ & _ & Fe). assert (e' = e) by congruence. subst e'.
  replace (dual_mode (dual_mode m)) with m in Fe by (destruct m; auto). assert (Cd := conj_center a d n Ed). assert (Sd : q_shape n (a_quadratic d)) by apply Wd. destruct (add_quad n sq (a_quadratic d) Ss Sd Cs Cd) as (t & Et & St & Ct & Kt & _ & Dt).
  assert (CO := dual_curved n a m d t Hn Wd Hm Ek Emd V St Ct). destruct (own_sconj n _ t _ CO ltac:(lra)) as (C & EC & EL & f & g & Ev & S).
  exists C, (atom_doc n d (dual_mode m)), f, g. split; [|split; [rewrite EL; f_equal; lra|split; [exact Fd|split; [|split; auto]]]].
  - unfold atom_smoothed. destruct (Req_EM_T _ 0) as [_|N]; [|tauto]. rewrite Ed. cbn [rbind]. rewrite (copy_correct n d (dual_mode m)) by (auto; destruct m; auto). cbn [rbind]. destruct (Req_EM_T (coef sq) 0); [exfalso; lra|]. rewrite Et. cbn [rbind]. exact EC.
  - intros x Lx. rewrite <- Dd by auto. apply Fe; auto.
  - rewrite EL in S. replace (1 / coef sq) with (1 / coef t) by (f_equal; lra). eapply attains_ext; [|exact S]. intros x Lx. unfold plus_quad, atom_doc, doc_objective. destruct (mode_fun _ _ _) as [r|]; cbn [ext_add]; auto. f_equal. rewrite Dt by auto. unfold q_denot at 2. lra.
Qed.
Lemma smoothed_sandwich : forall n G sq L f g x h B, smooth_conjugate_of n (plus_quad n G sq) L f g -> length x = n -> is_fenchel n G x (Fin h) ->
  (forall u, length u = n -> 0 <= q_denot n sq u) -> (forall u r, length u = n -> G u = Fin r -> q_denot n sq u <= B) -> h - B <= f x <= h.
Proof.
  intros n G sq L f g x h B [A _] Lx [F1 F2] P Q. destruct (A x Lx) as ([S1 _] & Lg & Eg & _). split.
  - destruct (Rle_dec (h - B) (f x)) as [|N]; auto. exfalso. destruct (F2 (h - B - f x) ltac:(lra)) as (u & r & Lu & Eu & Hu). assert (K := S1 u (r + q_denot n sq u) Lu). unfold plus_quad in K. rewrite Eu in K. specialize (K eq_refl). specialize (Q u r Lu Eu). lra.
  - unfold plus_quad in Eg. destruct (G (g x)) as [r|] eqn:Er; [|discriminate]. cbn in Eg. injection Eg as Eg. assert (K := F1 (g x) r Lg Er). specialize (P (g x) Lg). lra.
Qed.
Theorem cone_smoothed_spec : forall n c sq, cone_dim (c_class c) n -> c_class c <> KL2 -> c_class c <> KL2Polar -> base_wf n (c_base c) -> coef (b_quadratic (c_base c)) = 0 ->
  q_shape n sq -> center_ok n sq -> 0 < coef sq -> let K := base_doc n (cone_fun (c_class c)) (c_base c) in
  exists C G f g, cone_smoothed c sq = Ok C /\ sc_lipschitz C = 1 / coef sq /\ (forall u, length u = n -> is_fenchel n K u (G u)) /\ (forall x, length x = n -> is_fenchel n G x (K x)) /\
    evaluates n (sc_eval C) f g /\ smooth_conjugate_of n (plus_quad n G sq) (1 / coef sq) f g.
Proof.
  intros n [k b] sq Hd N1 N2 W Hc Ss Cs HL K. cbn [c_class c_base] in *. destruct (cone_conjugate_correct k n b Hd W Hc) as (d & Ed & Wd & Fd & e & Ee & We & De).
  assert (Hd' : cone_dim (polar_class k) n) by (destruct k; auto). assert (Kd : b_shape d = n /\ coef (b_quadratic d) = 0 /\ center_ok n (b_quadratic d) /\ new_base (b_shape d) (b_offset d) (Some (b_quadratic d)) = d).
  { split; [apply Wd|]. unfold cone_conjugate in Ed. cbn [c_base c_class] in Ed. unfold conjugate_base in Ed. destruct (Req_EM_T _ 0); [|discriminate]. unfold work_out_conjugate in Ed. cbn [option_map] in Ed. injection Ed as Ed. split; [rewrite <- Ed; reflexivity|]. split; [rewrite <- Ed; left; reflexivity|].
    destruct Wd as (_ & Ho & _). destruct d as [sh o q]. unfold new_base. cbn [b_shape b_offset b_quadratic] in *. f_equal. unfold fresh_offset. destruct o as [v|]; auto. destruct (Ho v eq_refl) as [Lv Nv]. destruct (all_zero v) eqn:E; auto. apply P_quad.all_zero_spec in E. congruence. }
  destruct Kd as (Shd & Ecd & Cd & Nd). destruct (cone_conjugate_correct (polar_class k) n d Hd' Wd Ecd) as (e' & Ee' & _ & Fe & _). assert (e' = e). { rewrite polar_invol in Ee'. congruence. } subst e'. rewrite polar_invol in Fe.
  assert (Sd : q_shape n (b_quadratic d)) by apply Wd. destruct (add_quad n sq (b_quadratic d) Ss Sd Cs Cd) as (t & Et & St & Ct & Kt & _ & Dt).
  set (c' := set_cquad (mk_cone (polar_class k) d) t). assert (CO : curved_obj n (fun x => cone_fun (polar_class k) (vsub x (base_off n d))) t (of_cone c')).
  { apply (cone_curved n c'); auto; try (destruct k; discriminate || congruence). split; [exact Shd|]. split; [apply Wd|exact St]. }
  destruct (own_sconj n _ t _ CO ltac:(lra)) as (C & EC & EL & f & g & Ev & S). exists C, (base_doc n (cone_fun (polar_class k)) d), f, g. split; [|split; [rewrite EL; f_equal; lra|split; [exact Fd|split; [|split; auto]]]].
  - unfold cone_smoothed. rewrite Ed. destruct (Req_EM_T (coef sq) 0); [exfalso; lra|]. cbn [c_base]. rewrite Et. cbn [rbind]. unfold cone_copy, new_cone. cbn [c_class c_base]. rewrite Nd. exact EC.
  - intros x Lx. unfold K. rewrite <- De by auto. apply Fe; auto.
  - rewrite EL in S. replace (1 / coef sq) with (1 / coef t) by (f_equal; lra). eapply attains_ext; [|exact S]. intros x Lx. unfold plus_quad, base_doc. destruct (cone_fun _ _) as [r|]; cbn [ext_add]; auto. f_equal. rewrite Dt by auto. unfold q_denot at 2. lra.
Qed.
(** ** Affine atoms *)
Lemma opnorm_adj : forall T L v, true_adjoint T -> 0 <= L -> opnorm_bound T L -> length v = t_out T -> sqn (t_adj T v) <= L * sqn v.
Proof.
  intros T L v (A1 & A2 & A3) HL HO Lv. set (w := t_adj T v). assert (Lw : length w = t_in T) by (apply A2; auto).
  assert (E : sqn w = dot v (t_lin T w)). { unfold sqn. unfold w at 2. rewrite <- A3 by auto. apply dot_comm. }
  assert (CS := cauchy_schwarz_sq v (t_lin T w) ltac:(rewrite A1; auto)). assert (B := HO w Lw). pose proof (sqn_nonneg w). pose proof (sqn_nonneg v). pose proof (sqn_nonneg (t_lin T w)).
  destruct (Req_dec (sqn w) 0) as [Z|NZ]; [rewrite Z; apply Rmult_le_pos; auto|].
  assert (sqn w * sqn w <= sqn v * (L * sqn w)). { rewrite E at 1 2. nra. } nra.
Qed.
Lemma vsub_scal : forall y x : vec, length x = length y -> vsub y x = vadd y (vscal (-1) x).
Proof. unfold vsub, vadd, vscal. induction y as [|a y IH]; intros [|b x] E; cbn in *; try discriminate; auto. f_equal; [ring|apply IH; congruence]. Qed.
Lemma lin_sub : forall T x y, true_adjoint T -> length x = t_in T -> length y = t_in T -> t_lin T (vsub x y) = vsub (t_lin T x) (t_lin T y).
Proof. intros T x y A Lx Ly. destruct (adjoint_linear T A) as [Ln1 Ln2]. destruct A as (A1 & _). rewrite !vsub_scal by (rewrite ?A1; congruence). rewrite Ln1, Ln2 by vlen. reflexivity. Qed.
Lemma adj_sub : forall T u v, true_adjoint T -> length u = t_out T -> length v = t_out T -> t_adj T (vsub u v) = vsub (t_adj T u) (t_adj T v).
Proof.
  intros T u v A Lu Lv. apply (lin_sub (mk_transform (t_adj T) (t_adj T) (t_lin T) (t_off T) (t_out T) (t_in T))); auto. destruct A as (A1 & A2 & A3). split; [exact A2|split; [exact A1|]]. intros x w Lx Lw. cbn [t_lin t_adj t_in t_out] in *. rewrite dot_comm, <- A3 by auto. apply dot_comm.
Qed.
Lemma linear_pullback : forall T f g L Lo, true_adjoint T -> (forall x, length x = t_in T -> t_aff T x = t_lin T x) -> 0 <= Lo -> opnorm_bound T Lo -> 0 <= L ->
  convex_on (t_out T) f -> gradient_of (t_out T) f g -> (forall y, length y = t_out T -> length (g y) = t_out T) -> lipschitz_map (t_out T) g L ->
  convex_on (t_in T) (fun x => f (t_aff T x)) /\ gradient_of (t_in T) (fun x => f (t_aff T x)) (fun x => t_adj T (g (t_aff T x))) /\ lipschitz_map (t_in T) (fun x => t_adj T (g (t_aff T x))) (Lo * L).
Proof.
  intros T f g L Lo A E HLo HO HL C D Lg Lp. destruct (adjoint_linear T A) as [Ln1 Ln2]. assert (A' := A). destruct A' as (A1 & A2 & A3).
  split; [|split].
  - intros x y t Lx Ly Ht. replace (t_aff T (between x y t)) with (between (t_aff T x) (t_aff T y) t). { apply C; auto; rewrite E; auto. }
    unfold between. rewrite !E by vlen. rewrite Ln1, Ln2, lin_sub by vlen. reflexivity.
  - intros x Lx. apply (P_smooth.chain T (t_in T) (t_out T) f x (g (t_aff T x))); auto. { split; [auto|]. split; [apply linear_affine; auto|auto]. }
    apply D. rewrite E; auto.
  - intros x y Lx Ly. rewrite !E by auto. rewrite <- adj_sub by auto. apply norm_le_iff; [apply Rmult_le_pos; [nra|apply norm_nonneg]|].
    assert (B1 := opnorm_adj T Lo (vsub (g (t_lin T x)) (g (t_lin T y))) A HLo HO ltac:(rewrite vsub_length; rewrite !Lg; auto)). 
    assert (B2 := Lp (t_lin T x) (t_lin T y) (A1 x Lx) (A1 y Ly)). rewrite <- lin_sub in B2 by auto. assert (B3 := HO (vsub x y) ltac:(vlen)).
    rewrite <- !norm_sq in *. set (a := norm (vsub (g _) _)) in *. set (b := norm (t_lin T _)) in *. set (c := norm (vsub x y)) in *. set (e := norm (t_adj T _)) in *.
    assert (0 <= a) by apply norm_nonneg. assert (0 <= b) by apply norm_nonneg. assert (0 <= c) by apply norm_nonneg.
    assert (a * a <= L * b * (L * b)) by nra. assert (L * b * (L * b) <= L * L * (Lo * (c * c))) by (replace (L * b * (L * b)) with (L * L * (b * b)) by ring; apply Rmult_le_compat_l; nra).
    assert (Lo * (a * a) <= Lo * (L * L * (Lo * (c * c)))) by (apply Rmult_le_compat_l; lra). lra.
Qed.
Theorem aa_smoothed_spec : forall A m sq Lo, (1 <= t_out (aa_map A))%nat -> atom_wf (t_out (aa_map A)) (aa_atom A) -> mode_ok m -> atom_mode (aa_atom A) m -> coef (a_quadratic (aa_atom A)) = 0 -> dual_value_ok (klass (aa_atom A)) m ->
  true_adjoint (aa_map A) -> (forall x, length x = t_in (aa_map A) -> t_aff (aa_map A) x = t_lin (aa_map A) x) -> 0 <= Lo -> opnorm_bound (aa_map A) Lo ->
  q_shape (t_out (aa_map A)) sq -> center_ok (t_out (aa_map A)) sq -> 0 < coef sq ->
  exists C G f g F Gr, aa_smoothed A sq = Ok C /\ (forall u, length u = t_out (aa_map A) -> is_fenchel (t_out (aa_map A)) (atom_doc (t_out (aa_map A)) (aa_atom A) m) u (G u)) /\
    (forall x, length x = t_out (aa_map A) -> is_fenchel (t_out (aa_map A)) G x (atom_doc (t_out (aa_map A)) (aa_atom A) m x)) /\
    smooth_conjugate_of (t_out (aa_map A)) (plus_quad (t_out (aa_map A)) G sq) (1 / coef sq) f g /\ evaluates_affine (t_in (aa_map A)) (asc_eval C) F Gr /\ (forall x, length x = t_in (aa_map A) -> F x = f (t_lin (aa_map A) x)) /\
    convex_on (t_in (aa_map A)) F /\ gradient_of (t_in (aa_map A)) F Gr /\ lipschitz_map (t_in (aa_map A)) Gr (Lo * (1 / coef sq)).
Proof.
  intros [a T] m sq Lo. cbn [aa_map aa_atom]. intros Hn W Hm Em Hc V TA TE HLo HO Ss Cs HL. set (n := t_out T) in *.
  destruct (atom_smoothed_spec n a m sq Hn W Hm Em Hc V Ss Cs HL) as (C & G & f & g & EC & EL & F1 & F2 & Ev & S).
  assert (E : aa_smoothed (mk_affine_atom a T) sq = Ok (C, T)).
  { unfold atom_smoothed in EC. destruct (Req_EM_T (coef (a_quadratic a)) 0); [|tauto]. unfold aa_smoothed, aa_dual. cbn [aa_atom aa_map]. rewrite (copy_correct n a m W Hm Em). cbn [rbind].
    assert (Sh : shape a = n) by apply W. replace (mk_atom (klass a) (t_out T) (a_lagrange a) (a_bound a) (a_offset a) (a_quadratic a)) with a by (fold n; rewrite <- Sh; destruct a; reflexivity).
    destruct (conj_form n a m W Hm Em Hc) as (d & Ed & Ek & Emd & Wd & _ & _ & Ecd & _). rewrite Ed in *. cbn [rbind fst snd] in *. rewrite (copy_correct n d (dual_mode m)) in EC by (auto; destruct m; auto). cbn [rbind] in EC.
    destruct (Req_EM_T (coef sq) 0); [discriminate|]. assert (Cd := conj_center a d n Ed). assert (Sd : q_shape n (a_quadratic d)) by apply Wd. destruct (add_quad n sq (a_quadratic d) Ss Sd Cs Cd) as (t & Et & St & Ct & Kt & _ & Dt).
    rewrite Et in *. cbn [rbind] in *. destruct (Req_EM_T (coef t) 0); [exfalso; lra|]. rewrite EC. reflexivity. }
  assert (S' := S). destruct S' as (At & Cv & Gd & Lp). assert (0 <= 1 / coef sq) by (apply Rlt_le, Rdiv_lt_0_compat; lra).
  destruct (linear_pullback T f g (1 / coef sq) Lo TA TE HLo HO) as (P1 & P2 & P3); auto. { intros y Ly. apply At. auto. }
  exists (C, T), G, f, g, (fun x => f (t_aff T x)), (fun x => t_adj T (g (t_aff T x))). split; [exact E|]. split; [exact F1|]. split; [exact F2|]. split; [exact S|]. split; [|split; [intros x Lx; rewrite TE; auto|auto]].
  intros x Lx. assert (Lt : length (t_aff T x) = n) by (rewrite TE by auto; apply TA; auto). destruct (Ev _ Lt) as (E1 & E2 & E3 & _). unfold asc_eval. cbn [fst snd]. rewrite E1, E2, E3. cbn. auto.
Qed.
Lemma needs_curvature : forall n own s A b, q_shape n own -> q_shape n s -> center_ok n own -> center_ok n s -> coef own + coef s = 0 ->
  new_sconj A own (Some s) = Err ValueError /\ new_conj A own (Some s) b = Err ValueError.
Proof.
  intros n own s A b S1 S2 C1 C2 Z. destruct (add_quad n own s S1 S2 C1 C2) as (t & Et & St & Ct & Kt & _). unfold new_sconj, new_conj. rewrite Et. cbn [rbind]. destruct (Req_EM_T (coef t) 0); [auto|exfalso; lra].
Qed.
Lemma curved_raises : forall a sq, coef (a_quadratic a) <> 0 -> coef sq <> 0 -> atom_smoothed a sq = Err TypeError.
Proof. intros a sq H1 H2. unfold atom_smoothed. destruct (Req_EM_T _ 0); [tauto|]. destruct (Req_EM_T _ 0); tauto. Qed.

(** Proofs about conjugates, smoothing and selectors of separable objects and about separable_problem. *)
From Coq Require Import Reals List Lra Lia Arith Bool Permutation.
From Verif Require Import M_affine P_affine P_buffer M_loss M_smooth Vec Spec SpecConvex M_quad P_quad P_calc P_sep P_loss M_semi SpecAtom M_shift SpecBase SpecCone M_cones P_cones M_fista SpecFista M_problem SpecProblem P_problem P_separable M_sconj M_sepconj SpecSepconj.
Import ListNotations.
Local Open Scope R_scope.

(** ** Inner products over groups *)
Definition prods (u x : vec) (i : nat) : R := nth i u 0 * nth i x 0.
Lemma dot_part : forall u x g, dot (part_of u g) (part_of x g) = isum g (prods u x).
Proof. intros u x g. unfold dot, vmul. rewrite zip_part. reflexivity. Qed.
Lemma dot_groups : forall n gs u x, legal_groups n gs -> length u = n -> length x = n -> dot u x = isum (concat gs) (prods u x) + isum (rest n (concat gs)) (prods u x).
Proof.
  intros n gs u x Lg Lu Lx. rewrite <- (part_whole n u) at 1 by auto. rewrite <- (part_whole n x) at 1 by auto. rewrite dot_part.
  rewrite (isum_perm _ _ _ (rest_perm n (concat gs) (proj1 Lg) (legal_lt n gs Lg))). apply isum_app.
Qed.
Lemma rest_covering : forall n gs, covering n gs -> rest n (concat gs) = [].
Proof.
  intros n gs C. destruct (rest n (concat gs)) as [|i l] eqn:E; auto. exfalso. assert (K : In i (rest n (concat gs))) by (rewrite E; left; auto). apply rest_In in K. destruct K as [K1 K2]. apply K2. auto.
Qed.
Lemma sep_fun_ext : forall Hs gs x y, (forall i, In i (concat gs) -> nth i x 0 = nth i y 0) -> separable_fun Hs gs x = separable_fun Hs gs y.
Proof.
  induction Hs as [|H Hs IH]; intros [|g gs] x y E; auto. cbn [separable_fun concat] in *. rewrite (part_ext x y g) by (intros; apply E; apply in_or_app; auto). f_equal. apply IH. intros. apply E. apply in_or_app. auto.
Qed.
Definition near (s : ext) (e M t : R) : Prop := match s with Fin v => v - e < t | PInf => M < t end.
Lemma fenchel_near : forall n F u s e M, is_fenchel n F u s -> 0 < e -> exists x r, length x = n /\ F x = Fin r /\ near s e M (dot u x - r).
Proof. intros n F u [v|] e M K He; cbn in *; [destruct K as [_ K]; apply K; auto|apply K]. Qed.
Lemma near_fenchel : forall n F u s, (forall e M, 0 < e -> exists x r, length x = n /\ F x = Fin r /\ near s e M (dot u x - r)) ->
  (forall x r v, s = Fin v -> length x = n -> F x = Fin r -> dot u x - r <= v) -> is_fenchel n F u s.
Proof.
  intros n F u [v|] K U; cbn in *.
  - split; [intros x r Lx E; apply (U x r v); auto|]. intros e He. apply (K e 0 He).
  - intros M. apply (K 1 M). lra.
Qed.

Lemma sep_upper : forall ms ps u x v r, Forall2 member_for ms ps -> separable_fun (map snd ps) (map m_group ms) u = Fin v -> separable_fun (map fst ps) (map m_group ms) x = Fin r ->
  isum (concat (map m_group ms)) (prods u x) - r <= v.
Proof.
  intros ms ps u x v r F. revert v r. induction F as [|m p ms ps Mm F IH]; intros v r; cbn [map separable_fun concat].
  - intros [= <-] [= <-]. cbn. lra.
  - intros Ev Er. destruct (snd p (part_of u (m_group m))) as [v1|] eqn:E1; [|discriminate]. destruct (separable_fun (map snd ps) (map m_group ms) u) as [v2|] eqn:E2; [|discriminate].
    destruct (fst p (part_of x (m_group m))) as [r1|] eqn:E3; [|discriminate]. destruct (separable_fun (map fst ps) (map m_group ms) x) as [r2|] eqn:E4; [|discriminate].
    cbn [ext_add] in *. injection Ev as <-. injection Er as <-. specialize (IH v2 r2 eq_refl eq_refl). rewrite isum_app.
    assert (K := mf_fenchel _ _ Mm (part_of u (m_group m)) (part_length _ _)). rewrite E1 in K. destruct K as [K _]. specialize (K (part_of x (m_group m)) r1 (part_length _ _) E3). rewrite dot_part in K. lra.
Qed.
Lemma sep_lower : forall n ms ps u x0, Forall2 member_for ms ps -> legal_groups n (map m_group ms) -> length x0 = n -> forall e M, 0 < e ->
  exists x r, length x = n /\ (forall j, ~ In j (concat (map m_group ms)) -> nth j x 0 = nth j x0 0) /\ separable_fun (map fst ps) (map m_group ms) x = Fin r /\
    near (separable_fun (map snd ps) (map m_group ms) u) e M (isum (concat (map m_group ms)) (prods u x) - r).
Proof.
  intros n ms ps u x0 F. induction F as [|m p ms ps Mm F IH]; intros Lg L0 e M He; cbn [map separable_fun concat] in *.
  - exists x0, 0. repeat (split; auto). cbn. lra.
  - destruct (legal_tail _ _ _ Lg) as (Ng & Fg & Lg' & D). set (g := m_group m) in *. set (gs := map m_group ms) in *.
    assert (K0 := mf_fenchel _ _ Mm (part_of u g) (part_length _ _)). fold g in K0.
    (* combine a point w of the head with a point x of the tail *)
    assert (C : forall w r1 x r2, length w = length g -> fst p w = Fin r1 -> length x = n -> (forall j, ~ In j (concat gs) -> nth j x 0 = nth j x0 0) -> separable_fun (map fst ps) gs x = Fin r2 ->
       near (ext_add (snd p (part_of u g)) (separable_fun (map snd ps) gs u)) e M (dot (part_of u g) w - r1 + (isum (concat gs) (prods u x) - r2)) ->
       exists y r, length y = n /\ (forall j, ~ In j (g ++ concat gs) -> nth j y 0 = nth j x0 0) /\ ext_add (fst p (part_of y g)) (separable_fun (map fst ps) gs y) = Fin r /\
         near (ext_add (snd p (part_of u g)) (separable_fun (map snd ps) gs u)) e M (isum (g ++ concat gs) (prods u y) - r)).
    { intros w r1 x r2 Lw E1 Lx Ox E2 N. set (y := M_affine.scatter g w x). assert (Py : part_of y g = w) by (apply part_scatter; auto; rewrite Lx; auto).
      assert (Oy : forall j, ~ In j g -> nth j y 0 = nth j x 0) by (intros j Hj; apply scatter_outside; auto).
      exists y, (r1 + r2). split; [unfold y; rewrite scatter_length; auto|]. split; [intros j Hj; rewrite in_app_iff in Hj; rewrite Oy by tauto; apply Ox; tauto|].
      rewrite Py, E1. rewrite (sep_fun_ext _ gs y x) by (intros i Hi; apply Oy; intros K; apply (D i K Hi)). rewrite E2. split; [reflexivity|].
      rewrite isum_app, <- dot_part, Py. rewrite (isum_ext (concat gs) (prods u y) (prods u x)) by (intros i Hi; unfold prods; rewrite Oy by (intros K; apply (D i K Hi)); reflexivity).
      replace (dot (part_of u g) w + isum (concat gs) (prods u x) - (r1 + r2)) with (dot (part_of u g) w - r1 + (isum (concat gs) (prods u x) - r2)) by ring. exact N. }
    destruct (snd p (part_of u g)) as [v1|] eqn:E1.
    + destruct (separable_fun (map snd ps) gs u) as [v2|] eqn:E2.
      * destruct (fenchel_near _ _ _ _ (e/2) 0 K0) as (w & r1 & Lw & Er1 & N1); [lra|]. destruct (IH Lg' L0 (e/2) 0) as (x & r2 & Lx & Ox & Er2 & N2); [lra|].
        apply (C w r1 x r2); auto. cbn in *. lra.
      * destruct (fenchel_near _ _ _ _ 1 0 K0) as (w & r1 & Lw & Er1 & N1); [lra|]. destruct (IH Lg' L0 1 (M - (dot (part_of u g) w - r1))) as (x & r2 & Lx & Ox & Er2 & N2); [lra|].
        apply (C w r1 x r2); auto. cbn in *. lra.
    + destruct (IH Lg' L0 1 0) as (x & r2 & Lx & Ox & Er2 & N2); [lra|]. destruct (fenchel_near _ _ _ _ 1 (M - (isum (concat gs) (prods u x) - r2)) K0) as (w & r1 & Lw & Er1 & N1); [lra|].
      apply (C w r1 x r2); auto. cbn in *. lra.
Qed.
Theorem sep_fenchel : forall n ms ps u, Forall2 member_for ms ps -> legal_groups n (map m_group ms) -> covering n (map m_group ms) -> length u = n ->
  is_fenchel n (separable_fun (map fst ps) (map m_group ms)) u (separable_fun (map snd ps) (map m_group ms) u).
Proof.
  intros n ms ps u F Lg Cv Lu. assert (D : forall x, length x = n -> dot u x = isum (concat (map m_group ms)) (prods u x)).
  { intros x Lx. rewrite (dot_groups n (map m_group ms)) by auto. rewrite rest_covering by auto. cbn. lra. }
  apply near_fenchel.
  - intros e M He. destruct (sep_lower n ms ps u (zeros n) F Lg (repeat_length _ _) e M He) as (x & r & Lx & _ & Er & N). exists x, r. rewrite D by auto. auto.
  - intros x r v Ev Lx Er. rewrite D by auto. apply (sep_upper ms ps); auto.
Qed.

(** ** What the property conjugate returns *)
Lemma groups_ok : forall n gs, legal_groups n gs -> existsb (existsb (fun i => Nat.leb n i)) gs = false.
Proof.
  intros n gs [_ H]. destruct (existsb (existsb (fun i => Nat.leb n i)) gs) eqn:E; auto. exfalso. apply existsb_exists in E. destruct E as (g & Hg & E). apply existsb_exists in E. destruct E as (i & Hi & E). apply Nat.leb_le in E. specialize (H g i Hg Hi). lia.
Qed.
Lemma sa_parts : forall ms ps, Forall2 member_for ms ps -> parts_exact (map (fun m => (m_obj m, m_group m)) ms) (map fst ps).
Proof. intros ms ps F. induction F as [|m p ms ps Mm F IH]; cbn [map]; constructor; auto. cbn [fst snd]. apply (mf_obj _ _ Mm). Qed.
Lemma sa_conjs : forall ms ps, Forall2 member_for ms ps -> exists cs, all_res (map m_conj ms) = Ok cs /\ parts_exact (combine cs (map m_group ms)) (map snd ps) /\ map snd (combine cs (map m_group ms)) = map m_group ms.
Proof.
  intros ms ps F. induction F as [|m p ms ps Mm F (cs & E & X & G)]; cbn [map all_res].
  - exists []. repeat (split; auto). constructor.
  - destruct (mf_conj _ _ Mm) as (B & EB & XB). exists (B :: cs). rewrite EB, E. split; [reflexivity|]. cbn [combine map snd]. split; [constructor; auto|]. rewrite G. reflexivity.
Qed.
Lemma map_snd_parts : forall ms, map snd (map (fun m => (m_obj m, m_group m)) ms) = map m_group ms.
Proof. intros ms. rewrite map_map. reflexivity. Qed.
Lemma sep_self_exact : forall S ps, (1 <= sa_shape S)%nat -> legal_groups (sa_shape S) (sa_groups S) -> Forall2 member_for (sa_members S) ps ->
  exact_obj (sa_shape S) (separable_fun (map fst ps) (sa_groups S)) (of_separable (sa_sep S)).
Proof.
  intros S ps Hn Lg F. unfold sa_sep, sa_groups in *. rewrite <- map_snd_parts in *. apply separable_exact; auto. apply sa_parts. auto.
Qed.
Lemma sep_conj_exact : forall S ps, (1 <= sa_shape S)%nat -> coef (sa_quadratic S) = 0 -> legal_groups (sa_shape S) (sa_groups S) -> Forall2 member_for (sa_members S) ps ->
  exists D, sep_conjugate S = Ok (SCSep D) /\ sp_shape D = sa_shape S /\ map snd (sp_parts D) = sa_groups S /\ parts_exact (sp_parts D) (map snd ps) /\
    exact_obj (sa_shape S) (separable_fun (map snd ps) (sa_groups S)) (of_separable D).
Proof.
  intros S ps Hn Hq Lg F. destruct (sa_conjs _ _ F) as (cs & E & X & G). unfold sep_conjugate. destruct (Req_EM_T (coef (sa_quadratic S)) 0) as [_|]; [|contradiction]. rewrite E. cbn [rbind].
  unfold new_separable. cbn [rbind]. fold (sa_groups S). rewrite groups_ok by auto. cbn [rmap]. eexists. split; [reflexivity|]. cbn [sp_shape sp_parts]. split; [reflexivity|]. split; [exact G|]. split; [exact X|].
  unfold sa_groups in *. rewrite <- G at 1. apply separable_exact; auto. rewrite G. auto.
Qed.
Theorem conjugate_covered : forall S ps, (1 <= sa_shape S)%nat -> coef (sa_quadratic S) = 0 -> legal_groups (sa_shape S) (sa_groups S) -> covering (sa_shape S) (sa_groups S) -> Forall2 member_for (sa_members S) ps ->
  exists D, sep_conjugate S = Ok (SCSep D) /\ exact_obj (sa_shape S) (separable_fun (map fst ps) (sa_groups S)) (of_separable (sa_sep S)) /\
    exact_obj (sa_shape S) (separable_fun (map snd ps) (sa_groups S)) (of_separable D) /\
    forall u, length u = sa_shape S -> is_fenchel (sa_shape S) (separable_fun (map fst ps) (sa_groups S)) u (separable_fun (map snd ps) (sa_groups S) u).
Proof.
  intros S ps Hn Hq Lg Cv F. destruct (sep_conj_exact S ps) as (D & E & _ & _ & _ & X); auto. exists D. split; auto. split; [apply sep_self_exact; auto|]. split; auto. intros u Lu. apply sep_fenchel; auto.
Qed.

(** ** A position outside all groups *)
Lemma isum_zero : forall g F, (forall i, In i g -> F i = 0) -> isum g F = 0.
Proof. intros g F H. rewrite (isum_ext g F (fun _ => 0)) by auto. unfold isum. clear H. induction g; [reflexivity|]. cbn [map]. rewrite vsum_cons, IHg. lra. Qed.
Lemma isum_single : forall g k F, NoDup g -> In k g -> (forall i, In i g -> i <> k -> F i = 0) -> isum g F = F k.
Proof.
  induction g as [|j g IH]; intros k F N I Z; [destruct I|]. inversion N as [|? ? Hj N']; subst. unfold isum. cbn [map]. rewrite vsum_cons. fold (isum g F). destruct I as [->|I].
  - rewrite isum_zero; [lra|]. intros i Hi. apply Z; [right; auto|]. intros ->. contradiction.
  - rewrite (IH k) by (auto; intros; apply Z; auto; right; auto). rewrite (Z j); [lra|left; auto|]. intros ->. contradiction.
Qed.
Lemma uncovered_infinite : forall n ms ps u k, Forall2 member_for ms ps -> legal_groups n (map m_group ms) -> length u = n -> (k < n)%nat -> ~ In k (concat (map m_group ms)) -> nth k u 0 <> 0 ->
  is_fenchel n (separable_fun (map fst ps) (map m_group ms)) u PInf.
Proof.
  intros n ms ps u k F Lg Lu Hk Nk Hu. cbn. intros M.
  assert (LZ : length (zeros n) = n) by apply repeat_length.
  destruct (sep_lower n ms ps u (zeros n) F Lg LZ 1 0) as (x & r & Lx & Ox & Er & _); [lra|].
  set (t := (M + 1 - (isum (concat (map m_group ms)) (prods u x) - r)) / nth k u 0). set (y := set_at k t x).
  assert (Ly : length y = n) by (unfold y; rewrite set_at_length; auto).
  assert (Yk : nth k y 0 = t) by (apply nth_set_at_same; rewrite Lx; auto).
  assert (Yo : forall j, j <> k -> nth j y 0 = nth j x 0) by (intros j Hj; unfold y; apply nth_set_at_other; auto).
  assert (Yc : forall j, In j (concat (map m_group ms)) -> nth j y 0 = nth j x 0) by (intros j Hj; apply Yo; intros ->; contradiction).
  exists y, r. split; auto. split; [rewrite (sep_fun_ext _ _ y x); auto|].
  rewrite (dot_groups n (map m_group ms)) by auto. rewrite (isum_ext _ (prods u y) (prods u x)) by (intros i Hi; unfold prods; rewrite Yc by auto; reflexivity).
  rewrite (isum_single (rest n (concat (map m_group ms))) k).
  - assert (PK : prods u y k = nth k u 0 * t) by (unfold prods; rewrite Yk; reflexivity). rewrite PK. unfold t. replace (nth k u 0 * ((M + 1 - (isum (concat (map m_group ms)) (prods u x) - r)) / nth k u 0)) with (M + 1 - (isum (concat (map m_group ms)) (prods u x) - r)) by (field; auto). lra.
  - apply NoDup_filter. apply seq_NoDup.
  - apply rest_In. auto.
  - intros i Hi Hik. apply rest_In in Hi. destruct Hi as [Hi1 Hi2]. unfold prods. rewrite Yo, Ox by auto. unfold zeros. rewrite nth_repeat. lra.
Qed.
Lemma unit_good : forall n z, length z = n -> q_shape n (unit_step z) /\ 0 < coef (unit_step z) /\ has_vec (unit_step z).
Proof. intros n z Lz. split; [split; cbn; auto|]. split; [cbn; lra|]. cbn. auto. Qed.
Lemma zero_prox_unit : forall n z, (1 <= n)%nat -> length z = n -> cone_proximal (new_cone KZero n None None) (AQuad (unit_step z)) = Ok z.
Proof.
  intros n z Hn Lz. assert (X : exact_obj n (fun _ => Fin 0) (of_cone (new_cone KZero n None None))) by (apply zero_exact; auto).
  destruct (unit_good n z Lz) as (Sq & Hq & V). destruct (eo_prox _ _ _ X _ Sq Hq V) as (v & E & (Lv & _ & M)). cbn [of_cone o_prox] in E. rewrite E. f_equal.
  specialize (M z Lz). unfold plus_quad, q_denot, quad_fun, unit_step in M. cbn [ext_add ext_le coef center linear_term constant_term fbcast] in M.
  assert (Z : sqn (vsub z z) = 0) by (rewrite vsub_self; apply sqn_zeros). assert (D0 : forall w, dot (const_vec n 0) w = 0) by (intros w; rewrite const_vec_0; apply dot_zeros_l).
  rewrite Z, !D0 in M. assert (N := sqn_nonneg (vsub v z)). assert (K : sqn (vsub v z) = 0) by lra. apply vsub_eq_zero; [congruence|lra].
Qed.
Lemma sep_prox_outside : forall n parts Hs z k, (1 <= n)%nat -> parts_exact parts Hs -> legal_groups n (map snd parts) -> length z = n -> ~ In k (concat (map snd parts)) ->
  exists v, o_prox (of_separable (mk_separable n parts)) (unit_step z) = Ok v /\ nth k v 0 = nth k z 0.
Proof.
  intros n parts Hs z k Hn F Lg Lz Nk. cbn [of_separable o_prox]. unfold sep_prox. cbn [sp_shape sp_parts]. rewrite zero_prox_unit by auto. cbn [rbind].
  destruct (unit_good n z Lz) as (Sq & Hq & V). destruct (sep_assign_spec n _ Sq Hq V parts Hs F Lg z Lz) as (v & E & _ & O & _). exists v. split; auto.
Qed.
Theorem conjugate_uncovered : forall S ps k, (1 <= sa_shape S)%nat -> coef (sa_quadratic S) = 0 -> legal_groups (sa_shape S) (sa_groups S) -> Forall2 member_for (sa_members S) ps ->
  (k < sa_shape S)%nat -> ~ In k (concat (sa_groups S)) ->
  exists D, sep_conjugate S = Ok (SCSep D) /\
    (forall u, length u = sa_shape S -> nth k u 0 <> 0 -> is_fenchel (sa_shape S) (separable_fun (map fst ps) (sa_groups S)) u PInf) /\
    (forall u chk r, length u = sa_shape S -> separable_fun (map snd ps) (sa_groups S) u = Fin r -> o_value (of_separable D) u chk = Ok (Fin r)) /\
    (forall u t chk, o_value (of_separable D) (set_at k t u) chk = o_value (of_separable D) u chk) /\
    (forall z, length z = sa_shape S -> exists v w, o_prox (of_separable (sa_sep S)) (unit_step z) = Ok v /\ o_prox (of_separable D) (unit_step z) = Ok w /\ nth k v 0 + nth k w 0 = 2 * nth k z 0).
Proof.
  intros S ps k Hn Hq Lg F Hk Nk. destruct (sep_conj_exact S ps) as (D & E & SD & GD & PD & X); auto. exists D. split; auto. split; [|split; [|split]].
  - intros u Lu Hu. apply (uncovered_infinite _ _ _ u k); auto.
  - intros u chk r Lu Er. apply (eo_value _ _ _ X); auto.
  - intros u t chk. cbn [of_separable o_value]. rewrite <- GD in Nk. clear - Nk. induction (sp_parts D) as [|[A g] parts IH]; auto. cbn [map concat snd] in Nk. rewrite in_app_iff in Nk. cbn [sep_value].
    assert (T : take_idx g (set_at k t u) = take_idx g u).
    { assert (Ng : ~ In k g) by tauto. clear - Ng. induction g as [|i g IH]; auto. cbn [take_idx]. assert (i <> k) by (intros ->; apply Ng; left; auto). 
      assert (EN : nth_error (set_at k t u) i = nth_error u i).
      { clear - H. revert i k H. induction u as [|a u IH]; intros i [|k] H; auto; destruct i as [|i]; cbn; auto; try congruence. }
      rewrite EN, IH; auto. intros K. apply Ng. right. auto. }
    rewrite T. destruct (take_idx g u) as [y|e]; cbn [rbind]; auto. destruct (o_value A y chk); cbn [rbind]; auto. rewrite IH by tauto. reflexivity.
  - intros z Lz. assert (Nk' := Nk). unfold sa_groups in Nk. rewrite <- map_snd_parts in Nk.
    destruct (sep_prox_outside (sa_shape S) (map (fun m => (m_obj m, m_group m)) (sa_members S)) (map fst ps) z k) as (v & Ev & Kv); auto; [apply sa_parts; auto|rewrite map_snd_parts; exact Lg|].
    destruct (sep_prox_outside (sa_shape S) (sp_parts D) (map snd ps) z k) as (w & Ew & Kw); auto; [rewrite GD; auto|rewrite GD; auto|].
    exists v, w. split; [exact Ev|]. split; [|rewrite Kv, Kw; ring]. destruct D as [nD pD]. cbn [sp_shape] in SD. subst nD. exact Ew.
Qed.

(** ** Quadratics and smoothing *)
Lemma no_coef_prox : forall S q, coef q = 0 -> sep_prox S q = Err ValueError.
Proof.
  intros S q H. unfold sep_prox, cone_proximal, shifted_prox. cbn. rewrite H. destruct (Req_EM_T (0 + 0) 0) as [|K]; [reflexivity|exfalso; lra].
Qed.
Lemma curved_eval : forall S own C x m, new_sconj (of_separable S) own None = Ok C -> sc_eval C x m = Err ValueError.
Proof.
  intros S own C x m H. unfold new_sconj in H. destruct (q_add own (AQuad zero_quad)) as [t|]; [|discriminate]. cbn [rbind] in H. destruct (Req_EM_T (coef t) 0); [discriminate|]. injection H as <-.
  unfold sc_eval. cbn [sc_smoothing sc_atom q_add rbind]. set (q := mk_iq _ _ _ _). assert (Q : coef q = 0) by (cbn; lra).
  assert (P : o_prox (of_separable S) q = Err ValueError) by (apply no_coef_prox; auto).
  destruct m; auto; try (rewrite P; reflexivity); unfold nonsmooth_solve; rewrite P; reflexivity.
Qed.
Theorem curved : forall S, coef (sa_quadratic S) <> 0 ->
  (exists C, sep_conjugate S = Ok (SCSmooth C) /\ forall x m, sc_eval C x m = Err ValueError) /\ forall sq C, sep_smoothed S sq <> Ok C.
Proof.
  intros S H. assert (E : exists C, new_sconj (of_separable (sa_sep S)) (sa_quadratic S) None = Ok C).
  { unfold new_sconj. cbn [q_add rbind]. match goal with |- context [Req_EM_T ?a 0] => destruct (Req_EM_T a 0) as [K|K] end; [|eauto]. exfalso. apply H. cbn in K. lra. }
  destruct E as (C & E). assert (E' : sep_conjugate S = Ok (SCSmooth C)). { unfold sep_conjugate. destruct (Req_EM_T (coef (sa_quadratic S)) 0); [contradiction|]. rewrite E. reflexivity. }
  split; [exists C; split; auto; intros x m; apply (curved_eval _ _ _ x m E)|]. intros sq C' K. unfold sep_smoothed in K. rewrite E' in K. cbn [rbind] in K. destruct (Req_EM_T (coef sq) 0); discriminate.
Qed.
Theorem smoothed_raises : forall S ps sq, (1 <= sa_shape S)%nat -> coef (sa_quadratic S) = 0 -> legal_groups (sa_shape S) (sa_groups S) -> Forall2 member_for (sa_members S) ps -> coef sq <> 0 ->
  exists C, sep_smoothed S sq = Ok C /\ forall x m, sc_eval C x m = Err ValueError.
Proof.
  intros S ps sq Hn Hq Lg F Hs. destruct (sep_conj_exact S ps) as (D & E & _); auto. unfold sep_smoothed. rewrite E. cbn [rbind]. destruct (Req_EM_T (coef sq) 0) as [|_]; [contradiction|].
  assert (K : exists C, rbind (q_add sq (AQuad zero_quad)) (fun t => new_sconj (of_separable D) t None) = Ok C).
  { cbn [q_add rbind]. unfold new_sconj. cbn [q_add rbind]. match goal with |- context [Req_EM_T ?a 0] => destruct (Req_EM_T a 0) as [K|K] end; [|eauto]. exfalso. apply Hs. cbn in K. lra. }
  destruct K as (C & K). exists C. split; auto. intros x m. destruct (q_add sq (AQuad zero_quad)) as [t|]; [|discriminate]. cbn [rbind] in K. apply (curved_eval _ _ _ x m K).
Qed.
Theorem linear_dropped : forall S q, coef (sa_quadratic S) = 0 -> coef q = 0 -> sep_conjugate (mk_sepatom (sa_shape S) (sa_members S) q) = sep_conjugate S.
Proof. intros S q H1 H2. unfold sep_conjugate. cbn [sa_quadratic sa_members sa_shape]. destruct (Req_EM_T (coef q) 0); [|contradiction]. destruct (Req_EM_T (coef (sa_quadratic S)) 0); [reflexivity|contradiction]. Qed.

(** ** separable_problem *)
Lemma legal_whole : forall n, legal_groups n [seq 0 n].
Proof. intros n. split; [cbn; rewrite app_nil_r; apply seq_NoDup|]. intros g i [<-|[]] Hi. apply in_seq in Hi. lia. Qed.
Theorem singleton_exact : forall n A H a, (1 <= n)%nat -> exact_obj n H A -> exists B, sep_singleton A n a = Ok (new_simple a B (zeros n)) /\ exact_obj n H B.
Proof.
  intros n A H a Hn X. unfold sep_singleton, sep_problem, new_separable. cbn [rbind]. rewrite groups_ok by apply legal_whole. cbn [rmap combine]. eexists. split; [reflexivity|].
  assert (K : exact_obj n (separable_fun [H] (map snd [(A, seq 0 n)])) (of_separable (mk_separable n [(A, seq 0 n)]))).
  { apply separable_exact; auto; [|apply legal_whole]. constructor; [|constructor]. cbn [fst snd]. rewrite seq_length. exact X. }
  assert (E : forall x, length x = n -> separable_fun [H] (map snd [(A, seq 0 n)]) x = H x).
  { intros x Lx. cbn [separable_fun map snd]. rewrite part_whole by auto. destruct (H x); cbn; auto. f_equal. lra. }
  apply (exact_obj_ext n _ H _ E K).
Qed.
Theorem fromatom_same : forall S a, legal_groups (sa_shape S) (sa_groups S) -> sep_fromatom S a = Ok (new_simple a (of_separable (sa_sep S)) (zeros (sa_shape S))).
Proof.
  intros S a Lg. unfold sep_fromatom, sep_problem, new_separable. cbn [rbind]. fold (sa_groups S). rewrite groups_ok by auto. cbn [rmap]. do 2 f_equal. unfold sa_sep, sa_groups. do 2 f_equal.
  induction (sa_members S) as [|m ms IH]; cbn; auto. f_equal. auto.
Qed.

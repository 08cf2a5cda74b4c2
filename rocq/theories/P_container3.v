(** Proofs about containers: the parts, the exact branches of the proximal map, the objective, solve. *)
From Coq Require Import Reals List Lra Lia Arith Bool.
From Verif Require Import M_affine SpecAffine P_affine M_loss M_smooth SpecSmooth P_smooth Vec Spec SpecConvex M_quad P_quad P_calc P_sep M_prox M_semi SpecAtom P_semi P_conj M_shift SpecBase P_shift M_afatom SpecCone M_cones P_cones M_fista SpecFista P_fista P_fista2 M_problem SpecProblem P_problem P_separable M_sconj SpecSconj P_sconj M_container SpecContainer P_dual P_container P_container2.
Import ListNotations.
Local Open Scope R_scope.

(** ** Parts *)
Lemma identity_linear : forall n, (1 <= n)%nat -> linear_map n (identity n).
Proof.
  intros n Hn. split; [|split; [reflexivity|split; [reflexivity|exact Hn]]]. split; [|split]; cbn; auto.
Qed.
Theorem affine_part_exact : forall n A k m, linear_map n (aa_map A) -> atom_wf (t_out (aa_map A)) (aa_atom A) -> mode_ok m -> atom_mode (aa_atom A) m -> coef (a_quadratic (aa_atom A)) = 0 ->
  value_ok (klass (aa_atom A)) m -> value_ok (pair_class (klass (aa_atom A))) (dual_mode m) ->
  match k with
  | TIdentity => t_out (aa_map A) = n /\ forall x, length x = n -> t_lin (aa_map A) x = x
  | TSelector idx => t_out (aa_map A) = length idx /\ legal_groups n [idx] /\ forall x, length x = n -> t_lin (aa_map A) x = part_of x idx
  | TGeneral => True
  end ->
  exists p d, affine_part A k = Ok p /\ np_map p = aa_map A /\ np_kind p = k /\ get_conjugate (aa_atom A) = Ok d /\
    exact_part n (atom_doc (t_out (aa_map A)) d (dual_mode m)) (atom_doc (t_out (aa_map A)) (aa_atom A) m) p /\
    forall u, length u = t_out (aa_map A) -> is_fenchel (t_out (aa_map A)) (atom_doc (t_out (aa_map A)) (aa_atom A) m) u (atom_doc (t_out (aa_map A)) d (dual_mode m) u).
Proof.
  intros n [a T] k m. cbn [aa_map aa_atom]. intros LM W Hm Em Hc V Vd Kd. set (r := t_out T) in *. assert (Hr : (1 <= r)%nat) by apply LM.
  destruct (conj_form r a m W Hm Em Hc) as (d & Ed & Ek & Emd & Wd & _ & _ & Ecd & _). assert (Hmd : mode_ok (dual_mode m)) by (destruct m; auto).
  destruct (conjugate_correct r a m W Hm Em Hc) as (d' & Ed' & _ & _ & _ & Fa). rewrite Ed in Ed'. apply Ok_inj in Ed'. subst d'.
  destruct (conjugate_correct r d (dual_mode m) Wd Hmd Emd Ecd) as (e & Ee & Eke & Eme & We & Fd). replace (dual_mode (dual_mode m)) with m in * by (destruct m; reflexivity).
  destruct (double_conjugate_correct r a m W Hm Em Hc) as (d' & e' & Ed' & Ee' & Ke & _ & _ & De). rewrite Ed in Ed'. apply Ok_inj in Ed'. subst d'. rewrite Ee in Ee'. apply Ok_inj in Ee'. subst e'.
  assert (Ece : coef (a_quadratic e) = 0). { destruct (conj_form r d (dual_mode m) Wd Hmd Emd Ecd) as (e' & Ee' & _ & _ & _ & _ & _ & C & _). rewrite Ee in Ee'. apply Ok_inj in Ee'. subst e'. exact C. }
  exists (mk_npart (aa_objective (mk_affine_atom a T)) T k (of_atom d) (rmap of_atom (get_conjugate d))), d. split.
  { unfold affine_part, aa_dual. cbn [aa_atom aa_map]. rewrite (copy_correct r a m W Hm Em). cbn [rbind]. assert (Sh : shape a = r) by apply W. replace (mk_atom (klass a) (t_out T) (a_lagrange a) (a_bound a) (a_offset a) (a_quadratic a)) with a by (fold r; rewrite <- Sh; destruct a; reflexivity). rewrite Ed. reflexivity. }
  split; [reflexivity|]. split; [reflexivity|]. split; [exact Ed|]. split; [|exact Fa].
  assert (X : exact_obj r (atom_doc r a m) (of_atom a)) by (apply atom_exact; auto; lra).
  split; cbn [np_map np_value np_kind np_dual np_primal]; fold r.
  - exact LM.
  - apply atom_exact; auto; [rewrite Ek; auto|lra].
  - intros y Ly. rewrite <- De by auto. apply Fd; auto.
  - intros x v chk Lx E. unfold aa_objective. cbn [aa_atom aa_map]. apply (eo_value _ _ _ X); auto. destruct LM as ((A1 & _) & En & _). apply A1. congruence.
  - exact Kd.
  - intros _. rewrite Ee. eexists. split; [reflexivity|]. apply (exact_obj_ext r (atom_doc r e m)); auto. apply atom_exact; auto; [rewrite Ke; auto|lra].
Qed.
Theorem atom_part_exact : forall n a m, (1 <= n)%nat -> atom_wf n a -> mode_ok m -> atom_mode a m -> coef (a_quadratic a) = 0 -> value_ok (klass a) m -> value_ok (pair_class (klass a)) (dual_mode m) ->
  exists p d, atom_part a = Ok p /\ np_kind p = TIdentity /\ get_conjugate a = Ok d /\ exact_part n (atom_doc n d (dual_mode m)) (atom_doc n a m) p /\
    (forall x, length x = n -> t_lin (np_map p) x = x) /\ forall u, length u = n -> is_fenchel n (atom_doc n a m) u (atom_doc n d (dual_mode m) u).
Proof.
  intros n a m Hn W Hm Em Hc V Vd. assert (Sh : shape a = n) by apply W.
  destruct (affine_part_exact n (mk_affine_atom a (identity n)) TIdentity m) as (p & d & Ep & Mp & Kp & Ed & X & F); [apply identity_linear; auto|exact W|exact Hm|exact Em|exact Hc|exact V|exact Vd|split; auto|]. cbn [aa_map aa_atom t_out identity] in *.
  exists p, d. split; [|split; [exact Kp|split; [exact Ed|split; [exact X|split; [rewrite Mp; auto|exact F]]]]].
  rewrite <- Ep. unfold atom_part, affine_part, aa_dual. cbn [aa_atom aa_map]. rewrite (copy_correct n a m W Hm Em). cbn [rbind identity t_out]. replace (mk_atom (klass a) n (a_lagrange a) (a_bound a) (a_offset a) (a_quadratic a)) with a by (rewrite <- Sh; destruct a; reflexivity).
  rewrite Ed. cbn [rbind rmap fst snd]. rewrite Sh. reflexivity.
Qed.
Theorem cone_part_exact : forall n c, (1 <= n)%nat -> cone_dim (c_class c) n -> c_class c <> KL2 -> c_class c <> KL2Polar -> base_wf n (c_base c) -> coef (b_quadratic (c_base c)) = 0 ->
  exists p d, cone_part c = Ok p /\ np_kind p = TIdentity /\ cone_conjugate c = Some d /\ exact_part n (base_doc n (cone_fun (c_class d)) (c_base d)) (base_doc n (cone_fun (c_class c)) (c_base c)) p /\
    (forall x, length x = n -> t_lin (np_map p) x = x) /\ forall u, length u = n -> is_fenchel n (base_doc n (cone_fun (c_class c)) (c_base c)) u (base_doc n (cone_fun (c_class d)) (c_base d) u).
Proof.
  intros n [k b] Hn Hd N1 N2 W Hc. cbn [c_class c_base] in *. destruct (cone_conjugate_correct k n b Hd W Hc) as (d & Ed & Wd & Fd & e & Ee & We & De).
  assert (Sh : b_shape b = n) by apply W. assert (Hc' : coef (b_quadratic d) = 0). { unfold cone_conjugate in Ed. cbn [c_base c_class] in Ed. unfold conjugate_base in Ed. destruct (Req_EM_T _ 0); [|discriminate]. unfold work_out_conjugate in Ed. cbn [option_map] in Ed. injection Ed as Ed. rewrite <- Ed. reflexivity. }
  assert (Hce : coef (b_quadratic e) = 0). { unfold cone_conjugate in Ee. cbn [c_base c_class] in Ee. unfold conjugate_base in Ee. destruct (Req_EM_T _ 0); [|discriminate]. unfold work_out_conjugate in Ee. cbn [option_map] in Ee. injection Ee as _ Ee. rewrite <- Ee. reflexivity. }
  assert (Hd' : cone_dim (polar_class k) n) by (destruct k; cbn in *; auto). assert (M1 : polar_class k <> KL2) by (destruct k; cbn; congruence). assert (M2 : polar_class k <> KL2Polar) by (destruct k; cbn; congruence).
  destruct (cone_conjugate_correct (polar_class k) n d Hd' Wd Hc') as (e' & Ee' & _ & Fe & _). assert (PP : polar_class (polar_class k) = k) by (destruct k; reflexivity). rewrite PP in *. rewrite Ee in Ee'. injection Ee' as <-.
  exists (mk_npart (cone_objective (mk_cone k b)) (identity n) TIdentity (of_cone (mk_cone (polar_class k) d)) (Ok (of_cone (mk_cone k e)))), (mk_cone (polar_class k) d).
  split; [unfold cone_part; rewrite Ed, Ee; cbn [c_base]; rewrite Sh; reflexivity|]. split; [reflexivity|]. split; [exact Ed|]. cbn [c_class c_base]. split; [|split; [reflexivity|exact Fd]].
  split; cbn [np_map np_value np_kind np_dual np_primal identity t_out t_lin].
  - apply identity_linear; auto.
  - apply (cone_exact n (mk_cone (polar_class k) d)); auto. cbn. lra.
  - intros y Ly. rewrite <- De by auto. apply Fe; auto.
  - intros x v chk Lx E. apply (eo_value _ _ _ (cone_exact n (mk_cone k b) Hd N1 N2 W ltac:(cbn; lra))); auto.
  - split; auto.
  - intros _. eexists. split; [reflexivity|]. apply (exact_obj_ext n (base_doc n (cone_fun k) e)); auto. apply (cone_exact n (mk_cone k e)); auto. cbn. lra.
Qed.

(** ** The exact branches of proximal *)
Theorem exact_branches : forall P Ld n smooths Gs Hs parts q0 K q, sound_parts n smooths Gs Hs parts q0 -> container_of n smooths parts q0 K -> sound_quad n q -> has_vec q -> 0 < total_coef smooths q0 q -> st_kind (ct_stack K) <> TGeneral ->
  exists v, ct_proximal P Ld K q = Ok v /\ is_argmin n (fun x => ext_add (parts_fun Hs parts x) (total_fun n smooths q0 q x)) v.
Proof.
  intros P Ld n smooths Gs Hs parts q0 K q SP CO Sq V HL NG. destruct (container_form n smooths Gs Hs parts q0 SP) as (S & sq & G & H & EK & Ssq & Ksq & Dsq & LM & XG & FH & EH & EG & KD & PR & _). apply EK in CO. subst K. destruct SP as (Hn & _ & _ & _ & _ & Sq0). cbn [ct_stack] in NG.
  destruct (total_q_ok n (mk_container smooths parts S q0 sq (zeros (t_in (st_map S)))) q smooths) as (t & Et & St & Kt & Vt & Ct & Dt); auto. cbn [ct_quadratic] in *. specialize (Vt V). destruct St as [St Ot].
  destruct (PR NG) as (A & EA & XA). unfold ct_proximal. cbn [ct_stack]. assert (HLt : 0 < coef t) by (rewrite Kt; auto).
  destruct (st_kind S) as [|idx|]; [| |congruence]; rewrite Et; cbn [rbind]; rewrite EA; cbn [rbind].
  - destruct KD as [Eo Id]. rewrite Eo in XA. destruct (eo_prox _ _ _ XA t St HLt Vt) as (v & Ev & Mv). exists v. split; auto.
    destruct Mv as (Lv & (r & Er) & M). assert (EE : forall x, length x = n -> plus_quad n H t x = ext_add (parts_fun Hs parts x) (total_fun n smooths q0 q x)). { intros x Lx. unfold plus_quad. rewrite Dt, <- EH, Id by auto. reflexivity. }
    split; auto. split; [rewrite <- EE by auto; eauto|]. intros x Lx. rewrite <- !EE by auto. auto.
  - destruct KD as (Eo & LG & Id). rewrite Eo in XA. unfold has_vec in Vt. rewrite Ct in *. destruct (linear_term t) as [|?|l] eqn:El; try tauto. assert (Ll : length l = n) by (destruct St as [_ K2]; rewrite El in K2; exact K2).
    cbn [fscale fop]. assert (Ez : map (fun y : R => 0 - y) (map (fun y : R => / coef t * y) l) = map (fun t0 => - t0 / coef t) l) by (rewrite map_map; apply map_ext; intros y; field; lra).
    assert (KQ : forall y, length y = n -> q_denot n t y = coef t / 2 * sqn y + dot l y + constant_term t). { intros y Ly. unfold q_denot. rewrite Ct, El. cbn [fbcast]. rewrite const_vec_0. unfold quad_fun. rewrite vsub_zeros_r by auto. reflexivity. }
    set (z := map (fun t0 => - t0 / coef t) l) in *. assert (Mz : is_argmin n (fun x => Fin (q_denot n t x)) z). { destruct (square_min n (coef t) l (constant_term t) HLt Ll) as (L1 & _ & M). split; auto. split; [eauto|]. intros y Ly. rewrite !KQ by auto. apply (M y Ly). }
    assert (Vt' : has_vec t) by (unfold has_vec; rewrite Ct, El; exact I). assert (F2 : parts_exact [(A, idx)] [H]) by (constructor; [exact XA|constructor]).
    destruct (sep_assign_argmin n t [(A, idx)] [H] z St HLt Vt' F2 LG Mz) as (v & Ev & Mv). cbn [sep_assign map snd] in *.
    change (map (Rminus 0) (vscal (/ coef t) l)) with (map (fun y : R => 0 - y) (map (fun y : R => / coef t * y) l)). rewrite Ez.
    destruct (q_getitem t idx) as [ti|]; [|discriminate]. cbn [rbind] in *. destruct (o_prox A ti) as [w|]; [|discriminate]. cbn [rbind rmap] in *. exists v. split; auto.
    destruct Mv as (Lv & (r & Er) & M). assert (EE : forall x, length x = n -> plus_quad n (separable_fun [H] [idx]) t x = ext_add (parts_fun Hs parts x) (total_fun n smooths q0 q x)). { intros x Lx. unfold plus_quad. rewrite Dt, <- EH, Id by auto. cbn [separable_fun]. rewrite ext_add_0. reflexivity. }
    split; auto. split; [rewrite <- EE by auto; eauto|]. intros x Lx. rewrite <- !EE by auto. auto.
Qed.

(** ** The objective *)
Lemma parts_value_spec : forall n Gs Hs parts x chk, exact_parts n Gs Hs parts -> length x = n -> forall acc r, parts_fun Hs parts x = Fin r -> parts_value (Fin acc) parts x chk = Ok (Fin (acc + r)).
Proof.
  intros n Gs Hs parts x chk X Lx. induction X as [|G H p Gs Hs ps E X IH]; intros acc r Er; cbn [parts_fun parts_value] in *.
  - assert (r = 0) by congruence. subst. do 2 f_equal. lra.
  - apply ext_add_fin in Er. destruct Er as (a & b & Ea & Eb & ->). rewrite (xp_value _ _ _ _ E x a chk Lx Ea). cbn [rbind ext_add]. rewrite (IH (acc + a) b Eb). do 2 f_equal. lra.
Qed.
Lemma quads_fold : forall n l x acc, Forall (fun a => sound_quad n (s_quadratic a)) l -> length x = n -> fold_left (fun e a => ext_add e (Fin (q_func (s_quadratic a) x))) l (Fin acc) = Fin (acc + quads_sum n l x).
Proof.
  intros n. induction l as [|a l IH]; intros x acc F Lx; cbn [fold_left]; [unfold quads_sum; cbn; f_equal; lra|]. cbn [ext_add]. rewrite IH by (auto; apply (Forall_inv_tail F)). rewrite (q_func_eq n) by (auto; apply (Forall_inv F)). unfold quads_sum. cbn [fold_right]. f_equal. lra.
Qed.
Lemma func_fold : forall l x acc, fold_left (fun v a => v + s_func a x) l acc = acc + smooth_sum l x.
Proof. induction l as [|a l IH]; intros x acc; cbn [fold_left]; [unfold smooth_sum; cbn; lra|]. rewrite IH. unfold smooth_sum. cbn [fold_right]. lra. Qed.
Theorem container_value : forall n smooths Gs Hs parts q0 K x chk, sound_parts n smooths Gs Hs parts q0 -> container_of n smooths parts q0 K -> length x = n -> (exists r, parts_fun Hs parts x = Fin r) ->
  ct_nonsmooth K x chk = Ok (container_fun n smooths Hs parts q0 x) /\ ct_func K x = smooth_sum smooths x /\ ct_value K x chk = objective (smooth_sum smooths) (container_fun n smooths Hs parts q0) x.
Proof.
  intros n smooths Gs Hs parts q0 K x chk SP CO Lx (r & Er). destruct (container_form n smooths Gs Hs parts q0 SP) as (S & sq & G & H & EK & _). apply EK in CO. subst K. destruct SP as (_ & _ & _ & X & Fq & Sq0).
  assert (E1 : ct_nonsmooth (mk_container smooths parts S q0 sq (zeros (t_in (st_map S)))) x chk = Ok (container_fun n smooths Hs parts q0 x)).
  { unfold ct_nonsmooth. cbn [ct_parts ct_smooth ct_quadratic]. rewrite (parts_value_spec n Gs Hs parts x chk X Lx 0 r Er). cbn [rmap rbind]. f_equal. rewrite quads_fold with (n := n) by auto. unfold container_fun. rewrite Er. cbn [ext_add]. rewrite (q_func_eq n) by (auto; apply Sq0). f_equal. lra. }
  assert (E2 : ct_func (mk_container smooths parts S q0 sq (zeros (t_in (st_map S)))) x = smooth_sum smooths x) by (unfold ct_func; cbn [ct_smooth]; rewrite func_fold; lra).
  split; auto. split; auto. unfold ct_value. rewrite E1, E2. reflexivity.
Qed.
Lemma smooth_sum_good : forall n l, Forall (good_smooth n) l -> convex_on n (smooth_sum l) /\ forall x acc, length x = n -> length acc = n ->
  length (fold_left (fun g a => vadd g (s_grad a x)) l acc) = n /\ forall d, length d = n -> derivable_pt_lim (fun t => smooth_sum l (vadd x (vscal t d))) 0 (dot (fold_left (fun g a => vadd g (s_grad a x)) l acc) d - dot acc d).
Proof.
  intros n l F. induction F as [|a l Ga F [IH1 IH2]].
  - split; [intros x y t _ _ _; unfold smooth_sum; cbn; lra|]. intros x acc Lx La. cbn [fold_left]. split; auto. intros d Ld. replace (dot acc d - dot acc d) with 0 by lra. apply (derive_ext (fun _ => 0)); [reflexivity|]. apply derivable_pt_lim_const.
  - assert (X := smooth_exact n a 0 Ga). split.
    + intros x y t Lx Ly Ht. unfold smooth_sum. cbn [fold_right]. assert (A1 := ex_convex _ _ _ _ X x y t Lx Ly Ht). assert (A2 := IH1 x y t Lx Ly Ht). unfold smooth_sum in A2. lra.
    + intros x acc Lx La. destruct (ex_gradient _ _ _ _ X x Lx) as [Lg Dg]. cbn [smooth_composite c_grad] in *. cbn [fold_left]. destruct (IH2 x (vadd acc (s_grad a x)) Lx ltac:(vlen)) as [L2 D2]. split; auto. intros d Ld. specialize (D2 d Ld). specialize (Dg d Ld). rewrite dot_add_l in D2 by vlen.
      apply (derive_ext (fun t => s_func a (vadd x (vscal t d)) + smooth_sum l (vadd x (vscal t d)))); [reflexivity|]. replace (dot (fold_left (fun g a0 => vadd g (s_grad a0 x)) l (vadd acc (s_grad a x))) d - dot acc d) with (dot (s_grad a x) d + (dot (fold_left (fun g a0 => vadd g (s_grad a0 x)) l (vadd acc (s_grad a x))) d - (dot acc d + dot (s_grad a x) d))) by lra.
      apply derivable_pt_lim_plus; auto.
Qed.
Lemma parts_convex : forall n Gs Hs parts, exact_parts n Gs Hs parts -> convex_ext n (parts_fun Hs parts).
Proof.
  intros n Gs Hs parts X. induction X as [|G H p Gs Hs ps E X IH]; intros x y t a b Lx Ly Ht Ea Eb; cbn [parts_fun] in *.
  - assert (a = 0) by congruence. assert (b = 0) by congruence. subst a b. cbn. lra.
  - apply ext_add_fin in Ea. apply ext_add_fin in Eb. destruct Ea as (a1 & a2 & Ea1 & Ea2 & ->). destruct Eb as (b1 & b2 & Eb1 & Eb2 & ->). assert (K := IH x y t a2 b2 Lx Ly Ht Ea2 Eb2).
    destruct (xp_map _ _ _ _ E) as (TA & En & _). assert (CH : convex_ext (t_out (np_map p)) H) by (apply (fenchel_convex _ G); apply (xp_conj _ _ _ _ E)).
    assert (EB : t_lin (np_map p) (between x y t) = between (t_lin (np_map p) x) (t_lin (np_map p) y) t). { destruct (adjoint_linear _ TA) as [B1 B2]. assert (Lx' : length x = t_in (np_map p)) by congruence. assert (Ly' : length y = t_in (np_map p)) by congruence. unfold between. rewrite B1, B2, lin_sub by vlen. reflexivity. }
    rewrite EB. destruct TA as (A1 & _). assert (K2 := CH _ _ t a1 b1 (A1 x ltac:(congruence)) (A1 y ltac:(congruence)) Ht Ea1 Eb1). destruct (H (between _ _ t)) as [h|]; [|destruct K2]. destruct (parts_fun Hs ps (between x y t)) as [s|]; [|destruct K]. cbn in *. lra.
Qed.
Lemma quads_nonneg : forall n l, Forall (good_smooth n) l -> 0 <= fold_right (fun a v => coef (s_quadratic a) + v) 0 l.
Proof. intros n l F. induction F as [|a l G F IH]; cbn [fold_right]; [lra|]. destruct G as (_ & _ & (_ & _ & G) & _). lra. Qed.
(** Penalties on x or on a selection of it: the solver works on the sum of all parts. *)
Theorem container_exact : forall P Ld n smooths Gs Hs parts q0 K, sound_parts n smooths Gs Hs parts q0 -> Forall (good_smooth n) smooths -> 0 <= coef q0 -> container_of n smooths parts q0 K -> st_kind (ct_stack K) <> TGeneral ->
  exact_problem n (smooth_sum smooths) (container_fun n smooths Hs parts q0) (ct_composite P Ld K).
Proof.
  intros P Ld n smooths Gs Hs parts q0 K SP GS Hc CO NG. assert (SP' := SP). destruct SP' as (Hn & _ & _ & X & Fq & Sq0). destruct (smooth_sum_good n smooths GS) as [C1 C2]. assert (QN := quads_nonneg n smooths GS).
  destruct (container_form n smooths Gs Hs parts q0 SP) as (S & sq & G & H & EK & Ssq & Ksq & Dsq & _). assert (EKK := proj1 (EK K) CO).
  assert (CF : forall x, length x = n -> plus_quad n (plus_quad n (parts_fun Hs parts) sq) q0 x = container_fun n smooths Hs parts q0 x). { intros x Lx. unfold plus_quad, container_fun. rewrite Dsq by auto. destruct (parts_fun Hs parts x); cbn; auto. f_equal. lra. }
  split; cbn [ct_composite c_smooth c_grad c_nonsmooth c_prox].
  - exact C1.
  - intros x Lx. unfold ct_grad. rewrite EKK. cbn [ct_smooth]. destruct (C2 x (zeros (length x)) Lx ltac:(rewrite zeros_length; auto)) as [L2 D2]. split; auto. intros d Ld'. specialize (D2 d Ld'). rewrite dot_zeros_l in D2. rewrite Rminus_0_r in D2. exact D2.
  - apply (convex_ext_ext n _ _ CF). apply plus_quad_convex; try apply Sq0; auto. apply plus_quad_convex; try apply Ssq; [apply (parts_convex n Gs Hs parts X)|lra].
  - intros x Lx. f_equal. unfold ct_func. rewrite EKK. cbn [ct_smooth]. rewrite func_fold. lra.
  - intros x r chk Lx Er. assert (F : exists p, parts_fun Hs parts x = Fin p) by (unfold container_fun in Er; destruct (parts_fun Hs parts x); [eauto|discriminate]). destruct (container_value n smooths Gs Hs parts q0 K x chk SP CO Lx F) as (E1 & _). rewrite E1. exact Er.
  - intros L w g HL Lw Lg. set (q := mk_iq L (FVec w) (FVec g) 0). assert (Sq : sound_quad n q) by (split; [split; auto|exact I]). destruct (exact_branches P Ld n smooths Gs Hs parts q0 K q SP CO Sq) as (v & Ev & Lv & (r & Er) & M); auto; [exact I|unfold total_coef; cbn [coef q]; lra|].
    rewrite Ev. cbn [or_nil]. assert (EE : forall x, length x = n -> ext_add (parts_fun Hs parts x) (total_fun n smooths q0 q x) = ext_add (container_fun n smooths Hs parts q0 x) (Fin (L / 2 * sqn (vsub x w) + dot g x))).
    { intros x Lx. unfold container_fun, total_fun. change (q_denot n q x) with (L / 2 * sqn (vsub x w) + dot g x + 0). destruct (parts_fun Hs parts x); cbn; auto. f_equal. lra. }
    split; auto. split; [rewrite <- EE by auto; eauto|]. intros x Lx. rewrite <- !EE by auto. auto.
Qed.

(** ** solve *)
(** The argument quadratic plays no role. *)
Theorem solve_ignores : forall loops fuel prm P Ld K q, ct_solve loops fuel prm P Ld K (Some q) = ct_solve loops fuel prm P Ld K None \/ (exists e, snd (ct_solve loops fuel prm P Ld K (Some q)) = Err e).
Proof. intros. unfold ct_solve. destruct (q_add (ct_quadratic K) (AQuad q)) as [t|e]; [left; reflexivity|right; exists e; reflexivity]. Qed.

(** slope.linear and slope_conjugate.linear in every form; == of slopes, group lassos and their cones. *)
From Coq Require Import Reals List Lra Lia Permutation ZArith Bool.
From Verif Require Import M_affine SpecAffine Vec Spec M_quad P_quad M_prox M_semi SpecAtom P_semi P_conj M_shift SpecBase SpecMode M_mode SpecModed M_mixed SpecWeighted M_weighted SpecWatom P_weighted
  M_group SpecGatom M_mixed_atom M_simplex M_linear SpecLinear M_slope SpecSlope SpecSlopeAtom P_slope M_sgl SpecSglObj P_gauge P_block3 SpecCone M_cones P_cones M_equal P_equal P_equal2 P_equal3 M_afatom M_compose P_feas P_compose SpecCompose.
Import ListNotations.
Local Open Scope R_scope.

Lemma cumsum_top : forall l s w, 0 < w -> l <> [] -> 0 <= s -> Forall (fun a => 0 <= a) l -> let z := vabs (vzip Rdiv (cumsum_from s l) (repeat w (length l))) in
  In ((s + vsum l) / w) z /\ Forall (fun r => r <= (s + vsum l) / w) z.
Proof.
  induction l as [|a l IH]; intros s w Hw Ne Hs F; [congruence|]. apply Forall_inv in F as Ha. apply Forall_inv_tail in F. cbv zeta. cbn [length repeat cumsum_from vzip vabs map vsum fold_right]. change (fold_right Rplus 0 l) with (vsum l).
  assert (Hi : 0 < / w) by (apply Rinv_0_lt_compat; auto). assert (A0 : Rabs ((s + a) / w) = (s + a) / w) by (apply Rabs_right, Rle_ge, Rmult_le_pos; lra). rewrite A0.
  assert (N : 0 <= vsum l). { clear - F. induction F; [cbn; lra|]. change (0 <= x + vsum l). lra. }
  destruct l as [|b l]; [unfold vsum; cbn; split; [left; f_equal; ring|constructor; [right; f_equal; ring|constructor]]|].
  destruct (IH (s + a) w Hw ltac:(discriminate) ltac:(lra) F) as (I1 & I2). replace (s + (a + vsum (b :: l))) with (s + a + vsum (b :: l)) by ring. split; [right; exact I1|]. constructor; [|exact I2].
  unfold Rdiv. apply Rmult_le_compat_r; lra.
Qed.
Lemma sort_sum : forall y, vsum (vabs (rev (np_sort (vabs y)))) = ell1 y /\ vsum (rev (np_sort (vabs y))) = ell1 y /\ Forall (fun a => 0 <= a) (rev (np_sort (vabs y))) /\ length (rev (np_sort (vabs y))) = length y.
Proof.
  intros y. assert (Pm : Permutation (vabs y) (rev (np_sort (vabs y)))) by (apply (Permutation_trans (np_sort_perm _)); apply Permutation_rev).
  split; [|split; [|split]].
  - unfold ell1. rewrite (vsum_perm (vabs (rev (np_sort (vabs y)))) (vabs (vabs y))); [unfold vabs; rewrite map_map; apply f_equal; apply map_ext; intros a; apply Rabs_Rabsolu|]. unfold vabs at 1 3. apply Permutation_map. apply Permutation_sym. exact Pm.
  - unfold ell1. symmetry. apply vsum_perm. exact Pm.
  - apply (Permutation_Forall Pm). unfold vabs. rewrite Forall_map, Forall_forall. intros a _. apply Rabs_pos.
  - rewrite rev_length, np_sort_length. unfold vabs. apply map_length.
Qed.
Lemma one_weight_spec : forall c w y lam, 0 < w -> y <> [] -> one_weight_value c w y lam = Ok (lam * one_weight_norm c w y).
Proof.
  intros c w y lam Hw Ne. destruct (sort_sum y) as (S1 & S2 & S3 & S4). unfold one_weight_value, one_weight_norm. destruct c.
  - f_equal. rewrite <- S4, vsum_const, S1 by lra. reflexivity.
  - assert (Nr : rev (np_sort (vabs y)) <> []) by (intros E; rewrite E in S4; destruct y; [congruence|discriminate]). destruct (cumsum_top _ 0 w Hw Nr ltac:(lra) S3) as (I1 & I2). rewrite S2, S4, Rplus_0_l in I1, I2.
    destruct (np_max_spec (vabs (vzip Rdiv (cumsum (rev (np_sort (vabs y)))) (repeat w (length y))))) as (m & E & Hm & HI). { intros E. unfold cumsum in E. rewrite E in I1. contradiction. }
    rewrite E. unfold rmap. cbn [rbind]. do 2 f_equal. apply Rle_antisym; [apply Hm; exact I2|]. specialize (Hm m). destruct Hm as (Hm & _). specialize (Hm (Rle_refl m)). rewrite Forall_forall in Hm. apply Hm. exact I1.
Qed.
Theorem slope_linear_any : forall c D m, mode_ok m -> (1 <= length D)%nat -> exists A, slope_linear c D (lag_of m) (bnd_of m) None None = Ok A /\ forall x, let v := one_weight_norm c (INR (length D)) (mat_vec D x) in
  match m with
  | Lagrange lam => forall chk, asl_objective A x chk = Ok (Fin (lam * v))
  | Bound b => asl_objective A x false = Ok (Fin 0) /\ asl_objective A x true = Ok (if Rle_dec v (b * (1 + tol)) then Fin 0 else PInf)
  end.
Proof.
  intros c D m Hm HD. unfold slope_linear. assert (P : 0 < INR (length D)) by (apply lt_0_INR; lia).
  assert (W : slope_weights 1 [INR (length D)]). { split; auto. split; [repeat constructor; auto|]. cbn. repeat constructor. }
  pose proof (new_slope_ok c 1 _ m None None W Hm) as E0. cbn [option_map]. rewrite E0. eexists. split; [reflexivity|]. intros x. set (v := one_weight_norm c (INR (length D)) (mat_vec D x)).
  assert (Ny : mat_vec D x <> []). { intros E. apply (f_equal (@length R)) in E. unfold mat_vec in E. rewrite map_length in E. cbn in E. lia. }
  assert (Z : forall y : vec, vsum (map (fun t : R => 0 * t) y) = 0) by (clear; induction y as [|a l IH]; [reflexivity|change (0 * a + vsum (map (fun t : R => 0 * t) l) = 0); rewrite IH; ring]).
  unfold asl_objective. cbn [asl_atom asl_rows M_slope.s_weights M_slope.s_moded s_class]. destruct m as [lam|b]; [intros chk|split].
  - unfold moded_objective, shifted_objective, base_apply_offset. cbn. rewrite one_weight_spec by auto. unfold q_func. cbn. rewrite Z. do 2 f_equal. unfold v. field.
  - unfold moded_objective, shifted_objective, base_apply_offset. cbn. unfold q_func. cbn. rewrite Z. do 2 f_equal. field.
  - unfold moded_objective, shifted_objective, base_apply_offset. cbn. rewrite one_weight_spec by auto. rewrite Rmult_1_l. fold v. unfold rmap. cbn [rbind]. destruct (Rle_dec v (b * (1 + tol))); cbn; unfold q_func; cbn; rewrite ?Z; do 2 f_equal; try field.
Qed.
(** ** the offset of the transform has the sign of a center, whatever the offset of the cone *)
Theorem affine_cone_centers : forall k D n (p : option vec) (o : vec) q x, let d := length D in let c := match p with Some a => vadd a o | None => o end in cone_dim k d -> length o = d -> c <> zeros d -> match p with Some a => length a = d /\ a <> zeros d | None => True end ->
  q_shape d q -> length x = n -> t_aff (matrix D n (Some o)) x = vadd o (mat_vec D x) /\
  exists A, new_affine_cone (new_cone k d p (Some q)) (matrix D n (Some o)) true = Ok A /\ ac_objective A x false = Ok (Fin (q_denot d q (mat_vec D x))) /\
    (in_cone k (vsub (mat_vec D x) c) -> ac_objective A x true = Ok (Fin (q_denot d q (mat_vec D x)))) /\ (~ relax k (vsub (mat_vec D x) c) -> ac_objective A x true = Ok PInf).
Proof.
  intros k D n p o q x d c Hd Lo Nc Hp Hq Lx. split; [reflexivity|]. assert (W : base_wf d (new_base d p (Some q))). { destruct p as [a|]; [apply new_base_wf; tauto|]. split; auto. split; auto. cbn. discriminate. }
  unfold new_affine_cone, new_cone. rewrite (cone_copied d) by (exact W). cbn [matrix t_off c_base c_class t_lin t_adj t_in t_out].
  assert (Eo : match b_offset (new_base d p (Some q)) with Some p0 => Some (vadd p0 o) | None => fresh_offset (Some o) end = Some c).
  { destruct p as [a|]; cbn [new_base b_offset].
    - destruct Hp as (La & Na). unfold fresh_offset. destruct (all_zero a) eqn:E; [|reflexivity]. exfalso. apply Na. rewrite <- La. apply P_quad.all_zero_spec. auto.
    - cbn. destruct (all_zero o) eqn:E; [|reflexivity]. exfalso. apply Nc. unfold c. rewrite <- Lo. apply P_quad.all_zero_spec. auto. }
  rewrite Eo. eexists. split; [reflexivity|]. set (g := mk_base _ _ _).
  assert (Lc : length c = d). { unfold c. destruct p as [a|]; auto. unfold vadd. rewrite vzip_length; [tauto|]. destruct Hp. congruence. }
  assert (Wg : base_wf d g). { destruct W as (W1 & _ & W3). split; [exact W1|]. split; [|exact W3]. intros o' E. injection E as <-. auto. }
  assert (Lv : length (mat_vec D x) = d) by apply map_length. destruct (cone_objective_correct k d g (mat_vec D x) Hd Wg Lv) as (H1 & H2 & H3).
  assert (Og : base_off d g = c) by reflexivity. rewrite Og in H2, H3. unfold ac_objective. cbn [ac_cone ac_map t_lin]. split; [rewrite H1; unfold base_doc; cbn; rewrite Rplus_0_l; reflexivity|]. split; [|exact H3].
  intros I. rewrite H2 by auto. unfold base_doc. rewrite Og. unfold cone_fun. destruct (in_cone_dec k _); [|contradiction]. cbn. rewrite Rplus_0_l. reflexivity.
Qed.
(** ** == *)
Theorem slope_equality : forall n n' a b m m', slope_wf n a m -> slope_wf n' b m' -> (slope_eq a b = true <-> s_class a = s_class b /\ m = m').
Proof.
  intros n n' a b m m' (_ & _ & A1 & A2 & _) (_ & _ & B1 & B2 & _). unfold slope_eq. rewrite andb_true_iff, (mode_eqb_spec _ _ m m') by auto. destruct (s_class a), (s_class b); cbn; intuition congruence.
Qed.
Theorem sgl_equality : forall a b, sgl_eq a b = true <-> s_dual a = s_dual b /\ s_groups a = s_groups b /\ (forall g, In g (s_groups a) -> M_sgl.s_weights a g = M_sgl.s_weights b g) /\ m_lagrange (M_sgl.s_moded a) = m_lagrange (M_sgl.s_moded b).
Proof.
  intros a b. unfold sgl_eq, gatom_eq. cbn [g_dual g_groups g_weights g_moded]. rewrite !andb_true_iff, zlist_eqb_spec, Bool.eqb_true_iff, forallb_forall, opt_eqb_spec. split.
  - intros (((H1 & H2) & H3) & H4). repeat split; auto. intros g Hg. apply opt_eqb_spec. apply H3. apply in_or_app. auto.
  - intros (H1 & H2 & H3 & H4). repeat split; auto. intros g Hg. apply opt_eqb_spec. apply H3. apply in_app_or in Hg. rewrite <- H2 in Hg. tauto.
Qed.
Theorem gcone_equality : forall a b, gcone_eq a b = true <-> gc_class a = gc_class b /\ b_shape (gc_base a) = b_shape (gc_base b).
Proof. intros a b. unfold gcone_eq. rewrite andb_true_iff, Nat.eqb_eq. destruct (gc_class a), (gc_class b); cbn; intuition congruence. Qed.

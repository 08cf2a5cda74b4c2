(** Runs of the path of mixed lasso problems that go wrong. *)
From Coq Require Import Reals List Lra Lia Psatz Bool Permutation ZArith.
From Verif Require Import M_loss Vec Spec SpecConvex SpecFista M_quad M_prox M_semi SpecAtom M_shift SpecBase SpecMode M_mode SpecModed SpecWeighted SpecPart SpecGroup M_slope M_mixed M_group M_mixed_atom SpecGatom M_mkkt SpecMkkt M_path M_mpath SpecMpath
  P_quad P_pl P_prox P_feas P_semi P_conj P_shift P_gauge P_part P_mixed P_kinds P_group P_group2 P_calc P_problem P_fista P_sep P_path2 P_mkkt P_mkkt2 P_mpath P_mpath2.
Import ListNotations.
Local Open Scope R_scope.

Lemma poly_lim : forall F a b c, (forall t, F t = a + b * t + c * (t * t)) -> derivable_pt_lim F 0 b.
Proof.
  intros F a b c H. apply (derivable_pt_lim_ext_eq (fun t => a + b * t + c * (t * t))); [intros; symmetry; apply H|].
  assert (D : derivable_pt_lim (fun t => a + b * t + c * (t * t)) 0 (0 + b * 1 + c * (1 * 0 + 0 * 1))).
  { apply (derivable_pt_lim_plus (fun t => a + b * t) (fun t => c * (t * t))).
    - apply (derivable_pt_lim_plus (fun _ => a) (fun t => b * t)); [apply derivable_pt_lim_const|apply (derivable_pt_lim_scal id b 0 1), derivable_pt_lim_id].
    - apply (derivable_pt_lim_scal (fun t => t * t) c 0). apply (derivable_pt_lim_mult id id 0 1 1); apply derivable_pt_lim_id. }
  replace (0 + b * 1 + c * (1 * 0 + 0 * 1)) with b in D by ring. exact D.
Qed.
(** quadratics in one and two variables *)
Definition quad1 (y : R) (v : vec) : R := (nth 0 v 0 - y) * (nth 0 v 0 - y) / 2.
Definition grad1 (y : R) (v : vec) : vec := [nth 0 v 0 - y].
Definition quad2 (a b c d e : R) (v : vec) : R := (a * (nth 0 v 0 * nth 0 v 0) + 2 * b * (nth 0 v 0 * nth 1 v 0) + c * (nth 1 v 0 * nth 1 v 0)) / 2 + d * nth 0 v 0 + e * nth 1 v 0.
Definition grad2 (a b c d e : R) (v : vec) : vec := [a * nth 0 v 0 + b * nth 1 v 0 + d; b * nth 0 v 0 + c * nth 1 v 0 + e].
Lemma quad1_gradient : forall y x, length x = 1%nat -> is_gradient 1 (quad1 y) x (grad1 y x).
Proof.
  intros y [|x [|]] L; try discriminate. split; auto. intros [|d [|]] Ld; try discriminate. unfold quad1, grad1, dot, vsum. cbn [nth vadd vscal vzip map vmul fold_right].
  replace ((x - y) * d + 0) with ((x - y) * d) by ring. apply (poly_lim _ ((x - y) * (x - y) / 2) _ (d * d / 2)). intros t. field.
Qed.
Lemma quad1_convex : forall y, convex_on 1 (quad1 y).
Proof.
  intros y [|a [|]] [|b [|]] t La Lb Ht; try discriminate. unfold quad1, between, vadd, vscal, vsub. cbn [nth vzip map]. assert (0 <= t * (1 - t) * ((a - b) * (a - b))) by (apply Rmult_le_pos; [apply Rmult_le_pos; lra|apply Rle_0_sqr]). lra.
Qed.
Lemma quad2_gradient : forall a b c d e x, length x = 2%nat -> is_gradient 2 (quad2 a b c d e) x (grad2 a b c d e x).
Proof.
  intros a b c d e [|x [|y [|]]] L; try discriminate. split; auto. intros [|u [|v [|]]] Ld; try discriminate. unfold quad2, grad2, dot, vsum. cbn [nth vadd vscal vzip map vmul fold_right].
  replace ((a * x + b * y + d) * u + ((b * x + c * y + e) * v + 0)) with ((a * x + b * y + d) * u + (b * x + c * y + e) * v) by ring.
  apply (poly_lim _ ((a * (x * x) + 2 * b * (x * y) + c * (y * y)) / 2 + d * x + e * y) _ ((a * (u * u) + 2 * b * (u * v) + c * (v * v)) / 2)). intros t. field.
Qed.
Lemma quad2_convex : forall a b c d e, (forall u v, 0 <= a * (u * u) + 2 * b * (u * v) + c * (v * v)) -> convex_on 2 (quad2 a b c d e).
Proof.
  intros a b c d e H [|x [|y [|]]] [|x' [|y' [|]]] t La Lb Ht; try discriminate. unfold quad2, between, vadd, vscal, vsub. cbn [nth vzip map]. specialize (H (x - x') (y - y')).
  assert (0 <= t * (1 - t) * (a * ((x - x') * (x - x')) + 2 * b * ((x - x') * (y - y')) + c * ((y - y') * (y - y')))) by (apply Rmult_le_pos; [apply Rmult_le_pos; lra|auto]). lra.
Qed.
Lemma sum1 : forall a, vsum [a] = a.
Proof. intros. unfold vsum. cbn. ring. Qed.

(** ** The positive part *)
Definition Ppos (y : R) : mpath := mk_mpath (quad1 y) (grad1 y) [(-3)%Z] (fun _ => None) [1].
Lemma pos_max : forall y, max_at (Ppos y) [0] = Some (Rmax (0 - y) 0).
Proof. intros y. rewrite max_at_norm. reflexivity. Qed.
Lemma pen3 : forall w a, mixed_pen [(-3)%Z] w [a] = if nonneg_dec [a] then Fin (Rabs a) else PInf.
Proof. intros w a. rewrite pen_formula. unfold block. cbn [pick Z.eqb Pos.eqb]. destruct (nonneg_dec [a]); auto. destruct (nonneg_dec []) as [_|N]; [|exfalso; apply N; constructor]. unfold mixed_groups, distinct. cbn. unfold ell1, vsum. cbn. f_equal. ring. Qed.
Lemma single : forall {A} (v : list A), length v = 1%nat -> exists a, v = [a].
Proof. intros A [|a [|]] H; try discriminate. eauto. Qed.
Lemma positive_part_wrong : exists P Q b, convex_on (mp_size P) (mp_func P) /\ right_gradient P /\ null_minimizer P b /\ max_at P (embed_mask (initial_active P) b) = Some 0 /\ ~ path_minimizer P 1 (embed_mask (initial_active P) b) /\
  convex_on (mp_size Q) (mp_func Q) /\ right_gradient Q /\ null_minimizer Q b /\ max_at Q (embed_mask (initial_active Q) b) = Some 3 /\ forall lam, 0 < lam -> path_minimizer Q lam (embed_mask (initial_active Q) b).
Proof.
  exists (Ppos 3), (Ppos (-3)), []. change (embed_mask (initial_active (Ppos 3)) []) with ([0] : vec). change (embed_mask (initial_active (Ppos (-3))) []) with ([0] : vec).
  assert (C : forall y, convex_on (mp_size (Ppos y)) (mp_func (Ppos y)) /\ right_gradient (Ppos y) /\ null_minimizer (Ppos y) []).
  { intros y. split; [apply quad1_convex|]. split; [intros x Lx; apply quad1_gradient; auto|]. split; auto. split; [eexists; reflexivity|]. intros v Lv. destruct v; [|discriminate]. cbn. lra. }
  destruct (C 3) as (C1 & C2 & C3). destruct (C (-3)) as (D1 & D2 & D3). repeat (split; [assumption|]). split; [rewrite pos_max; f_equal; unfold Rmax; destruct (Rle_dec _ _); lra|]. split; [|repeat (split; [assumption|]); split; [rewrite pos_max; f_equal; unfold Rmax; destruct (Rle_dec _ _); lra|]].
  - intros (_ & _ & H). specialize (H [2] eq_refl). unfold objective, mfun, gmode in H. cbn [mp_labels Ppos mp_func mp_weights] in H. rewrite !pen3 in H.
    destruct (nonneg_dec [2]) as [_|N]; [|apply N; constructor; [lra|constructor]]. destruct (nonneg_dec [0]) as [_|N]; [|apply N; constructor; [lra|constructor]]. unfold quad1 in H. cbn in H. rewrite Rabs_R0, Rabs_right in H by lra. lra.
  - intros lam Hl. split; auto. unfold objective, mfun, gmode. cbn [mp_labels Ppos mp_func mp_weights]. rewrite pen3. destruct (nonneg_dec [0]) as [_|N]; [|exfalso; apply N; constructor; [lra|constructor]]. split; [eexists; reflexivity|].
    intros v Lv. destruct (single v Lv) as (a & ->). rewrite pen3. destruct (nonneg_dec [a]) as [Na|N]; [|exact I]. inversion Na; subst. unfold quad1. cbn. rewrite Rabs_R0, Rabs_right by lra. nra.
Qed.

(** ** Nothing penalized *)
Definition Pfree (y : R) : mpath := mk_mpath (quad1 y) (grad1 y) [(-1)%Z] (fun _ => None) [2].
Lemma no_penalty_max : forall P s, Forall (fun l => l = (-1)%Z \/ l = (-4)%Z) (mp_labels P) -> grad_lengths P -> length s = mp_size P -> max_at P s = None.
Proof.
  intros P s F G L. rewrite max_at_norm. unfold mixed_dual_seminorm. rewrite Forall_forall in F.
  assert (E : mixed_groups (mp_labels P) = []). { destruct (mixed_groups (mp_labels P)) as [|g l] eqn:E; auto. exfalso. assert (I : In g (mixed_groups (mp_labels P))) by (rewrite E; left; auto). apply mixed_groups_in in I. destruct I as (I & R). destruct (F g I) as [->| ->]; discriminate. }
  rewrite (kpick_block is_l1 _ _ (-2)%Z) by (intros l' _; apply kind_tests). rewrite (kpick_block is_pos _ _ (-3)%Z) by (intros l' _; apply kind_tests). rewrite !block_absent by (intros I; destruct (F _ I); discriminate). rewrite E. reflexivity.
Qed.

(** ** The order of the reads *)
Definition Porder : mpath := mk_mpath (quad2 1 1 2 (-3) (-4)) (grad2 1 1 2 (-3) (-4)) [(-1)%Z; (-2)%Z] (fun _ => None) [1; 1].
Lemma order_matters : exists P solve0 v z1 z2, convex_on (mp_size P) (mp_func P) /\ right_gradient P /\ (forall m, null_minimizer P (solve0 m)) /\
  get_null P solve0 fresh = (v, z1) /\ get_max P solve0 z1 = (Some 4, z1) /\ get_max P solve0 fresh = (Some 1, z2).
Proof.
  exists Porder, (fun _ => [3]). eexists; eexists; eexists. split; [apply quad2_convex; intros u v; replace (1 * (u * u) + 2 * 1 * (u * v) + 2 * (v * v)) with ((u + v) * (u + v) + v * v) by ring; assert (A := Rle_0_sqr (u + v)); assert (B := Rle_0_sqr v); unfold Rsqr in *; lra|].
  split; [intros x Lx; apply quad2_gradient; auto|]. split; [|split; [reflexivity|split]].
  - intros _. split; auto. assert (E : forall a, objective (fun c => mp_func Porder (embed_mask (initial_active Porder) c)) (mfun false (keep (initial_active Porder) (mp_labels Porder)) (mp_weights Porder) 1) [a] = Fin (quad2 1 1 2 (-3) (-4) [a; 0])).
    { intros a. unfold objective, mfun, gmode. change (keep (initial_active Porder) (mp_labels Porder)) with [(-1)%Z]. rewrite pen_formula. unfold block. cbn [pick Z.eqb Pos.eqb]. destruct (nonneg_dec []) as [_|N]; [|exfalso; apply N; constructor]. unfold mixed_groups, distinct, ell1, vsum. cbn. f_equal. ring. }
    rewrite E. split; [eexists; reflexivity|]. intros v Lv. destruct (single v Lv) as (a & ->). rewrite E. unfold quad2. cbn. assert (A := Rle_0_sqr (a - 3)). unfold Rsqr in A. lra.
  - unfold get_max. cbn [lz_max]. f_equal. rewrite max_at_norm. cbn. unfold omax. f_equal. unfold Rabs. destruct (Rcase_abs _); lra.
  - unfold get_max. cbn [lz_max fresh get_null lz_null]. f_equal. rewrite max_at_norm. cbn. unfold omax. f_equal. unfold Rabs. destruct (Rcase_abs _); lra.
Qed.

(** ** Runs that never stop failing *)
Lemma mtries_step : forall fuel P S lcur lnew num st st1, mtry P S lcur lnew st = (false, st1) -> (Datatypes.S num mod 5 <> 0)%nat -> mtries (Datatypes.S fuel) P S lcur lnew num st = mtries fuel P S lcur lnew (Datatypes.S num) st1.
Proof. intros fuel P S lcur lnew num st st1 E H. cbn [mtries]. rewrite E. apply Nat.eqb_neq in H. rewrite H. auto. Qed.
Definition refreshed (P : mpath) (lnew : R) (st : mstate) : mstate :=
  let q := enet_access lnew (ms_enet st) in mk_mstate (ms_sol st) (mp_gradient P q (ms_sol st)) (ms_fail st) (ms_ever st) q (ms_calls st).
Lemma always_warned : forall P S lcur lnew (I : mstate -> Prop) x,
  (forall st, I st -> exists st1, mtry P S lcur lnew st = (false, st1) /\ I st1 /\ ms_sol st1 = x) -> (forall st, I st -> ms_sol st = x -> I (refreshed P lnew st)) ->
  forall fuel num st, (num < 10)%nat -> (10 - num <= fuel)%nat -> I st -> exists st', mtries fuel P S lcur lnew num st = Ok (mk_mpoint lnew x true 10, st').
Proof.
  intros P S lcur lnew I x Step Ref. induction fuel as [|fuel IH]; intros num st Hn Hf H; [lia|]. cbn [mtries]. destruct (Step st H) as (st1 & -> & H1 & E1).
  destruct (Nat.eqb_spec (Datatypes.S num mod 5) 0) as [Z|Z].
  - destruct (Nat.leb_spec 10 (Datatypes.S num)) as [L|L]; [|apply IH; auto; [lia|apply (Ref st1 H1 E1)]]. assert (num = 9%nat) by lia. subst num. rewrite E1. eexists; reflexivity.
  - apply IH; auto; [|lia]. destruct (Nat.eq_dec num 9) as [->|]; [exfalso; apply Z; reflexivity|lia].
Qed.
Lemma sqrt_abs : forall a, sqrt (0 + a * a) = Rabs a.
Proof. intros a. rewrite Rplus_0_l. apply sqrt_Rsqr_abs. Qed.
Lemma strong14 : forall l cur new a b, ml_strong_set (mp_atom [1%Z; (-4)%Z] (fun _ => Some 2) l) cur new [a; b] 1 =
  [negb (ltb (Rabs a) (2 * (1 + 1) * new - 1 * cur)); negb (ltb (- b) (- Rabs (new - cur) * 1))].
Proof. intros. unfold ml_strong_set, strong_mixed. cbn. unfold mixed_groups, distinct. cbn. unfold discarded. cbn. rewrite sqrt_abs. reflexivity. Qed.
Lemma kkt14 : forall l a b u v tol, ml_check_KKT (mp_atom [1%Z; (-4)%Z] (fun _ => Some 2) l) [a; b] [u; v] l tol =
  [ltb (2 * l * (1 + tol)) (Rabs a) || nonzero (0 + u * u) && ltb (Rabs a) (2 * l * (1 - tol)); ltb (l * tol) (- b) || nonzero v && ltb (- b) (- nn_tol)].
Proof. intros. unfold ml_check_KKT, kkt_mixed. cbn. unfold mixed_groups, distinct. cbn. rewrite sqrt_abs. reflexivity. Qed.
Lemma kkt4 : forall l b v tol, ml_check_KKT (mp_atom [(-4)%Z] (fun _ => Some 2) l) [b] [v] l tol = [ltb (l * tol) (- b) || nonzero v && ltb (- b) (- nn_tol)].
Proof. intros. reflexivity. Qed.
Lemma ltb_t : forall a b, a < b -> ltb a b = true.
Proof. intros. apply ltb_iff. auto. Qed.
Lemma ltb_f : forall a b, b <= a -> ltb a b = false.
Proof. intros. apply ltb_false. auto. Qed.
Lemma nonzero_t : forall a, a <> 0 -> nonzero a = true.
Proof. intros. apply nonzero_iff. auto. Qed.

Definition P14 : mpath := mk_mpath (quad2 1 (- / 2) 1 (-2) (-1)) (grad2 1 (- / 2) 1 (-2) (-1)) [1%Z; (-4)%Z] (fun _ => Some 2) [1; 1].
Definition S14 : msolver := fun _ _ set _ => match set with [true; true] => [2 / 15; 16 / 15] | [false; true] => [1] | [true; false] => [0] | _ => [] end.
Lemma set14 : forall a b, Rabs a < 71 / 20 -> b <= / 20 -> forall l, ml_strong_set (mp_atom [1%Z; (-4)%Z] (fun _ => Some 2) l) (5 / 4) (6 / 5) [a; b] 1 = [false; true].
Proof. intros a b Ha Hb l. rewrite strong14. rewrite ltb_t by lra. rewrite ltb_f by (rewrite Rabs_left by lra; lra). reflexivity. Qed.
Lemma step14 : forall sol x y a b k, Rabs a < 71 / 20 -> b <= / 20 -> mtry P14 S14 (5 / 4) (6 / 5) (mk_mstate sol [a; b] [x; y] [true; true] (0, 0) k) =
  (false, mk_mstate [2 / 15; 16 / 15] [a; b] [x || false; y || true]%bool [true; true] (0, 0) (Datatypes.S k)).
Proof.
  intros sol x y a b k Ha Hb. unfold mtry. cbn [ms_gsol ms_ever ms_fail ms_calls ms_sol ms_enet P14 mp_labels mp_weights]. rewrite set14 by auto. rewrite !enet_zero_access.
  cbn [bor map combine fst snd orb S14 embed_mask put keep]. change (mp_grad P14) with (grad2 1 (- / 2) 1 (-2) (-1)). cbn [embed_mask put grad2 nth keep vadd vzip map fst snd]. rewrite kkt4.
  rewrite (ltb_f (6 / 5 * mtol)) by (unfold mtol; lra). rewrite nonzero_t by lra. rewrite ltb_t by (unfold nn_tol; lra). reflexivity.
Qed.
Lemma first14 : mtry P14 S14 (5 / 4) (6 / 5) (mk_mstate [0; 1] [-5/2; 0] [false; false] [false; true] (0, 0) 0) =
  (false, mk_mstate [0; 1] [1 * 0 + - / 2 * 1 + -2; - / 2 * 0 + 1 * 1 + -1] [true; false] [true; true] (0, 0) 1).
Proof.
  unfold mtry. cbn [ms_gsol ms_ever ms_fail ms_calls ms_sol ms_enet P14 mp_labels mp_weights]. rewrite set14 by (try rewrite Rabs_left; lra). rewrite !enet_zero_access.
  cbn [bor map combine fst snd orb S14 embed_mask put keep]. change (mp_grad P14) with (grad2 1 (- / 2) 1 (-2) (-1)). cbn [embed_mask put grad2 nth keep vadd vzip map fst snd]. rewrite kkt4.
  rewrite (ltb_f (6 / 5 * mtol)) by (unfold mtol; lra). rewrite (ltb_f _ (- nn_tol)) by (unfold nn_tol; lra). rewrite andb_false_r. cbn [orb any existsb].
  unfold mp_gradient. change (mp_grad P14) with (grad2 1 (- / 2) 1 (-2) (-1)). rewrite enet_zero by reflexivity. unfold grad2; cbn [nth]. rewrite kkt14.
  rewrite (ltb_t (2 * (6 / 5) * (1 + mtol))) by (unfold mtol; rewrite Rabs_left; lra). rewrite (ltb_f (6 / 5 * mtol)) by (unfold mtol; lra). rewrite (ltb_f _ (- nn_tol)) by (unfold nn_tol; lra). rewrite andb_false_r. reflexivity.
Qed.
Lemma pen14 : forall w a b, mixed_pen [1%Z; (-4)%Z] w [a; b] = if nonneg_dec [b] then Fin (w 1%Z * Rabs a) else PInf.
Proof.
  intros w a b. rewrite pen_formula. unfold block. cbn [pick Z.eqb Pos.eqb]. destruct (nonneg_dec []) as [_|N]; [|exfalso; apply N; constructor]. destruct (nonneg_dec [b]); auto.
  unfold mixed_groups, distinct, ell1, vsum. cbn. rewrite norm1. f_equal. ring.
Qed.
Lemma pen4 : forall w b, mixed_pen [(-4)%Z] w [b] = if nonneg_dec [b] then Fin 0 else PInf.
Proof. intros w b. rewrite pen_formula. unfold block. cbn [pick Z.eqb Pos.eqb]. destruct (nonneg_dec []) as [_|N]; [|exfalso; apply N; constructor]. destruct (nonneg_dec [b]); auto. unfold mixed_groups, distinct, ell1, vsum. cbn. f_equal. ring. Qed.
Lemma pen1g : forall w a, mixed_pen [1%Z] w [a] = Fin (w 1%Z * Rabs a).
Proof. intros w a. rewrite pen_formula. unfold block. cbn [pick Z.eqb Pos.eqb]. destruct (nonneg_dec []) as [_|N]; [|exfalso; apply N; constructor]. unfold mixed_groups, distinct, ell1, vsum. cbn. rewrite norm1. f_equal. ring. Qed.
Lemma nonneg1 : forall b, 0 <= b -> all_nonneg [b].
Proof. intros. constructor; auto. Qed.
Lemma pair_of : forall {A} (v : list A), length v = 2%nat -> exists a b, v = [a; b].
Proof. intros A [|a [|b [|]]] H; try discriminate. eauto. Qed.
Lemma exact14 : forall k x set, length set = 2%nat -> restricted_minimizer P14 set (6 / 5) (S14 k x set (6 / 5)).
Proof.
  intros k x set L. destruct (pair_of set L) as (s1 & s2 & ->). unfold restricted_minimizer, mixed_minimizer, objective, mfun, gmode. destruct s1, s2; cbn [S14 P14 mp_labels mp_weights keep mp_func embed_mask put].
  - split; auto. rewrite pen14. destruct (nonneg_dec [16 / 15]) as [_|N]; [|exfalso; apply N, nonneg1; lra]. split; [eexists; reflexivity|]. intros v Lv. destruct (pair_of v Lv) as (a & b & ->). rewrite pen14. destruct (nonneg_dec [b]) as [Nb|]; [|exact I].
    cbn [put ext_scale ext_add ext_le]. unfold quad2, group_weight. cbn [nth]. rewrite (Rabs_right (2 / 15)) by lra. assert (A := Rle_abs a). assert (B := Rle_0_sqr ((a - 2 / 15) - / 2 * (b - 16 / 15))). assert (C := Rle_0_sqr (b - 16 / 15)). unfold Rsqr in *. lra.
  - split; auto. rewrite pen1g. split; [eexists; reflexivity|]. intros v Lv. destruct (single v Lv) as (a & ->). rewrite pen1g. cbn [put ext_scale ext_add ext_le]. unfold quad2, group_weight. cbn [nth]. rewrite Rabs_R0. assert (A := Rle_abs a). assert (0 <= Rabs a) by apply Rabs_pos. nra.
  - split; auto. rewrite pen4. destruct (nonneg_dec [1]) as [_|N]; [|exfalso; apply N, nonneg1; lra]. split; [eexists; reflexivity|]. intros v Lv. destruct (single v Lv) as (b & ->). rewrite pen4. destruct (nonneg_dec [b]) as [Nb|]; [|exact I].
    cbn [put ext_scale ext_add ext_le]. unfold quad2. cbn [nth]. assert (B := Rle_0_sqr (b - 1)). unfold Rsqr in B. lra.
  - split; auto. split; [eexists; reflexivity|]. intros v Lv. destruct v; [|discriminate]. cbn [put]. apply ext_le_refl.
Qed.
Lemma warned_minimizer : exists P S out pt, convex_on (mp_size P) (mp_func P) /\ right_gradient P /\ weights_given P /\
  (forall k x set, length set = mp_size P -> restricted_minimizer P set (6 / 5) (S k x set (6 / 5))) /\
  null_minimizer P [1] /\ max_at P [0; 1] = Some (5 / 4) /\ mp_main 10 P S (0, 0) [0; 1] (5 / 4) [5 / 4; 6 / 5] = Ok out /\ mo_points out = [pt] /\ mpt_warned pt = true /\ path_minimizer P (6 / 5) (mpt_sol pt).
Proof.
  assert (E0 : mp_gradient P14 (0, 0) [0; 1] = [-5 / 2; 0]). { unfold mp_gradient. rewrite enet_zero by reflexivity. change (mp_grad P14) with (grad2 1 (- / 2) 1 (-2) (-1)). unfold grad2. cbn [nth]. f_equal; [lra|f_equal; lra]. }
  set (I := fun st => exists sol x y a b k, st = mk_mstate sol [a; b] [x; y] [true; true] (0, 0) k /\ Rabs a < 71 / 20 /\ b <= / 20).
  assert (St : forall st, I st -> exists st1, mtry P14 S14 (5 / 4) (6 / 5) st = (false, st1) /\ I st1 /\ ms_sol st1 = [2 / 15; 16 / 15]).
  { intros st (sol & x & y & a & b & k & -> & Ha & Hb). rewrite step14 by auto. eexists. split; [reflexivity|]. split; [|reflexivity]. repeat eexists; auto. }
  assert (Rf : forall st, I st -> ms_sol st = [2 / 15; 16 / 15] -> I (refreshed P14 (6 / 5) st)).
  { intros st (sol & x & y & a & b & k & -> & Ha & Hb) Es. cbn [ms_sol] in Es. subst sol. unfold refreshed. cbn [ms_sol ms_enet ms_fail ms_ever ms_calls]. rewrite enet_zero_access. unfold mp_gradient. rewrite enet_zero by reflexivity. change (mp_grad P14) with (grad2 1 (- / 2) 1 (-2) (-1)). unfold grad2. cbn [nth].
    do 6 eexists. split; [reflexivity|]. split; [rewrite Rabs_left by lra; lra|lra]. }
  destruct (always_warned P14 S14 (5 / 4) (6 / 5) I [2 / 15; 16 / 15] St Rf 9 1 (mk_mstate [0; 1] [1 * 0 + - / 2 * 1 + -2; - / 2 * 0 + 1 * 1 + -1] [true; false] [true; true] (0, 0) 1) ltac:(lia) ltac:(lia)) as (st' & E).
  { do 6 eexists. split; [reflexivity|]. split; [rewrite Rabs_left by lra; lra|lra]. }
  exists P14, S14. eexists. exists (mk_mpoint (6 / 5) [2 / 15; 16 / 15] true 10). split; [apply quad2_convex; intros u v; assert (A := Rle_0_sqr (u - / 2 * v)); assert (B := Rle_0_sqr v); unfold Rsqr in *; lra|].
  split; [intros x Lx; apply quad2_gradient; auto|]. split; [intros l _; exists 2; split; auto; lra|]. split; [apply exact14|]. split; [|split; [|split; [|split; [|split]]]].
  - unfold null_minimizer, restricted_minimizer, mixed_minimizer, objective, mfun, gmode. cbn [initial_active P14 mp_labels map Z.eqb Pos.eqb orb keep mp_func embed_mask put mp_weights]. split; auto. rewrite pen4. destruct (nonneg_dec [1]) as [_|N]; [|exfalso; apply N, nonneg1; lra]. split; [eexists; reflexivity|]. intros v Lv. destruct (single v Lv) as (b & ->). rewrite pen4. destruct (nonneg_dec [b]) as [Nb|]; [|exact Logic.I].
    cbn [put ext_scale ext_add ext_le]. unfold quad2. cbn [nth]. assert (B := Rle_0_sqr (b - 1)). unfold Rsqr in B. lra.
  - rewrite max_at_norm. unfold mixed_dual_seminorm. cbn. unfold mixed_groups, distinct. cbn. destruct (Rlt_dec 0 2) as [_|N]; [|exfalso; lra]. unfold omax. rewrite sqrt_abs, Rabs_left by lra. f_equal. field.
  - unfold mp_main. rewrite !enet_zero_access. rewrite E0. cbn [tl mrun]. change (initial_active P14) with [false; true]. change (repeat false (mp_size P14)) with [false; false].
    rewrite (mtries_step 9 _ _ _ _ 0 _ _ first14) by (cbn; lia). rewrite E. cbn [rbind fst snd]. reflexivity.
  - reflexivity.
  - reflexivity.
  - destruct (exact14 0 [] [true; true] eq_refl) as (L & Ef & H). split; [exact L|]. split; [exact Ef|]. intros v Lv. destruct (pair_of v Lv) as (a & b & ->). exact (H [a; b] eq_refl).
Qed.

(** ** Scalings and degrees of freedom *)
Lemma columns_wrong : exists P S out pt, convex_on (mp_size P) (mp_func P) /\ right_gradient P /\ (forall k x set, length set = mp_size P -> restricted_minimizer P set 1 (S k x set 1)) /\ null_minimizer P [3] /\ mp_scal P = [2] /\
  mp_main 10 P S (0, 0) [3] 2 [2; 1] = Ok out /\ mo_points out = [pt] /\ mpt_warned pt = false /\ mpt_sol pt = [3] /\ mo_beta out = [[3 / 2]; [3]].
Proof.
  assert (M : forall lam, is_argmin 1 (objective (quad1 3) (mfun false [(-1)%Z] (fun _ => None) lam)) [3]).
  { intros lam. assert (E : forall a, objective (quad1 3) (mfun false [(-1)%Z] (fun _ => None) lam) [a] = Fin (quad1 3 [a])).
    { intros a. unfold objective, mfun, gmode. rewrite pen_formula. unfold block. cbn [pick Z.eqb Pos.eqb]. destruct (nonneg_dec []) as [_|N]; [|exfalso; apply N; constructor]. unfold mixed_groups, distinct, ell1, vsum. cbn. f_equal. ring. }
    split; auto. rewrite E. split; [eexists; reflexivity|]. intros v Lv. destruct (single v Lv) as (a & ->). rewrite E. unfold quad1. cbn. assert (A := Rle_0_sqr (a - 3)). unfold Rsqr in A. lra. }
  assert (M' : forall lam, restricted_minimizer (Pfree 3) [true] lam [3]).
  { intros lam. destruct (M lam) as (L & Ef & H). split; auto. split; [exact Ef|]. intros v Lv. destruct (single v Lv) as (a & ->). exact (H [a] eq_refl). }
  exists (Pfree 3), (fun _ _ set _ => if nth 0 set false then [3] else []). eexists. exists (mk_mpoint 1 [3] false 1). split; [apply quad1_convex|]. split; [intros x Lx; apply quad1_gradient; auto|]. split; [|split; [apply M'|]].
  - intros k x set L. destruct (single set L) as (b & ->). destruct b; cbn [nth]; [apply M'|]. split; auto. split; [eexists; reflexivity|]. intros v Lv. destruct v; [|discriminate]. cbn [embed_mask put]. apply ext_le_refl.
  - split; [reflexivity|]. split; [unfold mp_main; rewrite !enet_zero_access; cbn [tl mrun mtries]; unfold mtry; cbn; rewrite ?Rmult_0_l; reflexivity|]. repeat split; reflexivity.
Qed.
(** ** The elastic net *)
Definition Plasso : mpath := mk_mpath (quad1 3) (grad1 3) [(-2)%Z] (fun _ => None) [1].
Definition Slasso : msolver := fun _ _ set _ => match set with [true] => [1] | _ => [] end.
Lemma strong2 : forall l cur new a, ml_strong_set (mp_atom [(-2)%Z] (fun _ => None) l) cur new [a] 1 = [negb (ltb (Rabs a) ((1 + 1) * new - 1 * cur))].
Proof. intros. reflexivity. Qed.
Lemma kkt2 : forall l a u tol, ml_check_KKT (mp_atom [(-2)%Z] (fun _ => None) l) [a] [u] l tol = [ltb (l * (1 + tol)) (Rabs a) || (nonzero u && leb tol (Rabs (- a / l - np_sign u)))].
Proof. intros. reflexivity. Qed.
Lemma stepnet : forall sol a q k, 1 <= Rabs a -> 1 < q -> mtry Plasso Slasso 3 2 (mk_mstate sol [a] [true] [false] (q, 0) k) = (false, mk_mstate [1] [a] [true] [false] (q * 2, 0) (Datatypes.S k)).
Proof.
  intros sol a q k Ha Hq. unfold mtry. cbn [ms_gsol ms_ever ms_fail ms_calls ms_sol ms_enet Plasso mp_labels mp_weights]. rewrite strong2, ltb_f by lra. cbn [negb].
  cbn [bor map combine fst snd orb Slasso embed_mask put keep enet_access]. change (mp_grad Plasso) with (grad1 3). cbn [embed_mask put grad1 nth keep vadd vzip map fst snd enet_access]. rewrite kkt2.
  assert (T : ltb (2 * (1 + mtol)) (Rabs (1 - 3 + (q * 2 * 1 + 0 * 2))) || (nonzero 1 && leb mtol (Rabs (- (1 - 3 + (q * 2 * 1 + 0 * 2)) / 2 - np_sign 1))) = true).
  { apply orb_true_iff. right. rewrite nonzero_t by lra. cbn [andb]. apply leb_iff. assert (N1 : np_sign 1 = 1) by (unfold np_sign; repeat destruct (Rlt_dec _ _); lra). rewrite N1. replace (- (1 - 3 + (q * 2 * 1 + 0 * 2)) / 2 - 1) with (- q) by field. rewrite Rabs_Ropp, Rabs_right by lra. unfold mtol. lra. }
  rewrite T. cbn [any existsb orb put]. unfold enet_access. cbn [fst snd]. rewrite !Rmult_0_l. reflexivity.
Qed.
Lemma firstnet : mtry Plasso Slasso 3 2 (mk_mstate [0] [-3] [false] [false] (3, 0) 0) = (false, mk_mstate [0] [-3] [true] [false] (6, 0) 1).
Proof.
  unfold mtry. cbn [ms_gsol ms_ever ms_fail ms_calls ms_sol ms_enet Plasso mp_labels mp_weights]. rewrite strong2, ltb_f by (rewrite Rabs_left by lra; lra). cbn [negb].
  cbn [bor map combine fst snd orb Slasso embed_mask put keep enet_access]. change (mp_grad Plasso) with (grad1 3). cbn [embed_mask put grad1 nth keep vadd vzip map fst snd enet_access]. rewrite kkt2.
  rewrite (ltb_t (2 * (1 + mtol))) by (unfold mtol; rewrite Rabs_left; lra). cbn [any existsb orb put]. unfold enet_access. cbn [fst snd]. rewrite !Rmult_0_l. replace (3 * 2) with 6 by lra. reflexivity.
Qed.
(** lam (|x| + x^2/2) + (x - 3)^2/2 at lam = 2 *)
Lemma elastic_net_wrong : exists P S out pt, convex_on (mp_size P) (mp_func P) /\ right_gradient P /\ (forall k x set, length set = mp_size P -> restricted_minimizer P set 2 (S k x set 2)) /\
  mp_main 10 P S (1, 0) [0] 3 [3; 2] = Ok out /\ mo_points out = [pt] /\ mpt_warned pt = true /\ path_minimizer P 2 (mpt_sol pt) /\
  exists y, length y = mp_size P /\ mp_func P y + 2 * (1 / 2 * sqn y + ell1 y) < mp_func P (mpt_sol pt) + 2 * (1 / 2 * sqn (mpt_sol pt) + ell1 (mpt_sol pt)).
Proof.
  assert (P2 : forall w a, mixed_pen [(-2)%Z] w [a] = Fin (Rabs a)).
  { intros w a. rewrite pen_formula. unfold block. cbn [pick Z.eqb Pos.eqb]. destruct (nonneg_dec []) as [_|N]; [|exfalso; apply N; constructor]. unfold mixed_groups, distinct, ell1, vsum. cbn. f_equal. ring. }
  assert (M : path_minimizer Plasso 2 [1]).
  { split; auto. unfold objective, mfun, gmode. cbn [Plasso mp_labels mp_weights mp_func]. rewrite P2. split; [eexists; reflexivity|]. intros v Lv. destruct (single v Lv) as (a & ->). rewrite P2. cbn [ext_scale ext_add ext_le]. unfold quad1. cbn [nth]. rewrite (Rabs_right 1) by lra. assert (A := Rle_abs a). assert (B := Rle_0_sqr (a - 1)). unfold Rsqr in B. lra. }
  set (I := fun st => exists sol a q k, st = mk_mstate sol [a] [true] [false] (q, 0) k /\ 1 <= Rabs a /\ 2 <= q).
  assert (St : forall st, I st -> exists st1, mtry Plasso Slasso 3 2 st = (false, st1) /\ I st1 /\ ms_sol st1 = [1]).
  { intros st (sol & a & q & k & -> & Ha & Hq). rewrite stepnet by (auto; lra). eexists. split; [reflexivity|]. split; [|reflexivity]. do 4 eexists. split; [reflexivity|]. split; auto. lra. }
  assert (Rf : forall st, I st -> ms_sol st = [1] -> I (refreshed Plasso 2 st)).
  { intros st (sol & a & q & k & -> & Ha & Hq) Es. cbn [ms_sol] in Es. subst sol. unfold refreshed, enet_access. cbn [ms_sol ms_enet ms_fail ms_ever ms_calls fst snd]. rewrite Rmult_0_l. do 4 eexists. split; [reflexivity|]. cbn [mp_gradient enet_add]. split; [|lra].
    change (1 <= Rabs (1 - 3 + (q * 2 * 1 + 0))). unfold Rabs. destruct (Rcase_abs _); lra. }
  destruct (always_warned Plasso Slasso 3 2 I [1] St Rf 9 1 (mk_mstate [0] [-3] [true] [false] (6, 0) 1) ltac:(lia) ltac:(lia)) as (st' & E).
  { do 4 eexists. split; [reflexivity|]. split; [rewrite Rabs_left by lra; lra|lra]. }
  exists Plasso, Slasso. eexists. exists (mk_mpoint 2 [1] true 10). split; [apply quad1_convex|]. split; [intros x Lx; apply quad1_gradient; auto|]. split; [|split; [|split; [|split; [|split]]]].
  - intros k x set L. destruct (single set L) as (b & ->). destruct b; cbn [Slasso].
    + destruct M as (L1 & Ef & H). split; auto. split; [exact Ef|]. intros v Lv. destruct (single v Lv) as (a & ->). exact (H [a] eq_refl).
    + split; auto. split; [eexists; reflexivity|]. intros v Lv. destruct v; [|discriminate]. cbn [embed_mask put]. apply ext_le_refl.
  - assert (E1 : enet_access 3 (1, 0) = (3, 0)) by (unfold enet_access; cbn [fst snd]; f_equal; ring). assert (E2 : mp_gradient Plasso (3, 0) [0] = [-3]). { change ([0 - 3 + (3 * 0 + 0)] = [-3]). f_equal. lra. }
    unfold mp_main. rewrite E1, E2. cbn [tl mrun]. change (initial_active Plasso) with [false]. change (repeat false (mp_size Plasso)) with [false].
    rewrite (mtries_step 9 _ _ _ _ 0 _ _ firstnet) by (cbn; lia). rewrite E. cbn [rbind fst snd]. reflexivity.
  - reflexivity.
  - reflexivity.
  - exact M.
  - exists [/ 3]. split; auto. cbn [mp_func Plasso mpt_sol]. unfold quad1, ell1, sqn, dot, vsum. cbn [nth map vmul vzip fold_right]. rewrite !Rabs_right by lra. lra.
Qed.
(** ** A run that succeeds *)
Definition Ssoft : msolver := fun _ _ set lam => match set with [true] => [Rmax (3 - lam) 0] | _ => [] end.
Lemma soft_exact : exact_solver Plasso Ssoft.
Proof.
  intros k x set lam L Hl. destruct (single set L) as (b & ->). destruct b; cbn [Ssoft].
  - assert (P2 : forall w a, mixed_pen [(-2)%Z] w [a] = Fin (Rabs a)).
    { intros w a. rewrite pen_formula. unfold block. cbn [pick Z.eqb Pos.eqb]. destruct (nonneg_dec []) as [_|N]; [|exfalso; apply N; constructor]. unfold mixed_groups, distinct, ell1, vsum. cbn. f_equal. ring. }
    split; auto. unfold objective, mfun, gmode. cbn [Plasso mp_labels mp_weights mp_func keep embed_mask put]. rewrite P2. split; [eexists; reflexivity|]. intros v Lv. destruct (single v Lv) as (a & ->). rewrite P2. cbn [ext_scale ext_add ext_le put]. unfold quad1. cbn [nth].
    assert (A := Rle_abs a). assert (A' := Rabs_pos a). unfold Rmax. destruct (Rle_dec (3 - lam) 0).
    + rewrite Rabs_R0. assert (B := Rle_0_sqr a). unfold Rsqr in B. nra.
    + rewrite (Rabs_right (3 - lam)) by lra. assert (B := Rle_0_sqr (a - (3 - lam))). unfold Rsqr in B. nra.
  - split; auto. split; [eexists; reflexivity|]. intros v Lv. destruct v; [|discriminate]. cbn [embed_mask put]. apply ext_le_refl.
Qed.
Lemma soft_run : exists out pt, mp_main 10 Plasso Ssoft (0, 0) [0] 3 [3; 2] = Ok out /\ mo_points out = [pt] /\ mpt_warned pt = false /\ mpt_tries pt = 2%nat /\ mpt_sol pt = [1].
Proof.
  assert (E2 : mp_gradient Plasso (0, 0) [0] = [-3]). { change ([0 - 3 + (0 * 0 + 0)] = [-3]). f_equal. lra. }
  assert (F1 : mtry Plasso Ssoft 3 2 (mk_mstate [0] [-3] [false] [false] (0, 0) 0) = (false, mk_mstate [0] [-3] [true] [false] (0, 0) 1)).
  { unfold mtry. cbn [ms_gsol ms_ever ms_fail ms_calls ms_sol ms_enet Plasso mp_labels mp_weights]. rewrite strong2, ltb_f by (rewrite Rabs_left by lra; lra). rewrite !enet_zero_access. cbn [negb].
    cbn [bor map combine fst snd orb Ssoft embed_mask put keep]. change (mp_grad Plasso) with (grad1 3). cbn [embed_mask put grad1 nth keep vadd vzip map fst snd]. rewrite kkt2. rewrite (ltb_t (2 * (1 + mtol))) by (unfold mtol; rewrite Rabs_left; lra). reflexivity. }
  assert (F2 : mtry Plasso Ssoft 3 2 (mk_mstate [0] [-3] [true] [false] (0, 0) 1) = (true, mk_mstate [1] [1 - 3] [false] [true] (0, 0) 2)).
  { assert (Mx : Rmax (3 - 2) 0 = 1) by (unfold Rmax; destruct (Rle_dec _ _); lra). assert (N1 : np_sign 1 = 1) by (unfold np_sign; repeat destruct (Rlt_dec _ _); lra).
    assert (K : forall a, a = -2 -> ml_check_KKT (mp_atom [(-2)%Z] (fun _ => None) 2) [a] [1] 2 mtol = [false]). { intros a ->. rewrite kkt2, N1. rewrite ltb_f by (unfold mtol; rewrite Rabs_left; lra). replace (- -2 / 2 - 1) with 0 by field. rewrite Rabs_R0, leb_false by (unfold mtol; lra). rewrite andb_false_r. reflexivity. }
    unfold mtry. cbn [ms_gsol ms_ever ms_fail ms_calls ms_sol ms_enet Plasso mp_labels mp_weights]. rewrite strong2, ltb_f by (rewrite Rabs_left by lra; lra). rewrite !enet_zero_access. cbn [negb].
    cbn [bor map combine fst snd orb Ssoft embed_mask put keep]. rewrite Mx. change (mp_grad Plasso) with (grad1 3). cbn [embed_mask put grad1 nth keep vadd vzip map fst snd]. rewrite K by lra. cbn [any existsb orb].
    unfold mp_gradient. rewrite enet_zero by reflexivity. change (mp_grad Plasso [1]) with [1 - 3]. rewrite K by lra. cbn [any existsb orb]. unfold nonzeros. cbn [map combine bor]. rewrite nonzero_t by lra. reflexivity. }
  eexists. exists (mk_mpoint 2 [1] false 2). split.
  - unfold mp_main. rewrite !enet_zero_access, E2. cbn [tl mrun]. change (initial_active Plasso) with [false]. change (repeat false (mp_size Plasso)) with [false]. cbn [mtries]. rewrite F1. cbn [Nat.modulo Nat.divmod Nat.eqb fst snd Nat.sub]. rewrite F2. reflexivity.
  - repeat split.
Qed.

(** Multinomial losses: value, gradient, convexity. *)
From Coq Require Import Reals List Lra Lia Arith Bool.
From Verif Require Import M_affine M_buffer M_loss SpecLoss P_loss P_loss2 P_loss6 Vec Spec SpecBlock SpecConvex P_calc P_sep P_cv P_block M_mglm SpecMglm.
Import ListNotations.
Local Open Scope R_scope.

(** ** Lists of rows *)
Lemma nth_map3 : forall {A B C D} (f : A -> B -> C -> D) l1 l2 l3 a b c d i, length l1 = length l2 -> length l2 = length l3 -> (i < length l1)%nat ->
  nth i (map3 f l1 l2 l3) d = f (nth i l1 a) (nth i l2 b) (nth i l3 c).
Proof. intros A B C D f. induction l1 as [|x l1 IH]; intros [|y l2] [|z l3] a b c d i H1 H2 Hi; cbn in *; try lia. destruct i; auto. apply IH; lia. Qed.
Lemma map3_length : forall {A B C D} (f : A -> B -> C -> D) l1 l2 l3, length l1 = length l2 -> length l2 = length l3 -> length (map3 f l1 l2 l3) = length l1.
Proof. intros A B C D f. induction l1 as [|x l1 IH]; intros [|y l2] [|z l3] H1 H2; cbn in *; try lia. rewrite IH; lia. Qed.
Lemma map3_forall : forall {A B C D} (P : D -> Prop) (f : A -> B -> C -> D) (Q : B -> Prop) (S : C -> Prop) l1 l2 l3, (forall a b c, Q b -> S c -> P (f a b c)) -> Forall Q l2 -> Forall S l3 -> Forall P (map3 f l1 l2 l3).
Proof. intros A B C D P f Q S. induction l1 as [|x l1 IH]; intros [|y l2] [|z l3] H1 H2 H3; cbn; auto. constructor; [apply H1; [exact (Forall_inv H2)|exact (Forall_inv H3)]|apply IH; auto; [exact (Forall_inv_tail H2)|exact (Forall_inv_tail H3)]]. Qed.
Lemma vsum_map3 : forall {A B C} (f : A -> B -> C -> R) l1 l2 l3 a b c n, length l1 = n -> length l2 = n -> length l3 = n -> vsum (map3 f l1 l2 l3) = sum_over n (fun i => f (nth i l1 a) (nth i l2 b) (nth i l3 c)).
Proof.
  intros A B C f l1 l2 l3 a b c n H1 H2 H3. rewrite (vsum_index n) by (rewrite map3_length; lia). apply sum_over_ext. intros i Hi. apply nth_map3; lia.
Qed.
Lemma vsum_concat : forall (l : list vec), vsum (concat l) = vsum (map vsum l).
Proof. induction l as [|a l IH]; auto. cbn [concat map]. rewrite vsum_app, IH. auto. Qed.
Lemma dot_rows : forall n q x y, length x = (n * q)%nat -> length y = (n * q)%nat -> dot x y = sum_over n (fun i => dot (nth i (rows n q x) []) (nth i (rows n q y) [])).
Proof.
  intros n q. assert (S : forall n F, sum_over (S n) F = F 0%nat + sum_over n (fun i => F (S i))).
  { intros k F. unfold sum_over. cbn [seq map]. rewrite vsum_cons, <- seq_shift, map_map. auto. }
  induction n as [|n IH]; intros x y Lx Ly.
  - destruct x; [|discriminate]. destruct y; [|discriminate]. auto.
  - rewrite S. cbn [rows nth]. rewrite <- IH by (rewrite skipn_length; lia). rewrite <- (firstn_skipn q x) at 1. rewrite <- (firstn_skipn q y) at 1. apply P_cones.dot_app. rewrite !firstn_length. lia.
Qed.
Lemma nth_rows_length : forall n q x i, length x = (n * q)%nat -> (i < n)%nat -> length (nth i (rows n q x) []) = q.
Proof. intros n q x i L Hi. assert (F := rows_lengths n q x L). rewrite Forall_forall in F. apply F. apply nth_In. rewrite rows_length. auto. Qed.
Lemma rows_map : forall f n q x, rows n q (map f x) = map (map f) (rows n q x).
Proof. intros f. induction n as [|n IH]; intros q x; auto. cbn [rows map]. rewrite firstn_map, skipn_map, IH. auto. Qed.
Lemma nth_entry : forall n q x i j, (i < n)%nat -> (j < q)%nat -> nth j (nth i (rows n q x) []) 0 = entry q x i j.
Proof.
  induction n as [|n IH]; intros q x i j Hi Hj; [lia|]. cbn [rows]. unfold entry. destruct i as [|i].
  - cbn [nth]. rewrite Nat.mul_0_l, Nat.add_0_l. revert x j Hj. clear. induction q as [|q IH]; intros [|a x] [|j] H; try lia; cbn; auto. apply IH. lia.
  - cbn [nth]. rewrite IH by lia. unfold entry. clear. revert x. replace (S i * q + j)%nat with (q + (i * q + j))%nat by lia. generalize (i * q + j)%nat as k. induction q as [|q IH]; intros k [|a x]; cbn; auto. destruct k; auto.
Qed.

(** ** One case *)
Definition rl (base : bool) (ct e : vec) : R := vsum ct * ln (total base e) - dot (first_counts base ct) e.
Definition rg (base : bool) (ct e : vec) : vec := vsub (vscal (vsum ct / total base e) (map exp e)) (first_counts base ct).
Lemma sum_exp_pos : forall e : vec, 0 <= vsum (map exp e).
Proof. induction e as [|a e IH]; cbn [map]; [unfold vsum; cbn; lra|rewrite vsum_cons; assert (E := exp_pos a); lra]. Qed.
Lemma total_pos : forall (base : bool) e, base = true \/ (0 < length e)%nat -> 0 < total base e.
Proof.
  intros base e H. unfold total. assert (P := sum_exp_pos e). destruct base; [lra|]. destruct H as [H|H]; [discriminate|]. destruct e as [|a e]; [cbn in H; lia|]. cbn [map]. rewrite vsum_cons. assert (E := exp_pos a). assert (Q := sum_exp_pos e). lra.
Qed.
Lemma first_length : forall (base : bool) q ct, length ct = (if base then S q else q) -> length (first_counts base ct) = q.
Proof. intros [] q ct L; unfold first_counts; auto. rewrite firstn_length. lia. Qed.
Lemma func_rows : forall (base : bool) n q counts c off cw x, multi_fits base n q counts off cw -> length x = (n * q)%nat ->
  multi_func base n q counts c off cw x = c * sum_over n (fun i => nth i cw 0 * rl base (nth i counts []) (nth i (clipped n q off x) [])).
Proof.
  intros base n q counts c off cw x (Lc & Fc & O & Lw & _) Lx. unfold multi_func. rewrite scale_eq. set (eta := clipped n q off x). assert (Le : length eta = n) by apply rows_length.
  assert (K : forall (cw : vec) (counts eta : list vec), length cw = length counts -> length counts = length eta ->
    vsum (concat (map3 (fun w ct e => vmul (vscal w (first_counts base ct)) e) cw counts eta)) - dot (vmul cw (map vsum counts)) (map (fun e => ln (total base e)) eta) =
    - vsum (map3 (fun w ct e => w * rl base ct e) cw counts eta)).
  { clear. induction cw as [|w cw IH]; intros [|ct counts] [|e eta] H1 H2; cbn in H1, H2; try lia; [unfold vsum, dot; cbn; lra|].
    cbn [map3 concat map]. change (vmul (w :: cw) (vsum ct :: map vsum counts)) with (w * vsum ct :: vmul cw (map vsum counts)). rewrite vsum_app, vsum_cons, dot_cons.
    specialize (IH counts eta ltac:(lia) ltac:(lia)). change (vsum (vmul (vscal w (first_counts base ct)) e)) with (dot (vscal w (first_counts base ct)) e). rewrite dot_scal_l. unfold rl at 1. lra. }
  rewrite K by lia. rewrite (vsum_map3 (B:=vec) (C:=vec) _ _ _ _ 0 [] [] n) by auto. lra.
Qed.
Lemma grad_rows : forall (base : bool) n q counts c off cw x, multi_fits base n q counts off cw -> length x = (n * q)%nat ->
  multi_grad base n q counts c off cw x = concat (map3 (fun w ct e => vscal (c * w) (rg base ct e)) cw counts (clipped n q off x)) /\ length (multi_grad base n q counts c off cw x) = (n * q)%nat /\
  forall i, (i < n)%nat -> nth i (rows n q (multi_grad base n q counts c off cw x)) [] = vscal (c * nth i cw 0) (rg base (nth i counts []) (nth i (clipped n q off x) [])).
Proof.
  intros base n q counts c off cw x (Lc & Fc & O & Lw & _) Lx. set (eta := clipped n q off x). assert (Le : length eta = n) by apply rows_length.
  assert (Fe : Forall (fun e => length e = q) eta) by (apply rows_lengths; rewrite map_length; apply (minus_length x off); auto).
  assert (E : multi_grad base n q counts c off cw x = concat (map3 (fun w ct e => vscal (c * w) (rg base ct e)) cw counts eta)).
  { unfold multi_grad. fold eta. rewrite vscale_eq. clear Lx. clearbody eta. revert counts eta Lc Fc Le Fe. clear O. revert n Lw. induction cw as [|w cw IH]; intros n Lw [|ct counts] [|e eta] Lc Fc Le Fe; cbn in *; try lia; auto.
    unfold vscal at 1, vopp at 1. rewrite map_app, map_app. f_equal; [|apply (IH (length cw)); try lia; auto; [exact (Forall_inv_tail Fc)|exact (Forall_inv_tail Fe)]].
    assert (L1 := Forall_inv Fc). assert (L2 := Forall_inv Fe). cbn in L1, L2. assert (L3 := first_length base q ct L1). apply (nth_ext _ _ 0 0); [unfold rg; rewrite !map_length; vlen; rewrite !map_length; lia|].
    intros i Hi. assert (Hq : (i < q)%nat) by (rewrite !map_length in Hi; revert Hi; vlen; rewrite ?map_length; lia). clear Hi. unfold vopp, rg, vscal, vsub.
    rewrite !nth_map0 by (rewrite ?map_length, ?(vzip_length2 _ _ _ q); rewrite ?map_length; auto). rewrite !(nth_zip0 _ _ _ q) by (rewrite ?map_length; auto). ring. }
  assert (F3 : Forall (fun p : vec => length p = q) (map3 (fun w ct e => vscal (c * w) (rg base ct e)) cw counts eta)).
  { apply (map3_forall _ _ (fun ct => length ct = if base then S q else q) (fun e => length e = q)); auto. intros w ct e L1 L2. rewrite vscal_length. unfold rg. assert (L3 := first_length base q ct L1). vlen. }
  assert (L3 : length (map3 (fun w ct e => vscal (c * w) (rg base ct e)) cw counts eta) = n) by (rewrite map3_length; lia).
  split; auto. rewrite E. split; [rewrite (concat_length q); auto; lia|]. intros i Hi. assert (RC := rows_concat q _ F3). rewrite L3 in RC. rewrite RC. apply (nth_map3 (fun w ct e => vscal (c * w) (rg base ct e)) cw counts eta 0 [] [] []); lia.
Qed.

(** ** The value is the log likelihood *)
Lemma clip50_id : forall a, -50 <= a <= 50 -> clip50 a = a.
Proof. intros a H. unfold clip50. rewrite Rmin_left by lra. apply Rmax_right. lra. Qed.
Lemma clipped_id : forall n q off x, within 50 (minus x off) -> clipped n q off x = rows n q (minus x off).
Proof.
  intros n q off x H. unfold clipped. f_equal. rewrite <- (map_id (minus x off)). apply map_ext_in. intros a Ha. unfold within in H. rewrite Forall_forall in H. specialize (H a Ha). apply clip50_id. lra.
Qed.
Lemma dot_ln_softmax : forall ct e S, 0 < S -> length ct = length e -> dot ct (map ln (map (fun a => exp a / S) e)) = dot ct e - vsum ct * ln S.
Proof.
  induction ct as [|k ct IH]; intros [|a e] S HS L; try discriminate; [unfold dot, vsum; cbn; lra|]. cbn [map]. rewrite !dot_cons, vsum_cons, IH by (cbn in L; auto). unfold Rdiv at 1. rewrite ln_mult by (auto using exp_pos, Rinv_0_lt_compat). rewrite ln_Rinv, ln_exp by auto. ring.
Qed.
Lemma row_log_lik : forall (base : bool) ct e, length ct = (if base then S (length e) else length e) -> base = true \/ (0 < length e)%nat ->
  rl base ct e = - dot ct (map ln (softmax (if base then e ++ [0] else e))).
Proof.
  intros base ct e L P. assert (T := total_pos base e P). unfold rl, softmax. destruct base.
  - assert (S : vsum (map exp (e ++ [0])) = total true e) by (rewrite map_app, vsum_app; cbn [map]; rewrite vsum_cons, exp_0; unfold total, vsum; cbn; lra).
    rewrite S. rewrite dot_ln_softmax by (auto; rewrite app_length; cbn; lia). destruct (exists_last (l := ct)) as (ct' & k & ->); [intro; subst; discriminate|].
    rewrite app_length in L. cbn in L. unfold first_counts. rewrite app_length. cbn [length]. replace (length ct' + 1 - 1)%nat with (length ct' + 0)%nat by lia. rewrite firstn_app_2. cbn [firstn]. rewrite app_nil_r.
    rewrite P_cones.dot_app by lia. change (dot [k] [0]) with (k * 0 + 0). ring.
  - unfold total in *. cbn [first_counts]. rewrite dot_ln_softmax by auto. ring.
Qed.
Theorem multi_value_eq : forall (base : bool) n q counts c off cw x, multi_fits base n q counts off cw -> length x = (n * q)%nat -> within 50 (minus x off) ->
  multi_func base n q counts c off cw x = c * neg_log_lik counts cw (all_predictors base (rows n q (minus x off))).
Proof.
  intros base n q counts c off cw x H Lx W. assert (Hx := H). destruct H as (Lc & Fc & O & Lw & P). rewrite (func_rows base n q) by auto. rewrite clipped_id by auto. unfold neg_log_lik. rewrite Lc.
  f_equal. replace (- sum_over n (fun i => nth i cw 0 * dot (nth i counts []) (map ln (softmax (nth i (all_predictors base (rows n q (minus x off))) []))))) with (-1 * sum_over n (fun i => nth i cw 0 * dot (nth i counts []) (map ln (softmax (nth i (all_predictors base (rows n q (minus x off))) []))))) by ring.
  rewrite <- sum_over_scal. apply sum_over_ext. intros i Hi. assert (Le : length (nth i (rows n q (minus x off)) []) = q) by (apply nth_rows_length; auto; apply minus_length; auto).
  assert (Lt : length (nth i counts []) = if base then S q else q) by (rewrite Forall_forall in Fc; apply Fc; apply nth_In; lia).
  rewrite row_log_lik by (rewrite Le; auto). unfold all_predictors. rewrite (nth_indep (map (fun e : vec => if base then e ++ [0] else e) (rows n q (minus x off))) [] ((fun e : vec => if base then e ++ [0] else e) [])) by (rewrite map_length, rows_length; auto). rewrite (map_nth (fun e : vec => if base then e ++ [0] else e)). destruct base; ring.
Qed.

(** ** The gradient *)
Lemma derive_row : forall (base : bool) ct q (G : R -> vec) l, (forall t, length (G t) = q) -> length l = q -> length ct = (if base then S q else q) -> base = true \/ (0 < q)%nat ->
  (forall j, (j < q)%nat -> derivable_pt_lim (fun t => nth j (G t) 0) 0 (nth j l 0)) ->
  derivable_pt_lim (fun t => rl base ct (G t)) 0 (dot (rg base ct (G 0)) l).
Proof.
  intros base ct q G l LG Ll Lt P H. assert (T : forall t, 0 < total base (G t)) by (intros t; apply total_pos; rewrite LG; auto). assert (Lf := first_length base q ct Lt).
  assert (D1 : derivable_pt_lim (fun t => vsum (map exp (G t))) 0 (dot (map exp (G 0)) l)).
  { apply (derive_ext (fun t => vsum (map (fun i => exp (nth i (G t) 0)) (seq 0 q)))).
    - intros t. transitivity (vsum (map exp (map (fun i => nth i (G t) 0) (seq 0 q)))); [rewrite map_map; auto|rewrite <- (vsum_nths q (G t)); auto].
    - unfold dot. apply (derive_vsum q (fun i t => exp (nth i (G t) 0))); [|apply zl; rewrite ?map_length; auto].
      intros i Hi. unfold vmul. rewrite (nth_zip0 _ _ _ q), nth_map0 by (rewrite ?map_length, ?LG; auto).
      apply (derivable_pt_lim_comp (fun t => nth i (G t) 0) exp); [auto|]. apply derivable_pt_lim_exp. }
  assert (D2 : derivable_pt_lim (fun t => total base (G t)) 0 (dot (map exp (G 0)) l)).
  { destruct base; unfold total; auto. apply (derive_ext (fun t => 1 + vsum (map exp (G t)))); auto. replace (dot (map exp (G 0)) l) with (0 + dot (map exp (G 0)) l) by ring. apply (derivable_pt_lim_plus (fct_cte 1) (fun t => vsum (map exp (G t)))); auto. apply derivable_pt_lim_const. }
  assert (D3 : derivable_pt_lim (fun t => ln (total base (G t))) 0 (/ total base (G 0) * dot (map exp (G 0)) l)).
  { apply (derivable_pt_lim_comp (fun t => total base (G t)) ln); auto. apply derivable_pt_lim_ln. auto. }
  assert (D4 : derivable_pt_lim (fun t => dot (first_counts base ct) (G t)) 0 (dot (first_counts base ct) l)).
  { apply (derive_ext (fun t => dot (G t) (first_counts base ct))); [intros; apply dot_comm|]. rewrite dot_comm. apply (derive_dot q); auto. }
  unfold rl, rg. rewrite dot_sub_l by (vlen; rewrite ?map_length, ?LG; lia). rewrite dot_scal_l.
  replace (vsum ct / total base (G 0) * dot (map exp (G 0)) l - dot (first_counts base ct) l) with (vsum ct * (/ total base (G 0) * dot (map exp (G 0)) l) - dot (first_counts base ct) l) by (unfold Rdiv; ring).
  apply (derivable_pt_lim_minus (fun t => vsum ct * ln (total base (G t))) (fun t => dot (first_counts base ct) (G t))); auto. apply (derivable_pt_lim_scal (fun t => ln (total base (G t)))). auto.
Qed.

(** Multiresponse models. *)
From Coq Require Import Reals List Lra Lia Arith Bool.
From Verif Require Import M_affine P_affine M_buffer P_buffer M_loss SpecLoss P_loss P_loss2 P_loss4 P_loss5 P_loss6 Vec Spec SpecBlock SpecConvex M_quad P_quad P_calc P_sep P_cv P_block M_mglm SpecMglm P_mglm P_mglm2 P_mglm3 P_mglm4 P_mglm5 P_mglm6.
From Verif Require P_newton.
Import ListNotations.
Local Open Scope R_scope.

Lemma row_times : forall p q B r, length B = (p * q)%nat -> length r = p -> mat_tvec q (rows p q B) r = map (fun j => sum_over p (fun k => nth k r 0 * entry q B k j)) (seq 0 q).
Proof.
  intros p q B r LB Lr. assert (F := rows_lengths p q B LB). apply (nth_ext _ _ 0 0); [rewrite mat_tvec_length, map_length, seq_length; auto|]. intros j Hj. rewrite mat_tvec_length in Hj by auto.
  rewrite P_newton.nth_mat_tvec by (auto; rewrite rows_length; auto). rewrite nth_map_seq by auto. rewrite (dot_index p) by (rewrite ?map_length, ?rows_length; auto). apply sum_over_ext. intros k Hk.
  rewrite (nth_indep (map _ (rows p q B)) 0 ((fun r : vec => nth j r 0) [])) by (rewrite map_length, rows_length; auto). rewrite (map_nth (fun r : vec => nth j r 0)), nth_entry by auto. ring.
Qed.
Theorem left_mul_eq : forall X p q B, length B = (p * q)%nat -> Forall (fun r => length r = p) X -> left_mul X p q B = concat (mat_times X p q B).
Proof. intros X p q B LB F. unfold left_mul, mat_times. f_equal. apply map_ext_in. intros r Hr. rewrite Forall_forall in F. apply row_times; auto. Qed.
Lemma mat_times_rows : forall X p q B, Forall (fun r => length r = q) (mat_times X p q B).
Proof. intros. apply Forall_forall. intros r Hr. unfold mat_times in Hr. apply in_map_iff in Hr. destruct Hr as (? & <- & _). rewrite map_length, seq_length. auto. Qed.
Lemma mat_times_length : forall X p q B, length (concat (mat_times X p q B)) = (length X * q)%nat.
Proof. intros. rewrite (concat_length q) by apply mat_times_rows. unfold mat_times. rewrite map_length. auto. Qed.
Lemma mat_times_entry : forall X p q B i j, (i < length X)%nat -> (j < q)%nat -> entry q (concat (mat_times X p q B)) i j = sum_over p (fun k => nth k (nth i X []) 0 * entry q B k j).
Proof.
  intros X p q B i j Hi Hj. rewrite <- (nth_entry (length X)) by auto. assert (E := rows_concat q (mat_times X p q B) (mat_times_rows X p q B)). replace (length (mat_times X p q B)) with (length X) in E by (unfold mat_times; rewrite map_length; auto). rewrite E. unfold mat_times.
  rewrite (nth_indep _ [] ((fun r => map (fun j => sum_over p (fun k => nth k r 0 * entry q B k j)) (seq 0 q)) [])) by (rewrite map_length; auto). rewrite (map_nth (fun r => map (fun j => sum_over p (fun k => nth k r 0 * entry q B k j)) (seq 0 q))). apply nth_map_seq; auto.
Qed.
Lemma transpose_rows : forall p X, Forall (fun r => length r = length X) (transpose p X).
Proof. intros. apply Forall_forall. intros r Hr. unfold transpose in Hr. apply in_map_iff in Hr. destruct Hr as (? & <- & _). apply map_length. Qed.
Lemma nth_transpose : forall p X k i, (k < p)%nat -> (i < length X)%nat -> nth i (nth k (transpose p X) []) 0 = nth k (nth i X []) 0.
Proof.
  intros p X k i Hk Hi. unfold transpose. rewrite (nth_indep _ [] ((fun j => map (fun r => nth j r 0) X) 0%nat)) by (rewrite map_length, seq_length; auto). rewrite (map_nth (fun j => map (fun r => nth j r 0) X)), seq_nth by auto. cbn [Nat.add].
  rewrite (nth_indep _ 0 ((fun r : vec => nth k r 0) [])) by (rewrite map_length; auto). rewrite (map_nth (fun r : vec => nth k r 0)). auto.
Qed.
Lemma transpose_length : forall p X, length (transpose p X) = p.
Proof. intros. unfold transpose. rewrite map_length, seq_length. auto. Qed.
Lemma left_tmul_eq : forall X p q U, length U = (length X * q)%nat -> left_tmul X p q U = concat (mat_times (transpose p X) (length X) q U).
Proof. intros X p q U LU. unfold left_tmul, mat_times. f_equal. apply map_ext_in. intros r Hr. assert (F := transpose_rows p X). rewrite Forall_forall in F. apply row_times; auto. Qed.
Lemma left_tmul_length : forall X p q U, length U = (length X * q)%nat -> length (left_tmul X p q U) = (p * q)%nat.
Proof. intros. rewrite left_tmul_eq, mat_times_length, transpose_length by auto. auto. Qed.
Lemma dot_entries : forall n q x y, length x = (n * q)%nat -> length y = (n * q)%nat -> dot x y = sum_over n (fun i => sum_over q (fun j => entry q x i j * entry q y i j)).
Proof.
  intros n q x y Lx Ly. rewrite (dot_rows n q) by auto. apply sum_over_ext. intros i Hi. rewrite (dot_index q) by (apply nth_rows_length; auto). apply sum_over_ext. intros j Hj. rewrite !nth_entry by auto. auto.
Qed.
Theorem left_adjoint : forall X p q B U, length B = (p * q)%nat -> length U = (length X * q)%nat -> dot (concat (mat_times X p q B)) U = dot B (left_tmul X p q U).
Proof.
  intros X p q B U LB LU. rewrite (dot_entries (length X) q) by (auto; apply mat_times_length). rewrite (dot_entries p q) by (auto; apply left_tmul_length; auto).
  transitivity (sum_over (length X) (fun i => sum_over q (fun j => sum_over p (fun k => nth k (nth i X []) 0 * entry q B k j * entry q U i j)))).
  { apply sum_over_ext. intros i Hi. apply sum_over_ext. intros j Hj. rewrite mat_times_entry by auto. rewrite Rmult_comm, <- sum_over_scal. apply sum_over_ext. intros. ring. }
  transitivity (sum_over p (fun k => sum_over q (fun j => sum_over (length X) (fun i => nth k (nth i X []) 0 * entry q B k j * entry q U i j)))).
  { rewrite sum_over_swap. etransitivity; [apply sum_over_ext; intros j Hj; apply sum_over_swap|]. apply sum_over_swap. }
  apply sum_over_ext. intros k Hk. apply sum_over_ext. intros j Hj. rewrite left_tmul_eq by auto. rewrite mat_times_entry by (rewrite ?transpose_length; auto). rewrite <- sum_over_scal. apply sum_over_ext. intros i Hi. rewrite nth_transpose by auto. ring.
Qed.
Lemma mat_times_line : forall X p q x d t, length x = (p * q)%nat -> length d = (p * q)%nat -> concat (mat_times X p q (vadd x (vscal t d))) = vadd (concat (mat_times X p q x)) (vscal t (concat (mat_times X p q d))).
Proof.
  intros X p q x d t Lx Ld. set (n := length X). assert (L1 := mat_times_length X p q x). assert (L2 := mat_times_length X p q d). assert (L3 := mat_times_length X p q (vadd x (vscal t d))).
  rewrite <- (concat_rows n q (concat (mat_times X p q (vadd x (vscal t d))))) by auto. rewrite <- (concat_rows n q (vadd _ (vscal t (concat (mat_times X p q d))))) by (unfold vadd, vscal; rewrite (zl _ _ _ (n * q)); rewrite ?map_length; auto). f_equal.
  apply (nth_ext _ _ [] []); [rewrite !rows_length; auto|]. intros i Hi. rewrite rows_length in Hi. rewrite !rows_entry by (auto; unfold vadd, vscal; rewrite (zl _ _ _ (n * q)); rewrite ?map_length; auto). apply map_ext_in. intros j Hj. apply in_seq in Hj. destruct Hj as [_ Hj]. cbn in Hj.
  rewrite mat_times_entry by auto. unfold entry at 2. unfold vadd at 2, vscal at 2. assert (Hk := entry_lt n q i j Hi Hj). rewrite (nth_zip0 _ _ _ (n * q)), nth_map0 by (rewrite ?map_length; auto; rewrite L2; exact Hk).
  change (nth (i * q + j) (concat (mat_times X p q x)) 0) with (entry q (concat (mat_times X p q x)) i j). change (nth (i * q + j) (concat (mat_times X p q d)) 0) with (entry q (concat (mat_times X p q d)) i j). rewrite !mat_times_entry by auto.
  rewrite <- sum_over_scal, <- sum_over_plus. apply sum_over_ext. intros k Hkk. unfold entry, vadd, vscal. assert (Hp := entry_lt p q k j Hkk Hj). rewrite (nth_zip0 _ _ _ (p * q)), nth_map0 by (rewrite ?map_length; auto; lia). ring.
Qed.
Theorem mglm_chain : forall X p q off f B g, off_fits (p * q) off -> length B = (p * q)%nat -> is_gradient (length X * q) f (concat (mat_times X p q (minus B off))) g ->
  is_gradient (p * q) (fun B => f (concat (mat_times X p q (minus B off)))) B (left_tmul X p q g).
Proof.
  intros X p q off f B g O LB [Lg G]. apply (gradient_minus (p * q) (fun z => f (concat (mat_times X p q z)))); auto. split; [apply left_tmul_length; auto|]. intros d Ld. assert (Lm := minus_length B off (p * q) LB O).
  apply (derive_ext (fun t => f (vadd (concat (mat_times X p q (minus B off))) (vscal t (concat (mat_times X p q d)))))); [intros t; rewrite mat_times_line; auto|]. rewrite dot_comm, <- left_adjoint, dot_comm by auto. apply G. apply mat_times_length.
Qed.

(** ** A multiresponse model in good order *)
Lemma mglm_predictor : forall h g B, mglm_shapes h g -> length B = (mg_p g * sat_cols (mg_sat g))%nat -> left_mul (mg_X g) (mg_p g) (sat_cols (mg_sat g)) (sub_offset (mg_offset g) B) = mglm_pred g B /\ length (mglm_pred g B) = (length (mg_X g) * sat_cols (mg_sat g))%nat.
Proof. intros h g B (F & _ & O & _ & _) LB. split; [apply left_mul_eq; auto; apply (minus_length B (mg_offset g)); auto|apply mat_times_length]. Qed.
(** multinomial: nothing in the store changes *)
Theorem mglm_multi_works : forall h g l B m, mglm_shapes h g -> mg_sat g = Multi l -> multi_fits (m_base l) (m_rows l) (m_cols l) (m_counts l) (m_offset l) (read h (mg_cw g)) -> length B = (mg_p g * m_cols l)%nat -> is_eval m ->
  exists f u, mglm_eval h g B m = (h, Ok (both m f u)) /\
    f = multi_func (m_base l) (m_rows l) (m_cols l) (m_counts l) (m_coef l) (m_offset l) (read h (mg_cw g)) (mglm_pred g B) /\
    (within 50 (minus (mglm_pred g B) (m_offset l)) -> f = m_coef l * neg_log_lik (m_counts l) (read h (mg_cw g)) (all_predictors (m_base l) (rows (m_rows l) (m_cols l) (minus (mglm_pred g B) (m_offset l))))) /\
    (inside 50 (minus (mglm_pred g B) (m_offset l)) ->
     is_gradient (mg_p g * m_cols l) (fun B => multi_func (m_base l) (m_rows l) (m_cols l) (m_counts l) (m_coef l) (m_offset l) (read h (mg_cw g)) (mglm_pred g B)) B u).
Proof.
  intros h g l B m S El H LB Em. assert (Q : sat_cols (mg_sat g) = m_cols l) by (rewrite El; auto). assert (LB' : length B = (mg_p g * sat_cols (mg_sat g))%nat) by (rewrite Q; auto). destruct (mglm_predictor h g B S LB') as [E1 L1]. destruct S as (F & Sr & O & Hc & Lc). rewrite El in Sr. cbn in Sr. rewrite Q in *.
  eexists. exists (left_tmul (mg_X g) (mg_p g) (m_cols l) (multi_grad (m_base l) (m_rows l) (m_cols l) (m_counts l) (m_coef l) (m_offset l) (read h (mg_cw g)) (mglm_pred g B))).
  split; [|split; [reflexivity|split]].
  - unfold mglm_eval. rewrite Q, E1, El. unfold sat_eval, multi_eval, multi_value. destruct m; try contradiction; reflexivity.
  - intros W. apply multi_value_eq; auto. rewrite L1, Sr. auto.
  - intros I. unfold mglm_pred at 1. rewrite Q. apply (mglm_chain (mg_X g) (mg_p g) (m_cols l) (mg_offset g)); auto. unfold mglm_pred in *. rewrite Q in *. rewrite <- Sr at 1. apply multi_gradient; auto. rewrite L1, Sr. auto.
Qed.
(** a stack: the array of weights of the model is multiplied by the weights of the stack *)
Theorem mglm_stack_works : forall h g s n B m, mglm_shapes h g -> mg_sat g = Stack s -> stack_ok h s n -> mg_cw g <> s_buf s -> length B = (mg_p g * s_cols s)%nat -> is_eval m ->
  let cw := vmul (read h (mg_cw g)) (stack_weights h s n) in
  exists h' f u, mglm_eval h g B m = (h', Ok (both m f u)) /\ mglm_shapes h' g /\ stack_ok h' s n /\ read h' (mg_cw g) = cw /\ (forall r, (r < length h)%nat -> r <> s_buf s -> r <> mg_cw g -> read h' r = read h r) /\
    (m <> EvGrad -> f = stack_value n (s_losses s) (s_coef s) cw (minus (mglm_pred g B) (s_offset s))) /\
    (m <> EvFunc -> stack_regular n (s_losses s) (minus (mglm_pred g B) (s_offset s)) -> is_gradient (mg_p g * s_cols s) (fun B => stack_value n (s_losses s) (s_coef s) cw (minus (mglm_pred g B) (s_offset s))) B u).
Proof.
  intros h g s n B m S El K Nb LB Em cw. assert (Q : sat_cols (mg_sat g) = s_cols s) by (rewrite El; auto). assert (LB' : length B = (mg_p g * sat_cols (mg_sat g))%nat) by (rewrite Q; auto). destruct (mglm_predictor h g B S LB') as [E1 L1]. assert (S0 := S). destruct S as (F & Sr & O & Hc & Lc). rewrite El in Sr. cbn in Sr. rewrite Q in *.
  assert (K0 := K). destruct K as (Hne & Hs & Hf & Os & Hb & Lb & Hw). rewrite (s_rows_eq s n) in Sr by auto.
  assert (Ha : arg_ok h s n (Some (mg_cw g))) by (intros r X; injection X as <-; rewrite Sr; auto).
  destruct (stacked_works h s n (Some (mg_cw g)) (mglm_pred g B) m K0 Ha) as (h' & v & E & Fr & L & K' & Rc & Vf & Vg & I1 & I2 & I3); [rewrite L1, Sr; auto|auto|]. cbn [arg_weights] in *. fold cw in Rc, Vf, Vg.
  assert (Rcw := Rc (mg_cw g) eq_refl). assert (Lcw : length cw = n). { unfold cw, vmul. apply zl; [rewrite Sr; auto|]. unfold stack_weights. destruct (s_cw s) as [w|] eqn:Ew; [apply (Hw w eq_refl)|apply ones_length]. }
  assert (S' : mglm_shapes h' g). { split; [auto|]. split; [rewrite El; cbn; rewrite (s_rows_eq s n); auto|]. split; [rewrite Q; auto|]. split; [lia|]. rewrite Rcw. lia. }
  assert (G : forall r, v = RGrad r \/ (exists f, v = RBoth f r) -> stack_regular n (s_losses s) (minus (mglm_pred g B) (s_offset s)) -> is_gradient (mg_p g * s_cols s) (fun B => stack_value n (s_losses s) (s_coef s) cw (minus (mglm_pred g B) (s_offset s))) B (left_tmul (mg_X g) (mg_p g) (s_cols s) (read h' r))).
  { intros r Hv Rg. destruct (Vg r Hv) as (_ & IG & _). unfold mglm_pred. rewrite Q. apply (mglm_chain (mg_X g) (mg_p g) (s_cols s) (mg_offset g) (fun z => stack_value n (s_losses s) (s_coef s) cw (minus z (s_offset s)))); auto. unfold mglm_pred in *. rewrite Q in *. rewrite <- Sr. apply stack_gradient; auto. rewrite Sr. auto. }
  assert (Ev : mglm_eval h g B m = (h', rbind (Ok v) (fun v => match v with RFunc f => Ok (VFunc f) | RGrad r => Ok (VGrad (left_tmul (mg_X g) (mg_p g) (s_cols s) (read h' r))) | RBoth f r => Ok (VBoth f (left_tmul (mg_X g) (mg_p g) (s_cols s) (read h' r))) end))).
  { unfold mglm_eval. rewrite Q, E1, El. unfold sat_eval. rewrite E. destruct v; reflexivity. }
  exists h'. destruct m; try contradiction.
  - destruct (proj1 I1 eq_refl) as [f ->]. exists f, []. split; [exact Ev|]. split; auto. split; auto. split; auto. split; [intros r Hr N1 N2; apply Fr; auto; congruence|]. split; [intros _; apply Vf; auto|contradiction].
  - destruct (proj1 I2 eq_refl) as [r ->]. exists 0. eexists. split; [exact Ev|]. split; auto. split; auto. split; auto. split; [intros r' Hr N1 N2; apply Fr; auto; congruence|]. split; [contradiction|intros _; apply G; auto].
  - destruct (proj1 I3 eq_refl) as (f & r & ->). exists f. eexists. split; [exact Ev|]. split; auto. split; auto. split; auto. split; [intros r' Hr N1 N2; apply Fr; auto; congruence|]. split; [intros _; apply Vf; eauto|intros _; apply G; eauto].
Qed.
(** ** Subsamples of multiresponse models *)
Theorem mglm_multi_subsample : forall h g l idx, mglm_shapes h g -> mg_sat g = Multi l -> Forall (fun i => (i < length (mg_X g))%nat) idx ->
  exists h' g', subsample_mglm h g idx = (h', Ok g') /\ (forall r, (r < length h)%nat -> read h' r = read h r) /\ mglm_shapes h' g' /\ mg_sat g' = mg_sat g /\ mg_X g' = mg_X g /\ mg_p g' = mg_p g /\ mg_offset g' = mg_offset g /\
    read h' (mg_cw g') = restrict idx (read h (mg_cw g)).
Proof.
  intros h g l idx (F & Sr & O & Hc & Lc) El Fi. unfold subsample_mglm, copy_mglm. assert (Ix : forallb (fun i => Nat.ltb i (sat_rows (mg_sat g))) idx = true) by (apply forallb_forall; intros i Hi; apply Nat.ltb_lt; rewrite Forall_forall in Fi; rewrite Sr; auto). rewrite Ix.
  cbn [negb]. rewrite Sr. rewrite El in *. eexists. eexists. split; [reflexivity|]. cbn [mg_cw mg_sat mg_X mg_p mg_offset]. split; [intros r Hr; rewrite read_write_other by lia; apply read_app; auto|].
  assert (E : read (write (h ++ [read h (mg_cw g)]) (length h) (vmul (read (h ++ [read h (mg_cw g)]) (length h)) (indicator (length (mg_X g)) idx))) (length h) = restrict idx (read h (mg_cw g))).
  { rewrite read_write_same by (rewrite app_length; cbn; lia). rewrite read_new. apply ind_n. auto. }
  split; [|split; [auto|split; [auto|split; [auto|split; [auto|exact E]]]]]. unfold mglm_shapes. cbn [mg_cw mg_sat mg_X mg_p mg_offset]. split; [auto|]. split; [auto|]. split; [auto|]. split; [rewrite write_length, app_length; cbn; lia|]. rewrite E, restrict_length. auto.
Qed.
Theorem mglm_stack_subsample : forall h g s n idx, mglm_shapes h g -> mg_sat g = Stack s -> stack_ok h s n -> stack_sane h s n -> Forall (fun i => (i < n)%nat) idx ->
  exists h' g' s', subsample_mglm h g idx = (h', Ok g') /\ (forall r, (r < length h)%nat -> read h' r = read h r) /\ mglm_shapes h' g' /\ mg_sat g' = Stack s' /\ stack_ok h' s' n /\ mg_cw g' <> s_buf s' /\
    s_losses s' = s_losses s /\ s_coef s' = s_coef s /\ s_offset s' = s_offset s /\ mg_X g' = mg_X g /\ mg_p g' = mg_p g /\ mg_offset g' = mg_offset g /\
    read h' (mg_cw g') = restrict idx (read h (mg_cw g)) /\ stack_weights h' s' n = stack_weights h s n.
Proof.
  intros h g s n idx (F & Sr & O & Hc & Lc) El K Sn Fi. destruct (copy_stacked_works h s n K Sn) as (h1 & s1 & E & L & R1 & K1 & E1 & E2 & E3 & E4 & E5 & E6 & E7). assert (Sn' : sat_rows (mg_sat g) = n) by (rewrite El; cbn; apply s_rows_eq; destruct K as (A & B & _); auto).
  unfold subsample_mglm, copy_mglm. rewrite El, E. cbn [sat_rows]. rewrite El in Sn'. cbn in Sn'. rewrite Sn'.
  replace (forallb (fun i => Nat.ltb i n) idx) with true by (symmetry; apply forallb_forall; intros i Hi; apply Nat.ltb_lt; rewrite Forall_forall in Fi; auto). cbn [negb].
  assert (Nn : length (mg_X g) = n) by (rewrite <- Sr, El; auto). eexists. eexists. exists s1. split; [reflexivity|]. cbn [mg_cw mg_sat mg_X mg_p mg_offset]. set (h2 := h1 ++ [read h1 (mg_cw g)]).
  assert (Ec : read h2 (length h1) = read h (mg_cw g)) by (unfold h2; rewrite read_new; apply R1; auto).
  assert (E8 : read (write h2 (length h1) (vmul (read h2 (length h1)) (indicator n idx))) (length h1) = restrict idx (read h (mg_cw g))) by (rewrite read_write_same by (unfold h2; rewrite app_length; cbn; lia); rewrite Ec; apply ind_n; lia).
  assert (Rd : forall r, (r < length h1)%nat -> forall v, read (write h2 (length h1) v) r = read h1 r) by (intros r Hr v; rewrite read_write_other by lia; apply read_app; auto).
  destruct K1 as (A1 & A2 & A3 & A4 & A5 & A6 & A7).
  split; [intros r Hr; rewrite Rd by lia; auto|]. split; [|split; [auto|split; [|split; [lia|split; [auto|split; [auto|split; [auto|split; [auto|split; [auto|split; [auto|split; [exact E8|]]]]]]]]]]].
  - unfold mglm_shapes. cbn [mg_cw mg_sat mg_X mg_p mg_offset sat_rows sat_cols]. split; [auto|]. split; [rewrite (s_rows_eq s1 n); auto|]. split; [unfold s_cols; rewrite E1; rewrite El in O; exact O|]. split; [rewrite write_length; unfold h2; rewrite app_length; cbn; lia|]. rewrite E8, restrict_length. lia.
  - split; [auto|]. split; [auto|]. split; [auto|]. split; [auto|]. split; [rewrite write_length; unfold h2; rewrite app_length; lia|]. split; [rewrite Rd by auto; auto|]. intros w Ew. destruct (A7 w Ew) as (W1 & W2 & W3). rewrite Rd by auto. split; [rewrite write_length; unfold h2; rewrite app_length; lia|auto].
  - rewrite <- E4. unfold stack_weights. destruct (s_cw s1) as [w|] eqn:Ew; auto. apply Rd. apply (A7 w eq_refl).
Qed.
(** ** Repeated evaluation of a model over a stack with weights: the weights multiply up *)
Theorem mglm_decays : forall h g s n B, mglm_shapes h g -> mg_sat g = Stack s -> stack_ok h s n -> mg_cw g <> s_buf s -> s_cw s <> Some (mg_cw g) -> length B = (mg_p g * s_cols s)%nat ->
  exists h1 h2, mglm_eval h g B EvFunc = (h1, Ok (VFunc (stack_value n (s_losses s) (s_coef s) (vmul (read h (mg_cw g)) (stack_weights h s n)) (minus (mglm_pred g B) (s_offset s))))) /\
    mglm_eval h1 g B EvFunc = (h2, Ok (VFunc (stack_value n (s_losses s) (s_coef s) (vmul (vmul (read h (mg_cw g)) (stack_weights h s n)) (stack_weights h s n)) (minus (mglm_pred g B) (s_offset s))))).
Proof.
  intros h g s n B S El K Nb Nc LB. destruct (mglm_stack_works h g s n B EvFunc S El K Nb LB I) as (h1 & f & u & E & S1 & K1 & R1 & Fr & V & _). destruct (mglm_stack_works h1 g s n B EvFunc S1 El K1 Nb LB I) as (h2 & f2 & u2 & E2 & _ & _ & _ & _ & V2 & _).
  exists h1, h2. rewrite E, E2. cbn [both]. rewrite (V ltac:(discriminate)), (V2 ltac:(discriminate)), R1. assert (W : stack_weights h1 s n = stack_weights h s n). { unfold stack_weights. destruct K as (_ & _ & _ & _ & _ & _ & Hw). destruct (s_cw s) as [w|] eqn:Ew; auto. destruct (Hw w eq_refl) as (W1 & W2 & _). apply Fr; auto; congruence. }
  rewrite W. auto.
Qed.
(** without weights in the stack, evaluation leaves the model as it was *)
Theorem mglm_history : forall ops h g s n, mglm_shapes h g -> mg_sat g = Stack s -> stack_ok h s n -> mg_cw g <> s_buf s -> s_cw s = None -> Forall (fun o => length (fst o) = (mg_p g * s_cols s)%nat /\ is_eval (snd o)) ops ->
  mglm_shapes (mrun g h ops) g /\ stack_ok (mrun g h ops) s n /\ forall r, (r < length h)%nat -> r <> s_buf s -> read (mrun g h ops) r = read h r.
Proof.
  induction ops as [|[B m] ops IH]; intros h g s n S El K Nb Ec F; [auto|]. destruct (Forall_inv F) as [LB Em]. cbn [fst snd] in LB, Em. destruct (mglm_stack_works h g s n B m S El K Nb LB Em) as (h1 & f & u & E & S1 & K1 & R1 & Fr & _).
  change (mrun g h ((B, m) :: ops)) with (mrun g (fst (mglm_eval h g B m)) ops). rewrite E. cbn [fst]. destruct (IH h1 g s n S1 El K1 Nb Ec (Forall_inv_tail F)) as (A1 & A2 & A3). split; auto. split; auto. intros r Hr Nr.
  assert (L1 : (length h <= length h1)%nat). { destruct S as (Fx & Sr & O & Hc & Lc). revert E. unfold mglm_eval, sat_eval. rewrite El. cbn [sat_cols]. intros E.
    assert (X : (length h <= length (fst (stacked_eval h s (Some (mg_cw g)) (left_mul (mg_X g) (mg_p g) (s_cols s) (sub_offset (mg_offset g) B)) m)))%nat); [|destruct (stacked_eval h s (Some (mg_cw g)) (left_mul (mg_X g) (mg_p g) (s_cols s) (sub_offset (mg_offset g) B)) m) as [h0 v]; cbn in *; injection E as <- _; auto].
    assert (P := mglm_predictor h g B (Logic.conj Fx (Logic.conj Sr (Logic.conj O (Logic.conj Hc Lc)))) ltac:(rewrite El; auto)). rewrite El in P. cbn [sat_cols] in P. destruct P as [P1 P2]. rewrite P1. assert (K0 := K). destruct K as (Hne & Hs & _). rewrite El in Sr. cbn in Sr. rewrite (s_rows_eq s n) in Sr by auto.
    destruct (stacked_works h s n (Some (mg_cw g)) (mglm_pred g B) m K0) as (h2 & v & E2 & _ & L & _); [intros r' Y; injection Y as <-; rewrite Sr; auto|unfold mglm_pred in *; rewrite P2, Sr; auto|auto|]. rewrite E2. auto. }
  rewrite A3 by lia. destruct (Nat.eq_dec r (mg_cw g)) as [->|Ng]; [|apply Fr; auto]. rewrite R1. unfold stack_weights. rewrite Ec. apply vmul_ones_r. destruct S as (_ & Sr & _ & _ & Lc). rewrite Lc, <- Sr, El. cbn. apply s_rows_eq; destruct K as (X1 & X2 & _); auto.
Qed.

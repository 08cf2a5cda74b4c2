(** Stacked losses with a common shape. *)
From Coq Require Import Reals List Lra Lia Arith Bool.
From Verif Require Import M_affine P_affine M_buffer P_buffer M_loss SpecLoss P_loss P_loss2 P_loss4 P_loss5 P_loss6 Vec Spec SpecBlock SpecConvex M_quad P_quad P_calc P_sep P_cv P_block M_mglm SpecMglm P_mglm P_mglm2 P_mglm3.
Import ListNotations.
Local Open Scope R_scope.

(** ** Columns *)
Lemma col_length : forall n q j x, length (col n q j x) = n.
Proof. intros. unfold col. rewrite map_length, seq_length. auto. Qed.
Lemma nth_col : forall n q j x i, (i < n)%nat -> nth i (col n q j x) 0 = entry q x i j.
Proof. intros. unfold col. apply (nth_map_seq (fun i => entry q x i j)). auto. Qed.
Lemma column_col : forall n k j x, length x = (n * k)%nat -> (j < k)%nat -> column n k j x = col n k j x.
Proof.
  intros n k j x L Hj. unfold column. apply (nth_ext _ _ 0 0); [rewrite map_length, rows_length, col_length; auto|]. intros i Hi. rewrite map_length, rows_length in Hi. rewrite nth_col by auto.
  rewrite (nth_indep _ 0 ((fun r : vec => nth j r 0) [])) by (rewrite map_length, rows_length; auto). rewrite (map_nth (fun r : vec => nth j r 0)). apply nth_entry; auto.
Qed.
Lemma put_column_spec : forall n k j x v, length x = (n * k)%nat -> length v = n -> (j < k)%nat -> length (put_column n k j x v) = (n * k)%nat /\ col n k j (put_column n k j x v) = v /\
  forall j', (j' < k)%nat -> j' <> j -> col n k j' (put_column n k j x v) = col n k j' x.
Proof.
  intros n k j x v Lx Lv Hj. set (l := map (fun p : vec * R => set_at j (snd p) (fst p)) (combine (rows n k x) v)). assert (El : put_column n k j x v = concat l) by reflexivity.
  assert (Ll : length l = n) by (unfold l; rewrite map_length, combine_length, rows_length; lia).
  assert (F : Forall (fun p : vec => length p = k) l).
  { apply Forall_forall. intros p Hp. unfold l in Hp. apply in_map_iff in Hp. destruct Hp as ([r b] & <- & Hp). cbn. rewrite set_at_length. apply in_combine_l in Hp. assert (FR := rows_lengths n k x Lx). rewrite Forall_forall in FR. auto. }
  assert (Lp : length (put_column n k j x v) = (n * k)%nat) by (rewrite El, (concat_length k); auto; lia).
  assert (RC : rows n k (put_column n k j x v) = l) by (rewrite El; assert (X := rows_concat k l F); rewrite Ll in X; auto).
  assert (E : forall i, (i < n)%nat -> nth i l [] = set_at j (nth i v 0) (nth i (rows n k x) [])).
  { intros i Hi. unfold l. rewrite (nth_indep _ [] ((fun p : vec * R => set_at j (snd p) (fst p)) ([], 0))) by (rewrite map_length, combine_length, rows_length; lia). rewrite (map_nth (fun p : vec * R => set_at j (snd p) (fst p))). rewrite combine_nth by (rewrite rows_length; auto). auto. }
  split; auto. split.
  - apply (nth_ext _ _ 0 0); [rewrite col_length; auto|]. intros i Hi. rewrite col_length in Hi. rewrite nth_col by auto. rewrite <- (nth_entry n) by auto. rewrite RC, E by auto. apply nth_set_at_same. rewrite nth_rows_length; auto.
  - intros j' Hj' Ne. apply (nth_ext _ _ 0 0); [rewrite !col_length; auto|]. intros i Hi. rewrite col_length in Hi. rewrite !nth_col by auto. rewrite <- !(nth_entry n) by auto. rewrite RC, E by auto. apply nth_set_at_other. auto.
Qed.
Lemma col_map : forall f n q j x, length x = (n * q)%nat -> (j < q)%nat -> col n q j (map f x) = map f (col n q j x).
Proof.
  intros f n q j x L Hj. apply (nth_ext _ _ 0 0); [rewrite map_length, !col_length; auto|]. intros i Hi. rewrite col_length in Hi. rewrite nth_col, nth_map0, nth_col by (rewrite ?col_length; auto). unfold entry. apply nth_map0. rewrite L. apply entry_lt; auto.
Qed.
Lemma col_line : forall n q j x d t, length x = (n * q)%nat -> length d = (n * q)%nat -> (j < q)%nat -> col n q j (vadd x (vscal t d)) = vadd (col n q j x) (vscal t (col n q j d)).
Proof.
  intros n q j x d t Lx Ld Hj. apply (nth_ext _ _ 0 0); [rewrite col_length; vlen; rewrite !col_length; auto|]. intros i Hi. rewrite col_length in Hi. rewrite nth_col by auto. unfold vadd at 2, vscal at 2. rewrite (nth_zip0 _ _ _ n), nth_map0, !nth_col by (rewrite ?map_length, ?col_length; auto).
  unfold entry, vadd, vscal. assert (Hk := entry_lt n q i j Hi Hj). rewrite (nth_zip0 _ _ _ (n * q)), nth_map0 by (rewrite ?map_length; lia). auto.
Qed.
Lemma dot_cols : forall n q x y, length x = (n * q)%nat -> length y = (n * q)%nat -> dot x y = sum_over q (fun j => dot (col n q j x) (col n q j y)).
Proof.
  intros n q x y Lx Ly. rewrite (dot_rows n q) by auto. etransitivity; [apply sum_over_ext; intros i Hi; apply (dot_index q); apply nth_rows_length; auto|]. rewrite sum_over_swap. apply sum_over_ext. intros j Hj. rewrite (dot_index n) by apply col_length. apply sum_over_ext. intros i Hi. rewrite !nth_entry, !nth_col by auto. auto.
Qed.

(** ** The loop when no loss has weights of its own *)
Definition col_func (n k : nat) (cw z : vec) (p : nat * loss) : R := loss_func (l_fam (snd p)) (l_coef (snd p)) (l_offset (snd p)) cw (col n k (fst p) z).
Definition has_func (m : smode_arg) : bool := match m with EvFunc | EvBoth => true | _ => false end.
Definition has_grad (m : smode_arg) : bool := match m with EvGrad | EvBoth => true | _ => false end.
Lemma stack_loop_free : forall n k buf c x m cw rest i v h, is_eval m -> Forall (free_loss n) rest -> (i + length rest = k)%nat -> read h c = cw -> length cw = n -> c <> buf -> (buf < length h)%nat -> length (read h buf) = (n * k)%nat -> length x = (n * k)%nat ->
  exists h', stack_loop n k i rest buf c x m v h = (h', Ok (if has_func m then v + vsum (map (col_func n k cw x) (combine (seq i (length rest)) rest)) else v)) /\
    length h' = length h /\ (forall r, r <> buf -> read h' r = read h r) /\ length (read h' buf) = (n * k)%nat /\ (has_grad m = false -> h' = h) /\
    (forall j, (j < i)%nat -> col n k j (read h' buf) = col n k j (read h buf)) /\
    (has_grad m = true -> forall j l, nth_error rest j = Some l -> col n k (i + j) (read h' buf) = loss_grad (l_fam l) (l_coef l) (l_offset l) cw (col n k (i + j) x)).
Proof.
  intros n k buf c x m cw. induction rest as [|l rest IH]; intros i v h Em F Ek Ec Lc Nc Hb Lb Lx.
  - cbn [stack_loop length seq combine map]. exists h. split; [f_equal; f_equal; destruct (has_func m); auto; unfold vsum; cbn; ring|]. split; auto. split; auto. split; auto. split; auto. split; auto. intros _ j l E. destruct j; discriminate.
  - destruct (Forall_inv F) as (Ew & Ft & O). cbn [length] in Ek. cbn [stack_loop]. unfold loss_eval. rewrite weigh_none by auto. rewrite Ec, (column_col n k) by (auto; lia).
    assert (Lg : length (loss_grad (l_fam l) (l_coef l) (l_offset l) cw (col n k i x)) = n) by (apply (proj1 (loss_grad_cases (l_fam l) n (l_coef l) (l_offset l) cw (col n k i x) Ft O Lc (col_length n k i x)))).
    destruct (put_column_spec n k i (read h buf) _ Lb Lg ltac:(lia)) as (P1 & P2 & P3).
    set (h1 := if has_grad m then write h buf (put_column n k i (read h buf) (loss_grad (l_fam l) (l_coef l) (l_offset l) cw (col n k i x))) else h).
    set (v1 := if has_func m then v + loss_func (l_fam l) (l_coef l) (l_offset l) cw (col n k i x) else v).
    assert (L1 : length h1 = length h) by (unfold h1; destruct (has_grad m); [apply write_length|auto]).
    assert (R1 : forall r, r <> buf -> read h1 r = read h r) by (intros r Hr; unfold h1; destruct (has_grad m); [apply read_write_other; auto|auto]).
    assert (B1 : length (read h1 buf) = (n * k)%nat) by (unfold h1; destruct (has_grad m); [rewrite read_write_same; auto|auto]).
    destruct (IH (S i) v1 h1) as (h' & E & Q1 & Q2 & Q3 & Q4 & Q5 & Q6); auto; try lia; [exact (Forall_inv_tail F)|rewrite R1; auto|].
    exists h'. split; [|split; [congruence|split; [intros r Hr; rewrite Q2; auto|split; [auto|split; [|split]]]]].
    + transitivity (stack_loop n k (S i) rest buf c x m v1 h1); [unfold h1, v1; destruct m; cbn [smooth_value has_grad has_func]; try contradiction; auto|]. rewrite E. unfold v1. f_equal. f_equal. cbn [length seq combine map]. destruct (has_func m); auto. rewrite vsum_cons. unfold col_func at 2. cbn [fst snd]. ring.
    + intros Hg. rewrite (Q4 Hg). unfold h1. rewrite Hg. auto.
    + intros j Hj. rewrite Q5 by lia. unfold h1. destruct (has_grad m); auto. rewrite read_write_same by auto. apply P3; lia.
    + intros Hg [|j] l' El.
      * injection El as <-. rewrite Nat.add_0_r. rewrite Q5 by lia. unfold h1. rewrite Hg. rewrite read_write_same by auto. auto.
      * replace (i + S j)%nat with (S i + j)%nat by lia. apply Q6; auto.
Qed.

(** A stack in good order: common shape, its arrays its own, no weights in the losses. [c]: the weights argument *)
Lemma vmul_ones_r : forall n v, length v = n -> vmul v (ones n) = v.
Proof. intros n v L. apply (nth_ext _ _ 0 0); [unfold vmul; rewrite (zl _ _ _ n); auto; apply ones_length|]. intros i Hi. assert (Hn : (i < n)%nat) by (unfold vmul in Hi; rewrite (zl _ _ _ n) in Hi; auto; apply ones_length). unfold vmul. rewrite (nth_zip0 _ _ _ n), nth_ones by (auto; apply ones_length). ring. Qed.
Lemma s_rows_eq : forall s n, s_losses s <> [] -> Forall (fun l => l_shape l = n) (s_losses s) -> s_rows s = n.
Proof. intros s n N F. unfold s_rows. destruct (s_losses s); [congruence|exact (Forall_inv F)]. Qed.
Theorem stacked_works : forall h s n arg x m, stack_ok h s n -> arg_ok h s n arg -> length x = (n * s_cols s)%nat -> is_eval m ->
  let cw := vmul (arg_weights h n arg) (stack_weights h s n) in
  exists h' v, stacked_eval h s arg x m = (h', Ok v) /\
    (forall r, (r < length h)%nat -> r <> s_buf s -> arg <> Some r -> read h' r = read h r) /\ (length h <= length h')%nat /\ stack_ok h' s n /\
    (forall r, arg = Some r -> read h' r = cw) /\
    (forall f, v = RFunc f \/ (exists g, v = RBoth f g) -> f = stack_value n (s_losses s) (s_coef s) cw (minus x (s_offset s))) /\
    (forall g, v = RGrad g \/ (exists f, v = RBoth f g) -> (g < length h')%nat /\ is_stack_grad n (s_losses s) (s_coef s) cw (minus x (s_offset s)) (read h' g) /\
       (s_coef s = 1 -> g = s_buf s) /\ (s_coef s <> 1 -> (length h <= g)%nat /\ arg <> Some g)) /\
    (m = EvFunc <-> exists f, v = RFunc f) /\ (m = EvGrad <-> exists g, v = RGrad g) /\ (m = EvBoth <-> exists f g, v = RBoth f g).
Proof.
  intros h s n arg x m (Hne & Hs & Hf & O & Hb & Lb & Hw) Ha Lx Em cw. unfold stacked_eval. rewrite (s_rows_eq s n) by auto. set (k := s_cols s) in *.
  set (h0 := match arg with Some r => h | None => h ++ [ones n] end). set (c := match arg with Some r => r | None => length h end).
  assert (E0 : match arg with Some r => (h, r) | None => (h ++ [ones n], length h) end = (h0, c)) by (unfold h0, c; destruct arg; auto). rewrite E0.
  assert (L0 : (length h <= length h0)%nat) by (unfold h0; destruct arg; auto; rewrite app_length; cbn; lia).
  assert (R0 : forall r, (r < length h)%nat -> read h0 r = read h r) by (intros r Hr; unfold h0; destruct arg; auto; apply read_app; auto).
  assert (C0 : (c < length h0)%nat) by (unfold c, h0; destruct arg as [r|]; [apply (Ha r eq_refl)|rewrite app_length; cbn; lia]).
  assert (Rc : read h0 c = arg_weights h n arg) by (unfold h0, c; destruct arg; auto; apply read_new).
  assert (Nc : c <> s_buf s) by (unfold c; destruct arg as [r|]; [apply (Ha r eq_refl)|lia]).
  assert (La : length (arg_weights h n arg) = n) by (unfold arg_weights; destruct arg as [r|]; [apply (Ha r eq_refl)|apply ones_length]).
  assert (Lsw : length (stack_weights h s n) = n) by (unfold stack_weights; destruct (s_cw s) as [w|] eqn:E; [apply (Hw w eq_refl)|apply ones_length]).
  assert (Lcw : length cw = n) by (unfold cw, vmul; apply zl; auto).
  set (h1 := match s_cw s with Some w => write h0 c (vmul (read h0 c) (read h0 w)) | None => h0 end).
  assert (Rcw : read h1 c = cw).
  { unfold h1, cw, stack_weights. destruct (s_cw s) as [w|] eqn:E; [rewrite read_write_same, Rc, R0 by (auto; apply (Hw w eq_refl)); auto|]. rewrite Rc, vmul_ones_r; auto. }
  assert (L1 : length h1 = length h0) by (unfold h1; destruct (s_cw s); auto; apply write_length).
  assert (R1 : forall r, r <> c -> read h1 r = read h0 r) by (intros r Hr; unfold h1; destruct (s_cw s); auto; apply read_write_other; auto).
  set (z := sub_offset (s_offset s) x). assert (Lz : length z = (n * k)%nat) by (apply (minus_length x (s_offset s)); auto).
  destruct (stack_loop_free n k (s_buf s) c z m cw (s_losses s) 0 0 h1) as (h2 & E & Q1 & Q2 & Q3 & Q4 & Q5 & Q6); auto; try lia.
  { rewrite R1, R0 by auto. auto. }
  rewrite E. set (vv := if has_func m then 0 + vsum (map (col_func n k cw z) (combine (seq 0 (length (s_losses s))) (s_losses s))) else 0).
  set (h3 := if has_grad m then fst (scale_ref h2 (s_coef s) (s_buf s)) else h2). set (g := snd (scale_ref h2 (s_coef s) (s_buf s))).
  assert (L3 : (length h2 <= length h3)%nat) by (unfold h3, scale_ref; destruct (has_grad m); auto; destruct (Req_EM_T (s_coef s) 1); cbn; auto; rewrite app_length; lia).
  assert (R3 : forall r, (r < length h2)%nat -> read h3 r = read h2 r) by (intros r Hr; unfold h3, scale_ref; destruct (has_grad m); auto; destruct (Req_EM_T (s_coef s) 1); cbn; auto; apply read_app; auto).
  assert (Vv : has_func m = true -> scale (s_coef s) vv = stack_value n (s_losses s) (s_coef s) cw (minus x (s_offset s))) by (intros Hm; rewrite scale_eq; unfold vv; rewrite Hm, Rplus_0_l; reflexivity).
  assert (G : has_grad m = true -> (g < length h3)%nat /\ is_stack_grad n (s_losses s) (s_coef s) cw (minus x (s_offset s)) (read h3 g) /\ (s_coef s = 1 -> g = s_buf s) /\ (s_coef s <> 1 -> (length h <= g)%nat /\ arg <> Some g)).
  { intros Hm. specialize (Q6 Hm). unfold g, h3, scale_ref. rewrite Hm. assert (Jk : forall j l, nth_error (s_losses s) j = Some l -> (j < k)%nat) by (intros j l El; apply nth_error_Some; congruence).
    destruct (Req_EM_T (s_coef s) 1) as [E1|E1]; cbn [fst snd].
    - split; [lia|]. split; [|split; auto; contradiction]. split; [exact Q3|]. intros j l El. rewrite E1. specialize (Q6 j l El). cbn [Nat.add] in Q6. etransitivity; [exact Q6|]. symmetry. apply vscal_1.
    - rewrite read_new, app_length. split; [cbn; lia|]. split; [|split; [contradiction|intros _; split; [lia|]]].
      + split; [rewrite map_length; exact Q3|]. intros j l El. rewrite col_map by (auto; apply (Jk j l El)). specialize (Q6 j l El). cbn [Nat.add] in Q6. change (length (s_losses s)) with k. rewrite Q6. unfold vscal. apply map_ext. intros; ring.
      + intros Ea. destruct (Ha (length h2) Ea) as (X & _ & _). lia. }
  exists h3. exists (match m with EvFunc => RFunc (scale (s_coef s) vv) | EvGrad => RGrad g | _ => RBoth (scale (s_coef s) vv) g end).
  split; [|split; [|split; [|split; [|split; [|split; [|split; [|split; [|split]]]]]]]].
  - unfold h3, g. destruct m; cbn [has_grad]; try contradiction; auto; destruct (scale_ref h2 (s_coef s) (s_buf s)); auto.
  - intros r Hr Nb Na. assert (Nrc : r <> c) by (unfold c; destruct arg as [r0|]; [intros ->; apply Na; auto|lia]). rewrite R3, Q2, R1, R0 by (auto; lia). auto.
  - lia.
  - split; [auto|]. split; [auto|]. split; [auto|]. split; [auto|]. split; [lia|]. split; [rewrite R3 by lia; auto|]. intros w Ew. destruct (Hw w Ew) as (W1 & W2 & W3). split; [lia|]. split; [auto|]. destruct (Nat.eq_dec w c) as [->|Nw].
    + rewrite R3, Q2, Rcw by (auto; lia). auto.
    + rewrite R3, Q2, R1, R0 by (auto; lia). auto.
  - intros r Er. assert (Ec : r = c) by (unfold c; rewrite Er; auto). subst r. rewrite R3, Q2 by (auto; lia). auto.
  - intros f Hv. destruct m; try contradiction; destruct Hv as [Hv|[g' Hv]]; try discriminate; injection Hv as <-; auto.
  - intros g' Hv. destruct m; try contradiction; destruct Hv as [Hv|[f' Hv]]; try discriminate.
    + injection Hv as <-. apply G. auto.
    + injection Hv as _ <-. apply G. auto.
  - destruct m; try contradiction; split; intros H; try discriminate; eauto; destruct H; discriminate.
  - destruct m; try contradiction; split; intros H; try discriminate; eauto; destruct H; discriminate.
  - destruct m; try contradiction; split; intros H; try discriminate; eauto; destruct H as (? & ? & ?); discriminate.
Qed.

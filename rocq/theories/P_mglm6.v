(** Losses with weights of their own in a stack; losses one after the other along one axis. *)
From Coq Require Import Reals List Lra Lia Arith Bool.
From Verif Require Import M_affine P_affine M_buffer P_buffer M_loss SpecLoss P_loss P_loss2 P_loss4 P_loss5 P_loss6 Vec Spec SpecBlock SpecConvex M_quad P_quad P_calc P_sep P_cv P_block M_mglm SpecMglm P_mglm P_mglm2 P_mglm3 P_mglm4 P_mglm5.
Import ListNotations.
Local Open Scope R_scope.

(** ** Weights of the losses of a stack compound: loss j is evaluated with the product of the weights of losses 0 to j *)
Lemma stack_loop_own : forall n k buf c x W rest i v h cw, (forall l, In l rest -> fits (l_fam l) n /\ off_fits n (l_offset l) /\ length (W l) = n /\ (forall w, l_cw l = Some w -> w <> c /\ read h w = W l) /\ (l_cw l = None -> W l = ones n)) ->
  (i + length rest = k)%nat -> read h c = cw -> length cw = n -> (c < length h)%nat -> length x = (n * k)%nat ->
  exists h', stack_loop n k i rest buf c x EvFunc v h = (h', Ok (v + compound n k W i rest cw x)).
Proof.
  intros n k buf c x W. induction rest as [|l rest IH]; intros i v h cw F Ek Ec Lc Hc Lx.
  - exists h. cbn. rewrite Rplus_0_r. auto.
  - cbn [length] in Ek. cbn [stack_loop compound]. destruct (F l (or_introl eq_refl)) as (Ft & O & Lw & Hw & Hn). rewrite (column_col n k) by (auto; lia). unfold loss_eval, weigh.
    set (h1 := match l_cw l with Some w => write h c (vmul (read h c) (read h w)) | None => h end). assert (E1 : read h1 c = vmul cw (W l)).
    { unfold h1. destruct (l_cw l) as [w|] eqn:E; [rewrite read_write_same, Ec by auto; f_equal; apply (Hw w eq_refl)|]. rewrite (Hn eq_refl), Ec. symmetry. apply vmul_ones_r; auto. }
    cbn [fst snd smooth_value]. rewrite E1. destruct (IH (S i) (v + loss_func (l_fam l) (l_coef l) (l_offset l) (vmul cw (W l)) (col n k i x)) h1 (vmul cw (W l))) as [h' E]; auto; try lia.
    + intros l' Hl'. destruct (F l' (or_intror Hl')) as (A & B & C & D & G). split; auto. split; auto. split; auto. split; auto. intros w Ew. destruct (D w Ew) as [D1 D2]. split; auto. rewrite <- D2. unfold h1. destruct (l_cw l); auto. apply read_write_other; auto.
    + unfold vmul. rewrite (zl _ _ _ n); auto.
    + unfold h1. destruct (l_cw l); rewrite ?write_length; auto.
    + exists h'. rewrite E. f_equal. f_equal. ring.
Qed.
Theorem stack_compounds : forall h s n W x, s_losses s <> [] -> Forall (fun l => l_shape l = n) (s_losses s) -> s_cw s = None -> off_fits (n * s_cols s) (s_offset s) -> length x = (n * s_cols s)%nat ->
  (forall l, In l (s_losses s) -> fits (l_fam l) n /\ off_fits n (l_offset l) /\ length (W l) = n /\ (forall w, l_cw l = Some w -> (w < length h)%nat /\ read h w = W l) /\ (l_cw l = None -> W l = ones n)) ->
  exists h', stacked_eval h s None x EvFunc = (h', Ok (RFunc (s_coef s * compound n (s_cols s) W 0 (s_losses s) (ones n) (minus x (s_offset s))))).
Proof.
  intros h s n W x Hne Hs Ecw O Lx F. unfold stacked_eval. rewrite (s_rows_eq s n), Ecw by auto. destruct (stack_loop_own n (s_cols s) (s_buf s) (length h) (sub_offset (s_offset s) x) W (s_losses s) 0 0 (h ++ [ones n]) (ones n)) as [h' E].
  - intros l Hl. destruct (F l Hl) as (A & B & C & D & G). split; auto. split; auto. split; auto. split; auto. intros w Ew. destruct (D w Ew) as [D1 D2]. split; [lia|]. rewrite read_app by auto. auto.
  - auto.
  - apply read_new.
  - apply ones_length.
  - rewrite app_length. cbn. lia.
  - apply (minus_length x (s_offset s)); auto.
  - rewrite E. exists h'. rewrite scale_eq, Rplus_0_l. reflexivity.
Qed.

(** ** Losses one after the other *)
Lemma made_ext2 : forall h h' l, made h l -> (length h <= length h')%nat -> (forall w, l_cw l = Some w -> read h' w = read h w) -> made h' l.
Proof.
  intros h h' l (off & q & E & B & F & O) Lh R. exists off, q. split; [|split; [intros w Hw; specialize (B w Hw); lia|auto]]. etransitivity; [|exact E]. unfold new_loss. destruct (l_cw l) as [w|]; auto. rewrite (R w eq_refl). auto.
Qed.
Lemma own_ext : forall h h' l, (forall w, l_cw l = Some w -> read h' w = read h w) -> own_weights h' l = own_weights h l.
Proof. intros h h' l R. unfold own_weights. destruct (l_cw l) as [w|]; auto. Qed.
Lemma own_length : forall h l, made h l -> length (own_weights h l) = l_shape l.
Proof. intros h l M. unfold own_weights. destruct (l_cw l) as [w|] eqn:E; [apply (made_weights h l w M E)|apply ones_length]. Qed.
Lemma made_fits : forall h l, made h l -> fits (l_fam l) (l_shape l) /\ off_fits (l_shape l) (l_offset l).
Proof.
  intros h l (off & q & E & B & F & O). split; [auto|]. destruct (new_loss_fields _ _ _ _ _ _ _ _ E) as (_ & _ & _ & _ & Eo & _). rewrite Eo. destruct off as [v|]; [|exact I]. destruct (all_zero v); [exact I|exact O].
Qed.
Definition lfun (W : loss -> vec) (p : loss * vec) : R := loss_func (l_fam (fst p)) (l_coef (fst p)) (l_offset (fst p)) (W (fst p)) (snd p).
Definition lgrd (W : loss -> vec) (p : loss * vec) : vec := loss_grad (l_fam (fst p)) (l_coef (fst p)) (l_offset (fst p)) (W (fst p)) (snd p).
Lemma put_slice_spec : forall lo x v b, length x = (lo + length v + b)%nat -> length (put_slice lo x v) = length x /\ firstn (lo + length v) (put_slice lo x v) = firstn lo x ++ v.
Proof.
  intros lo x v b L. unfold put_slice. split; [rewrite !app_length, firstn_length, skipn_length; lia|]. rewrite app_assoc, firstn_app. rewrite app_length, firstn_length, Nat.min_l by lia. rewrite Nat.sub_diag, firstn_O, app_nil_r. apply firstn_all2. rewrite app_length, firstn_length. lia.
Qed.
Lemma skipn_skipn' : forall (A : Type) a b (x : list A), skipn a (skipn b x) = skipn (b + a) x.
Proof. intros A a b. induction b as [|b IH]; intros x; cbn; auto. destruct x; [apply skipn_nil|]. apply IH. Qed.
Lemma chain_loop_works : forall buf x m W rest lo v h, is_eval m -> (forall l, In l rest -> made h l /\ (forall w, l_cw l = Some w -> w <> buf) /\ own_weights h l = W l) ->
  length x = (lo + total_size rest)%nat -> (buf < length h)%nat -> length (read h buf) = length x ->
  exists h', chain_loop lo rest buf x m v h = (h', Ok (if has_func m then v + vsum (map (lfun W) (combine rest (pieces (map l_shape rest) (skipn lo x)))) else v)) /\
    (length h <= length h')%nat /\ (forall r, (r < length h)%nat -> r <> buf -> read h' r = read h r) /\ (has_grad m = false -> read h' buf = read h buf) /\
    (has_grad m = true -> read h' buf = firstn lo (read h buf) ++ concat (map (lgrd W) (combine rest (pieces (map l_shape rest) (skipn lo x))))).
Proof.
  intros buf x m W. induction rest as [|l rest IH]; intros lo v h Em F Lx Hb Lb.
  - exists h. cbn [chain_loop combine map concat]. split; [f_equal; f_equal; destruct (has_func m); auto; unfold vsum; cbn; ring|]. split; auto. split; auto. split; auto. intros _. rewrite app_nil_r. symmetry. apply firstn_all2. unfold total_size in Lx. cbn in Lx. lia.
  - cbn [chain_loop]. destruct (F l (or_introl eq_refl)) as (M & Nb & Ew). set (y := firstn (l_shape l) (skipn lo x)). unfold total_size in Lx. cbn [map fold_right] in Lx. fold (total_size rest) in Lx. assert (Ly : length y = l_shape l) by (unfold y; rewrite firstn_length, skipn_length; lia).
    destruct (eval_own h l y m M Ly) as (Ev & Fr). destruct (eval_frame h l y m M Ly) as (_ & _ & Lh). destruct (loss_eval h l None y m) as [h1 r] eqn:El. cbn [fst snd] in *. rewrite Ew in Ev. subst r.
    destruct (made_fits h l M) as [Ft O]. assert (LW : length (W l) = l_shape l) by (rewrite <- Ew; apply own_length; auto).
    assert (Lg : length (lgrd W (l, y)) = l_shape l) by (apply (proj1 (loss_grad_cases (l_fam l) (l_shape l) (l_coef l) (l_offset l) (W l) y Ft O LW Ly))).
    set (h2 := if has_grad m then write h1 buf (put_slice lo (read h1 buf) (lgrd W (l, y))) else h1). set (v1 := if has_func m then v + lfun W (l, y) else v).
    assert (L2 : length h2 = length h1) by (unfold h2; destruct (has_grad m); [apply write_length|auto]).
    assert (R2 : forall r, (r < length h)%nat -> r <> buf -> read h2 r = read h r) by (intros r Hr Nr; unfold h2; destruct (has_grad m); [rewrite read_write_other by auto|]; apply Fr; auto).
    destruct (put_slice_spec lo (read h1 buf) (lgrd W (l, y)) (total_size rest) ltac:(rewrite Fr by auto; lia)) as (P1 & P2).
    assert (B2 : length (read h2 buf) = length x) by (unfold h2; destruct (has_grad m); [rewrite read_write_same by lia; rewrite P1|]; rewrite Fr; auto).
    destruct (IH (lo + l_shape l)%nat v1 h2) as (h' & E & Q1 & Q2 & Q3 & Q4); auto; try lia.
    { intros l' Hl'. destruct (F l' (or_intror Hl')) as (A & B & C). assert (D : forall w, l_cw l' = Some w -> read h2 w = read h w) by (intros w Hw; apply R2; [apply (made_weights h l' w A Hw)|apply B; auto]). split; [apply (made_ext2 h); auto; lia|]. split; auto. rewrite <- C. apply own_ext; auto. }
    exists h'. assert (Pc : combine (l :: rest) (pieces (map l_shape (l :: rest)) (skipn lo x)) = (l, y) :: combine rest (pieces (map l_shape rest) (skipn (lo + l_shape l) x))) by (cbn [map pieces combine]; rewrite skipn_skipn'; auto). rewrite Pc. cbn [map concat].
    split; [|split; [lia|split; [intros r Hr Nr; rewrite Q2 by (auto; lia); auto|split]]].
    + transitivity (chain_loop (lo + l_shape l) rest buf x m v1 h2); [unfold h2, v1, lfun, lgrd; destruct m; cbn [smooth_value has_grad has_func fst snd]; try contradiction; auto|]. rewrite E. unfold v1. f_equal. f_equal. destruct (has_func m); auto. rewrite vsum_cons. ring.
    + intros Hg. rewrite (Q3 Hg). unfold h2. rewrite Hg. apply Fr; auto.
    + intros Hg. rewrite (Q4 Hg). unfold h2. rewrite Hg, read_write_same by lia. rewrite <- Lg, P2, Fr, <- app_assoc by auto. auto.
Qed.
(** A chain in good order *)
Theorem chain_works : forall h s arg x m, chain_ok h s -> arg_free h s arg -> length x = total_size (s_losses s) -> is_eval m ->
  exists h' v, chain_eval h s arg x m = (h', Ok v) /\ chain_ok h' s /\ (length h <= length h')%nat /\
    (forall r, (r < length h)%nat -> r <> s_buf s -> arg <> Some r -> read h' r = read h r) /\ (forall l, In l (s_losses s) -> own_weights h' l = own_weights h l) /\
    (forall f, v = RFunc f \/ (exists g, v = RBoth f g) -> f = chain_value (s_losses s) (s_coef s) (own_weights h) (minus x (s_offset s))) /\
    (forall g, v = RGrad g \/ (exists f, v = RBoth f g) -> (g < length h')%nat /\ read h' g = chain_grad (s_losses s) (s_coef s) (own_weights h) (minus x (s_offset s)) /\ (s_coef s = 1 -> g = s_buf s) /\ (s_coef s <> 1 -> (length h <= g)%nat)) /\
    (m = EvFunc <-> exists f, v = RFunc f) /\ (m = EvGrad <-> exists g, v = RGrad g) /\ (m = EvBoth <-> exists f g, v = RBoth f g).
Proof.
  intros h s arg x m (F & O & Hb & Lb) Ha Lx Em. unfold chain_eval.
  set (h0 := match arg with Some r => h | None => h ++ [ones (length x)] end). set (c := match arg with Some r => r | None => length h end).
  assert (E0 : match arg with Some r => (h, r) | None => (h ++ [ones (length x)], length h) end = (h0, c)) by (unfold h0, c; destruct arg; auto). rewrite E0.
  assert (L0 : (length h <= length h0)%nat) by (unfold h0; destruct arg; auto; rewrite app_length; cbn; lia).
  assert (R0 : forall r, (r < length h)%nat -> read h0 r = read h r) by (intros r Hr; unfold h0; destruct arg; auto; apply read_app; auto).
  assert (Nc : c <> s_buf s) by (unfold c; destruct arg as [r|]; [apply (Ha r eq_refl)|lia]).
  set (h1 := match s_cw s with Some w => write h0 c (vmul (read h0 c) (read h0 w)) | None => h0 end).
  assert (L1 : length h1 = length h0) by (unfold h1; destruct (s_cw s); auto; apply write_length).
  assert (R1 : forall r, r <> c -> read h1 r = read h0 r) by (intros r Hr; unfold h1; destruct (s_cw s); auto; apply read_write_other; auto).
  assert (Rw : forall l w, In l (s_losses s) -> l_cw l = Some w -> read h1 w = read h w).
  { intros l w Hl Ew. destruct (F l Hl) as (M & _). destruct (made_weights h l w M Ew) as (_ & _ & Hw). rewrite R1, R0; auto. unfold c. destruct arg as [r|]; [|lia]. intros ->. destruct (Ha r eq_refl) as (_ & _ & X). apply (X l Hl Ew). }
  set (z := sub_offset (s_offset s) x). assert (Lz : length z = total_size (s_losses s)) by (apply (minus_length x (s_offset s)); auto).
  destruct (chain_loop_works (s_buf s) z m (own_weights h) (s_losses s) 0 0 h1) as (h2 & E & Q1 & Q2 & Q3 & Q4); auto; try lia.
  { intros l Hl. destruct (F l Hl) as (M & Nb). split; [apply (made_ext2 h); [auto|lia|intros w Ew; apply (Rw l); auto]|]. split; auto. apply own_ext. intros w Ew. apply (Rw l); auto. }
  { rewrite R1, R0 by auto. lia. }
  rewrite E. cbn [skipn] in *. set (ps := combine (s_losses s) (pieces (map l_shape (s_losses s)) z)) in *. set (vv := if has_func m then 0 + vsum (map (lfun (own_weights h)) ps) else 0).
  set (h3 := if has_grad m then fst (scale_ref h2 (s_coef s) (s_buf s)) else h2). set (g := snd (scale_ref h2 (s_coef s) (s_buf s))).
  assert (L3 : (length h2 <= length h3)%nat) by (unfold h3, scale_ref; destruct (has_grad m); auto; destruct (Req_EM_T (s_coef s) 1); cbn; auto; rewrite app_length; lia).
  assert (R3 : forall r, (r < length h2)%nat -> read h3 r = read h2 r) by (intros r Hr; unfold h3, scale_ref; destruct (has_grad m); auto; destruct (Req_EM_T (s_coef s) 1); cbn; auto; apply read_app; auto).
  assert (Lcat : has_grad m = true -> length (read h2 (s_buf s)) = total_size (s_losses s)).
  { intros Hg. rewrite (Q4 Hg). cbn [firstn app]. unfold ps. clearbody z. clear -F Lz. revert z Lz F. induction (s_losses s) as [|l ls IH]; intros z Lz F; [reflexivity|]. unfold total_size in *. cbn [map fold_right pieces combine concat] in *. rewrite app_length. rewrite IH; [|rewrite skipn_length; lia|intros l' Hl'; apply F; right; auto]. f_equal. destruct (F l (or_introl eq_refl)) as (M & _). destruct (made_fits h l M) as [Ft O].
    apply (proj1 (loss_grad_cases (l_fam l) (l_shape l) (l_coef l) (l_offset l) (own_weights h l) (firstn (l_shape l) z) Ft O (own_length h l M) ltac:(rewrite firstn_length; lia))). }
  assert (Vv : has_func m = true -> scale (s_coef s) vv = chain_value (s_losses s) (s_coef s) (own_weights h) (minus x (s_offset s))) by (intros Hm; rewrite scale_eq; unfold vv; rewrite Hm, Rplus_0_l; reflexivity).
  assert (G : has_grad m = true -> (g < length h3)%nat /\ read h3 g = chain_grad (s_losses s) (s_coef s) (own_weights h) (minus x (s_offset s)) /\ (s_coef s = 1 -> g = s_buf s) /\ (s_coef s <> 1 -> (length h <= g)%nat)).
  { intros Hm. specialize (Q4 Hm). cbn [firstn app] in Q4. assert (CG : chain_grad (s_losses s) (s_coef s) (own_weights h) (minus x (s_offset s)) = vscal (s_coef s) (read h2 (s_buf s))) by (rewrite Q4; reflexivity). rewrite CG. unfold g, h3, scale_ref. rewrite Hm. destruct (Req_EM_T (s_coef s) 1) as [E1|E1]; cbn [fst snd].
    - split; [lia|]. split; [rewrite E1; symmetry; apply vscal_1|]. split; auto; contradiction.
    - rewrite read_new, app_length. split; [cbn; lia|]. split; [unfold vscal; apply map_ext; intros; ring|]. split; [contradiction|intros _; lia]. }
  assert (Rw3 : forall l w, In l (s_losses s) -> l_cw l = Some w -> read h3 w = read h w).
  { intros l w Hl Ew. destruct (F l Hl) as (M & Nb). destruct (made_weights h l w M Ew) as (_ & _ & Hw). rewrite R3, Q2, (Rw l) by (auto; lia). auto. }
  exists h3. exists (match m with EvFunc => RFunc (scale (s_coef s) vv) | EvGrad => RGrad g | _ => RBoth (scale (s_coef s) vv) g end).
  split; [|split; [|split; [lia|split; [|split; [|split; [|split; [|split; [|split]]]]]]]].
  - unfold h3, g. destruct m; cbn [has_grad]; try contradiction; auto; destruct (scale_ref h2 (s_coef s) (s_buf s)); auto.
  - split; [|split; [auto|split; [lia|]]].
    + intros l Hl. destruct (F l Hl) as (M & Nb). split; auto. apply (made_ext2 h); [auto|lia|intros w Ew; apply (Rw3 l); auto].
    + rewrite R3 by lia. destruct (has_grad m) eqn:Hg; [auto|]. rewrite (Q3 eq_refl), R1, R0 by auto. auto.
  - intros r Hr Nb Na. assert (Nrc : r <> c) by (unfold c; destruct arg as [r0|]; [intros ->; apply Na; auto|lia]). rewrite R3, Q2, R1, R0 by (auto; lia). auto.
  - intros l Hl. apply own_ext. intros w Ew. apply (Rw3 l); auto.
  - intros f Hv. destruct m; try contradiction; destruct Hv as [Hv|[g' Hv]]; try discriminate; injection Hv as <-; auto.
  - intros g' Hv. destruct m; try contradiction; destruct Hv as [Hv|[f' Hv]]; try discriminate.
    + injection Hv as <-; auto.
    + injection Hv as _ <-; auto.
  - destruct m; try contradiction; split; intros X; eauto; try discriminate; destruct X; discriminate.
  - destruct m; try contradiction; split; intros X; eauto; try discriminate; destruct X; discriminate.
  - destruct m; try contradiction; split; intros X; eauto; try discriminate; destruct X as (? & ? & ?); discriminate.
Qed.

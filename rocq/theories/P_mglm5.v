(** Stacked losses: gradients, returned arrays, copies and subsamples; losses one after the other. *)
From Coq Require Import Reals List Lra Lia Arith Bool.
From Verif Require Import M_affine P_affine M_buffer P_buffer M_loss SpecLoss P_loss P_loss2 P_loss4 P_loss5 P_loss6 Vec Spec SpecBlock SpecConvex M_quad P_quad P_calc P_sep P_cv P_block M_mglm SpecMglm P_mglm P_mglm2 P_mglm3 P_mglm4.
Import ListNotations.
Local Open Scope R_scope.

(** ** The gradient of a stack *)
Lemma stack_sum : forall (losses : list loss) (F : nat -> loss -> R) i d, vsum (map (fun p => F (fst p) (snd p)) (combine (seq i (length losses)) losses)) = sum_over (length losses) (fun j => F (i + j)%nat (nth j losses d)).
Proof.
  induction losses as [|l losses IH]; intros F i d; [reflexivity|]. cbn [length seq combine map]. rewrite vsum_cons, (IH F (S i) d). unfold sum_over. cbn [seq map]. rewrite vsum_cons. cbn [nth fst snd]. rewrite Nat.add_0_r. f_equal. rewrite <- seq_shift, map_map. f_equal. apply map_ext. intros j. rewrite Nat.add_succ_r. auto.
Qed.
Theorem stack_gradient : forall n losses c cw off x g, losses <> [] -> Forall (free_loss n) losses -> length cw = n -> off_fits (n * length losses) off -> length x = (n * length losses)%nat -> stack_regular n losses (minus x off) ->
  is_stack_grad n losses c cw (minus x off) g -> is_gradient (n * length losses) (fun z => stack_value n losses c cw (minus z off)) x g.
Proof.
  intros n losses c cw off x g Hne F Lc O Lx Rg (Lg & Hg). apply (gradient_minus (n * length losses) (stack_value n losses c cw)); auto. set (y := minus x off) in *. assert (Ly : length y = (n * length losses)%nat) by (apply minus_length; auto). set (k := length losses) in *.
  split; auto. intros d Ld. assert (l0 : loss) by (destruct losses as [|a ?]; [contradiction|exact a]). set (fj := fun j l z => loss_func (l_fam l) (l_coef l) (l_offset l) cw (col n k j z)).
  apply (derive_ext (fun t => c * sum_over k (fun j => fj j (nth j losses l0) (vadd y (vscal t d))))).
  { intros t. unfold stack_value. f_equal. symmetry. apply (stack_sum losses (fun j l => fj j l (vadd y (vscal t d))) 0 l0). }
  rewrite (dot_cols n k) by auto. set (gj := fun j => dot (loss_grad (l_fam (nth j losses l0)) (l_coef (nth j losses l0)) (l_offset (nth j losses l0)) cw (col n k j y)) (col n k j d)).
  assert (NE : forall j, (j < k)%nat -> nth_error losses j = Some (nth j losses l0)) by (intros j Hj; apply nth_error_nth'; auto).
  replace (sum_over k (fun j => dot (col n k j g) (col n k j d))) with (c * sum_over k gj).
  2:{ rewrite <- sum_over_scal. apply sum_over_ext. intros j Hj. rewrite (Hg j _ (NE j Hj)). rewrite dot_scal_l. reflexivity. }
  apply (derivable_pt_lim_scal (fun t => sum_over k (fun j => fj j (nth j losses l0) (vadd y (vscal t d))))). unfold sum_over at 2. apply (derive_vsum k (fun j t => fj j (nth j losses l0) (vadd y (vscal t d)))); [|rewrite map_length, seq_length; auto].
  intros j Hj. rewrite nth_map_seq by auto. set (l := nth j losses l0). assert (Fl : free_loss n l) by (rewrite Forall_forall in F; apply F; apply nth_In; auto). destruct Fl as (_ & Ft & Ol).
  apply (derive_ext (fun t => loss_func (l_fam l) (l_coef l) (l_offset l) cw (vadd (col n k j y) (vscal t (col n k j d))))).
  { intros t. unfold fj. rewrite col_line by auto. auto. }
  apply (proj2 (loss_gradient (l_fam l) n (l_coef l) (l_offset l) cw (col n k j y) Ft Ol Lc (col_length n k j y) (Rg j l (NE j Hj)))). apply col_length.
Qed.

(** ** Programs that evaluate a stack again and again without passing weights *)
Lemma stack_step : forall h s n x m, stack_ok h s n -> length x = (n * s_cols s)%nat -> let h' := fst (stacked_eval h s None x m) in
  stack_ok h' s n /\ (length h <= length h')%nat /\ (forall r, (r < length h)%nat -> r <> s_buf s -> read h' r = read h r) /\ stack_weights h' s n = stack_weights h s n.
Proof.
  intros h s n x m K Lx h'. assert (A : stack_ok h' s n /\ (length h <= length h')%nat /\ (forall r, (r < length h)%nat -> r <> s_buf s -> read h' r = read h r)).
  { destruct m.
    1-3: match goal with |- stack_ok ?h' _ _ /\ _ => match eval unfold h' in h' with fst (stacked_eval _ _ _ _ ?m) => destruct (stacked_works h s n None x m K ltac:(intros r E; discriminate) Lx I) as (h1 & v & E & Fr & L & K' & _); unfold h'; rewrite E; cbn; split; [auto|]; split; [auto|]; intros r Hr Nb; apply Fr; auto; discriminate end end.
    unfold h', stacked_eval. destruct K as (Hne & Hs & Hf & O & Hb & Lb & Hw). rewrite (s_rows_eq s n) by auto.
    assert (X : forall h1, (length h <= length h1)%nat -> (forall r, (r < length h)%nat -> read h1 r = read h r) -> stack_ok h1 s n /\ (length h <= length h1)%nat /\ (forall r, (r < length h)%nat -> r <> s_buf s -> read h1 r = read h r)).
    { intros h1 L1 R1. split; [|split; auto]. split; [auto|]. split; [auto|]. split; [auto|]. split; [auto|]. split; [lia|]. split; [rewrite R1; auto|]. intros w Ew. destruct (Hw w Ew) as (W1 & W2 & W3). rewrite R1 by auto. split; [lia|auto]. }
    destruct (s_cw s) as [w|]; cbn [fst]; apply X; rewrite ?write_length, ?app_length; try lia; intros r Hr; [rewrite read_write_other by lia|]; apply read_app; auto. }
  destruct A as (A1 & A2 & A3). split; auto. split; auto. split; auto. unfold stack_weights. destruct (s_cw s) as [w|] eqn:E; auto. destruct K as (_ & _ & _ & _ & _ & _ & Hw). destruct (Hw w E) as (W1 & W2 & _). apply A3; auto.
Qed.
Theorem stack_history : forall ops h s n, stack_ok h s n -> Forall (fun o => length (fst o) = (n * s_cols s)%nat) ops ->
  stack_ok (srun s h ops) s n /\ (forall r, (r < length h)%nat -> r <> s_buf s -> read (srun s h ops) r = read h r) /\ stack_weights (srun s h ops) s n = stack_weights h s n.
Proof.
  induction ops as [|[y m] ops IH]; intros h s n K F; [split; auto|]. assert (Ly := Forall_inv F). cbn in Ly. destruct (stack_step h s n y m K Ly) as (K1 & L1 & R1 & W1). destruct (IH (fst (stacked_eval h s None y m)) s n K1 (Forall_inv_tail F)) as (K2 & R2 & W2).
  change (srun s h ((y, m) :: ops)) with (srun s (fst (stacked_eval h s None y m)) ops). split; auto. split; [|congruence]. intros r Hr Nb. rewrite R2 by lia. auto.
Qed.
(** a gradient returned by a stack with coef 1 is the array the next evaluation overwrites; with another coef it is a new array *)
Theorem stack_returned : forall h s n x y h1 g, stack_ok h s n -> length x = (n * s_cols s)%nat -> length y = (n * s_cols s)%nat -> stacked_eval h s None x EvGrad = (h1, Ok (RGrad g)) ->
  is_stack_grad n (s_losses s) (s_coef s) (stack_weights h s n) (minus x (s_offset s)) (read h1 g) /\
  forall h2 g2, stacked_eval h1 s None y EvGrad = (h2, Ok (RGrad g2)) ->
    (s_coef s = 1 -> is_stack_grad n (s_losses s) (s_coef s) (stack_weights h s n) (minus y (s_offset s)) (read h2 g)) /\ (s_coef s <> 1 -> read h2 g = read h1 g).
Proof.
  intros h s n x y h1 g K Lx Ly E. destruct (stacked_works h s n None x EvGrad K ltac:(intros r X; discriminate) Lx I) as (h1' & v & E' & Fr & L1 & K1 & _ & _ & G & _). rewrite E in E'. injection E' as <- <-.
  destruct (G g (or_introl eq_refl)) as (Bg & Sg & C1 & C2). destruct (stack_step h s n x EvGrad K Lx) as (_ & _ & _ & W). rewrite E in W. cbn in W.
  assert (V : forall h, length (stack_weights h s n) = n -> vmul (arg_weights h n None) (stack_weights h s n) = stack_weights h s n) by (intros h0 Lh; cbn; apply vmul_ones; auto).
  assert (LW : forall h, stack_ok h s n -> length (stack_weights h s n) = n). { intros h0 (_ & _ & _ & _ & _ & _ & Hw). unfold stack_weights. destruct (s_cw s) as [w|]; [apply (Hw w eq_refl)|apply ones_length]. }
  rewrite V in Sg by auto. split; auto. intros h2 g2 E2. destruct (stacked_works h1 s n None y EvGrad K1 ltac:(intros r X; discriminate) Ly I) as (h2' & v2 & E2' & Fr2 & L2 & K2 & _ & _ & G2 & _). rewrite E2 in E2'. injection E2' as <- <-.
  destruct (G2 g2 (or_introl eq_refl)) as (_ & Sg2 & C3 & C4). rewrite V, W in Sg2 by auto. split.
  - intros C. rewrite (C1 C). rewrite <- (C3 C). auto.
  - intros C. apply Fr2; auto; [|discriminate]. destruct (C2 C) as (X & _). destruct K as (_ & _ & _ & _ & Hb & _). lia.
Qed.

(** ** Constructor, copy and subsample of a stack *)
Theorem new_stacked_ok : forall h losses c off qd weights n, Forall (fun l => l_shape l = n) losses -> Forall (free_loss n) losses -> losses <> [] -> off_fits (n * length losses) off ->
  0 <= c -> (forall r, weights = Some r -> (r < length h)%nat /\ legal_weights n (read h r)) ->
  exists s, new_stacked h losses c off qd weights = (h ++ [zeros (n * length losses)], Ok s) /\ stack_ok (h ++ [zeros (n * length losses)]) s n /\ s_losses s = losses /\ s_coef s = c /\ s_cw s = weights /\ s_buf s = length h /\ s_offset s = match off with Some v => if all_zero v then None else Some v | None => None end /\
    (forall x, length x = (n * length losses)%nat -> minus x (s_offset s) = minus x off).
Proof.
  intros h losses c off qd weights n Hs Hf Hne O C W. destruct losses as [|l0 rest]; [contradiction|]. unfold new_stacked. assert (E0 : l_shape l0 = n) by (exact (Forall_inv Hs)). set (losses := l0 :: rest) in *. rewrite E0. destruct (Rlt_dec c 0); [lra|].
  replace (forallb (fun l => Nat.eqb (l_shape l) n) losses) with true by (symmetry; apply forallb_forall; rewrite Forall_forall in Hs; intros l Hl; apply Nat.eqb_eq; auto). cbn [negb].
  match goal with |- context [if ?b then (h, Err ValueError) else (_ ++ _, _)] => replace b with false end.
  2:{ destruct weights as [r|]; auto. destruct (W r eq_refl) as (_ & L & N). symmetry. apply orb_false_iff. split; [apply any_neg_false; auto|apply negb_false_iff, Nat.eqb_eq; auto]. }
  eexists. split; [reflexivity|]. cbn [s_losses s_coef s_cw s_buf s_offset]. split; [|repeat split; auto].
  - unfold stack_ok, s_cols. cbn [s_losses s_coef s_cw s_buf s_offset]. split; [auto|]. split; [auto|]. split; [auto|]. split; [destruct off as [v|]; cbn; auto; destruct (all_zero v); cbn; auto|]. split; [rewrite app_length; cbn; lia|]. split; [rewrite read_new; apply zeros_length|].
    intros w ->. destruct (W w eq_refl) as (B & L & _). rewrite app_length. split; [cbn; lia|]. split; [lia|]. rewrite read_app by auto. auto.
  - intros x Lx. destruct off as [v|]; cbn; auto. destruct (all_zero v) eqn:Z; cbn; auto. apply all_zero_spec in Z. change (length v = (n * length losses)%nat) in O. rewrite Z, O, <- Lx. symmetry. apply vsub_zeros_r; auto.
Qed.

Theorem copy_stacked_works : forall h s n, stack_ok h s n -> stack_sane h s n -> exists h' s', copy_stacked h s = (h', Ok s') /\ (length h <= length h')%nat /\ (forall r, (r < length h)%nat -> read h' r = read h r) /\
  stack_ok h' s' n /\ s_losses s' = s_losses s /\ s_coef s' = s_coef s /\ s_offset s' = s_offset s /\ stack_weights h' s' n = stack_weights h s n /\ (length h <= s_buf s')%nat /\ (forall w, s_cw s' = Some w -> (length h <= w)%nat) /\ (s_cw s = None -> s_cw s' = None).
Proof.
  intros h s n K (Hc & Ho & Hn). destruct K as (Hne & Hs & Hf & O & Hb & Lb & Hw).
  assert (Of : match s_offset s with Some v => if all_zero v then None else Some v | None => None end = s_offset s) by (destruct (s_offset s); [rewrite Ho|]; auto).
  unfold copy_stacked. unfold stack_weights in Hn. destruct (s_cw s) as [w|] eqn:E.
  - destruct (Hw w eq_refl) as (W1 & W2 & W3). destruct (new_stacked_ok (h ++ [read h w]) (s_losses s) (s_coef s) (s_offset s) (Some (s_quad s)) (Some (length h)) n Hs Hf Hne O Hc) as (s1 & E1 & K1 & F1 & F2 & F3 & F4 & F5 & _).
    { intros r X. injection X as <-. rewrite app_length, read_new. split; [cbn; lia|split; auto]. }
    rewrite E1. eexists. exists s1. split; [reflexivity|]. rewrite !app_length, F3, F4, app_length. split; [cbn; lia|]. split; [intros r Hr; rewrite !read_app by (rewrite ?app_length; cbn; lia); auto|]. split; auto. split; auto. split; auto. split; [congruence|].
    split; [unfold stack_weights; rewrite E, F3; rewrite read_app by (rewrite app_length; cbn; lia); apply read_new|]. split; [cbn; lia|]. split; [intros w0 X; injection X as <-; lia|discriminate].
  - destruct (new_stacked_ok h (s_losses s) (s_coef s) (s_offset s) (Some (s_quad s)) (@None ref) n Hs Hf Hne O Hc ltac:(discriminate)) as (s1 & E1 & K1 & F1 & F2 & F3 & F4 & F5 & _).
    rewrite E1. eexists. exists s1. split; [reflexivity|]. rewrite !app_length, F3, F4. split; [lia|]. split; [intros r Hr; apply read_app; auto|]. split; auto. split; auto. split; auto. split; [congruence|]. split; [unfold stack_weights; rewrite E, F3; auto|]. split; [lia|]. split; [discriminate|auto].
Qed.
Lemma ind_n : forall n idx w, length w = n -> vmul w (indicator n idx) = restrict idx w.
Proof. intros n idx w <-. apply indicator_restrict. Qed.
Theorem subsample_stacked_works : forall h s n idx, stack_ok h s n -> stack_sane h s n -> Forall (fun i => (i < n)%nat) idx -> exists h' s', subsample_stacked h s idx = (h', Ok s') /\ (forall r, (r < length h)%nat -> read h' r = read h r) /\
  stack_ok h' s' n /\ s_losses s' = s_losses s /\ s_coef s' = s_coef s /\ s_offset s' = s_offset s /\ stack_weights h' s' n = restrict idx (stack_weights h s n).
Proof.
  intros h s n idx K Sn Fi. destruct (copy_stacked_works h s n K Sn) as (h1 & s1 & E & L & R1 & K1 & E1 & E2 & E3 & E4 & E5 & E6 & E7). unfold subsample_stacked. rewrite E. rewrite (s_rows_eq s n) by (destruct K as (A & B & _); auto).
  replace (forallb (fun i => Nat.ltb i n) idx) with true by (symmetry; apply forallb_forall; intros i Hi; apply Nat.ltb_lt; rewrite Forall_forall in Fi; auto). cbn [negb].
  destruct K1 as (A1 & A2 & A3 & A4 & A5 & A6 & A7). destruct (s_cw s1) as [w|] eqn:Ew.
  - destruct (A7 w eq_refl) as (W1 & W2 & W3). assert (Z : stack_weights h1 s1 n = read h1 w) by (unfold stack_weights; rewrite Ew; auto). eexists. eexists. split; [reflexivity|]. split; [intros r Hr; rewrite read_write_other; [apply R1; auto|specialize (E6 w eq_refl); lia]|].
    split; [|split; [auto|]; split; [auto|]; split; [auto|]].
    + split; [auto|]. split; [auto|]. split; [auto|]. split; [auto|]. rewrite write_length. split; [auto|]. split; [rewrite read_write_other by auto; auto|]. intros w0 X. rewrite Ew in X. injection X as <-. split; auto. split; auto. rewrite read_write_same by auto. rewrite W3. rewrite ind_n by auto. rewrite restrict_length. auto.
    + unfold stack_weights at 1. rewrite Ew, read_write_same by auto. rewrite <- E4, Z, W3. apply ind_n; auto.
  - assert (Z : stack_weights h1 s1 n = ones n) by (unfold stack_weights; rewrite Ew; auto). eexists. eexists. split; [reflexivity|]. split; [intros r Hr; rewrite read_app by lia; apply R1; auto|]. cbn [s_losses s_coef s_offset].
    split; [|split; [auto|]; split; [auto|]; split; [auto|]].
    + unfold stack_ok. cbn [s_losses s_coef s_offset s_cw s_buf]. split; [auto|]. split; [auto|]. split; [auto|]. split; [auto|]. rewrite app_length. split; [lia|]. split; [rewrite read_app by auto; auto|]. intros w0 X. injection X as <-. split; [cbn; lia|]. split; [lia|]. rewrite read_new, ind_n by apply ones_length. rewrite restrict_length. apply ones_length.
    + unfold stack_weights at 1. cbn [s_cw]. rewrite read_new, ind_n by apply ones_length. rewrite <- E4, Z. auto.
Qed.

(** Losses one after the other: gradient and weights. Multiresponse models: matrix products, values, gradients, subsamples. *)
From Coq Require Import Reals List Lra Lia Arith Bool.
From Verif Require Import M_affine P_affine M_buffer P_buffer M_loss SpecLoss P_loss P_loss2 P_loss4 P_loss5 P_loss6 Vec Spec SpecBlock SpecConvex M_quad P_quad P_calc P_sep P_cv P_block M_mglm SpecMglm P_mglm P_mglm2 P_mglm3 P_mglm4 P_mglm5 P_mglm6.
From Verif Require P_newton P_cones.
Import ListNotations.
Local Open Scope R_scope.

(** ** The gradient of losses one after the other *)
Lemma firstn_line : forall a (x d : vec) t, firstn a (vadd x (vscal t d)) = vadd (firstn a x) (vscal t (firstn a d)).
Proof. induction a as [|a IH]; intros x d t; [reflexivity|]. destruct x as [|b x], d as [|e d]; cbn [vadd vscal map vzip firstn]; auto. f_equal. apply IH. Qed.
Lemma skipn_line : forall a (x d : vec) t, length x = length d -> skipn a (vadd x (vscal t d)) = vadd (skipn a x) (vscal t (skipn a d)).
Proof. induction a as [|a IH]; intros x d t L; [reflexivity|]. destruct x as [|b x], d as [|e d]; try discriminate; cbn [vadd vscal map vzip skipn]; auto. Qed.
Lemma gradient_app : forall a b f1 f2 x g1 g2, length x = (a + b)%nat -> is_gradient a f1 (firstn a x) g1 -> is_gradient b f2 (skipn a x) g2 -> is_gradient (a + b) (fun z => f1 (firstn a z) + f2 (skipn a z)) x (g1 ++ g2).
Proof.
  intros a b f1 f2 x g1 g2 Lx [L1 G1] [L2 G2]. split; [rewrite app_length; lia|]. intros d Ld. rewrite <- (firstn_skipn a d) at 1. rewrite P_cones.dot_app by (rewrite firstn_length; lia).
  apply (derive_ext (fun t => f1 (vadd (firstn a x) (vscal t (firstn a d))) + f2 (vadd (skipn a x) (vscal t (skipn a d))))); [intros t; rewrite firstn_line, skipn_line by lia; auto|].
  apply (derivable_pt_lim_plus (fun t => f1 (vadd (firstn a x) (vscal t (firstn a d)))) (fun t => f2 (vadd (skipn a x) (vscal t (skipn a d))))); [apply G1; rewrite firstn_length; lia|apply G2; rewrite skipn_length; lia].
Qed.
Lemma chain_sum_gradient : forall W losses z, (forall l, In l losses -> fits (l_fam l) (l_shape l) /\ off_fits (l_shape l) (l_offset l) /\ length (W l) = l_shape l) -> length z = total_size losses -> chain_regular losses z ->
  is_gradient (total_size losses) (fun z => vsum (map (lfun W) (combine losses (pieces (map l_shape losses) z)))) z (concat (map (lgrd W) (combine losses (pieces (map l_shape losses) z)))).
Proof.
  intros W. induction losses as [|l ls IH]; intros z F Lz Rg.
  - split; auto. intros d Ld. cbn. apply (derive_ext (fun _ => 0)); [intros; reflexivity|]. replace (dot [] d) with 0 by (unfold dot; destruct d; reflexivity). apply derivable_pt_lim_const.
  - unfold total_size in *. cbn [map fold_right pieces combine concat] in *. fold (total_size ls) in *. assert (R1 := Forall_inv Rg). assert (R2 := Forall_inv_tail Rg). cbn [fst snd] in R1. destruct (F l (or_introl eq_refl)) as (Ft & O & LW).
    apply (gradient_ext _ (fun y => loss_func (l_fam l) (l_coef l) (l_offset l) (W l) (firstn (l_shape l) y) + vsum (map (lfun W) (combine ls (pieces (map l_shape ls) (skipn (l_shape l) y)))))); [intros; reflexivity|exact Lz|].
    apply (gradient_app (l_shape l) (total_size ls) (loss_func (l_fam l) (l_coef l) (l_offset l) (W l)) (fun y => vsum (map (lfun W) (combine ls (pieces (map l_shape ls) y))))); auto.
    + apply loss_gradient; auto. rewrite firstn_length. lia.
    + apply IH; [intros l' Hl'; apply F; right; auto|rewrite skipn_length; lia|exact R2].
Qed.
Theorem chain_gradient : forall h losses c off x, (forall l, In l losses -> made h l) -> off_fits (total_size losses) off -> length x = total_size losses -> chain_regular losses (minus x off) ->
  is_gradient (total_size losses) (fun z => chain_value losses c (own_weights h) (minus z off)) x (chain_grad losses c (own_weights h) (minus x off)).
Proof.
  intros h losses c off x M O Lx Rg. apply (gradient_minus (total_size losses) (chain_value losses c (own_weights h))); auto. destruct (chain_sum_gradient (own_weights h) losses (minus x off)) as [L G]; [|apply minus_length; auto|auto|].
  { intros l Hl. destruct (made_fits h l (M l Hl)). split; auto. split; auto. apply own_length; auto. }
  unfold chain_grad. fold (lgrd (own_weights h)). split; [unfold vscal; rewrite map_length; exact L|]. intros d Ld. rewrite dot_scal_l. apply (derivable_pt_lim_scal (fun t => vsum (map (lfun (own_weights h)) (combine losses (pieces (map l_shape losses) (vadd (minus x off) (vscal t d))))))). apply G. auto.
Qed.
(** neither the weights given to the constructor, nor a subsample, change any value *)
Theorem chain_subsample : forall h s idx, chain_ok h s -> 0 <= s_coef s -> (forall w, s_cw s = Some w -> (w < length h)%nat /\ legal_weights (total_size (s_losses s)) (read h w)) -> s_losses s <> [] -> (match s_offset s with Some v => all_zero v = false | None => True end) ->
  Forall (fun i => (i < total_size (s_losses s))%nat) idx ->
  exists h' s', subsample_chain h s idx = (h', Ok s') /\ (forall r, (r < length h)%nat -> read h' r = read h r) /\ chain_ok h' s' /\ s_losses s' = s_losses s /\ s_coef s' = s_coef s /\ s_offset s' = s_offset s /\
    (exists w, s_cw s' = Some w /\ (length h <= w)%nat) /\ (forall l, In l (s_losses s) -> own_weights h' l = own_weights h l).
Proof.
  intros h s idx (F & O & Hb & Lb) Hc Hw Hne Ho Fi. assert (Of : match s_offset s with Some v => if all_zero v then None else Some v | None => None end = s_offset s) by (destruct (s_offset s); [rewrite Ho|]; auto).
  assert (Ix : forallb (fun i => Nat.ltb i (chain_size s)) idx = true) by (apply forallb_forall; intros i Hi; apply Nat.ltb_lt; rewrite Forall_forall in Fi; apply Fi; auto).
  unfold subsample_chain, copy_chain. destruct (s_cw s) as [w|] eqn:E.
  - destruct (Hw w eq_refl) as (Bw & Lw & Nw). unfold new_chain. destruct (Rlt_dec (s_coef s) 0); [lra|]. destruct (s_losses s) as [|l0 rest] eqn:El; [congruence|]. rewrite read_new.
    match goal with |- context [if ?b then (_, Err ValueError) else _] => replace b with false end.
    2:{ symmetry. apply orb_false_iff. split; [apply any_neg_false; auto|apply negb_false_iff, Nat.eqb_eq; exact Lw]. }
    rewrite Ix. cbn [negb s_cw]. eexists. eexists. split; [reflexivity|]. cbn [s_losses s_coef s_offset s_cw s_buf]. rewrite !app_length. cbn [length].
    set (N := fold_right Nat.add 0%nat (map l_shape (l0 :: rest))) in *.
    assert (Rd : forall r, (r < length h)%nat -> forall v, read (write ((h ++ [read h w]) ++ [zeros N]) (length h) v) r = read h r) by (intros r Hr v; rewrite read_write_other by lia; rewrite !read_app by (rewrite ?app_length; cbn; lia); auto).
    split; [intros r Hr; apply Rd; auto|]. split; [|split; [auto|split; [auto|split; [auto|split; [exists (length h); auto|]]]]].
    + split; [|split; [rewrite Of; exact O|split; [cbn [s_buf]; rewrite write_length, !app_length; cbn; lia|]]].
      * intros l Hl. cbn [s_losses s_buf] in *. destruct (F l Hl) as (M & _). split; [apply (made_ext2 h); [auto|rewrite write_length, !app_length; lia|intros w' Ew; apply Rd; apply (made_weights h l w' M Ew)]|]. intros w' Ew. destruct (made_weights h l w' M Ew) as (_ & _ & X). lia.
      * cbn [s_buf s_losses]. rewrite read_write_other by lia. replace (length h + 1)%nat with (length (h ++ [read h w])) by (rewrite app_length; auto). rewrite read_new. apply zeros_length.
    + intros l Hl. apply own_ext. intros w' Ew. apply Rd. destruct (F l Hl) as (M & _). apply (made_weights h l w' M Ew).
  - unfold new_chain. destruct (Rlt_dec (s_coef s) 0); [lra|]. destruct (s_losses s) as [|l0 rest] eqn:El; [congruence|]. rewrite Ix. cbn [negb s_cw]. eexists. eexists. split; [reflexivity|]. cbn [s_losses s_coef s_offset s_cw s_buf]. rewrite !app_length. cbn [length].
    set (N := fold_right Nat.add 0%nat (map l_shape (l0 :: rest))) in *.
    assert (Rd : forall r, (r < length h)%nat -> forall v, read ((h ++ [zeros N]) ++ [v]) r = read h r) by (intros r Hr v; rewrite !read_app by (rewrite ?app_length; cbn; lia); auto).
    split; [intros r Hr; apply Rd; auto|]. split; [|split; [auto|split; [auto|split; [auto|split; [exists (length h + 1)%nat; split; [auto|lia]|]]]]].
    + split; [|split; [rewrite Of; exact O|split; [cbn [s_buf]; rewrite !app_length; cbn; lia|]]].
      * intros l Hl. cbn [s_losses s_buf] in *. destruct (F l Hl) as (M & _). split; [apply (made_ext2 h); [auto|rewrite !app_length; lia|intros w' Ew; apply Rd; apply (made_weights h l w' M Ew)]|]. intros w' Ew. destruct (made_weights h l w' M Ew) as (_ & _ & X). lia.
      * cbn [s_buf s_losses]. rewrite read_app by (rewrite app_length; cbn; lia). rewrite read_new. apply zeros_length.
    + intros l Hl. apply own_ext. intros w' Ew. apply Rd. destruct (F l Hl) as (M & _). apply (made_weights h l w' M Ew).
Qed.

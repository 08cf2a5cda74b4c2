(** Histories of evaluations; copy and subsample. *)
From Coq Require Import Reals List Lra Lia Arith Bool.
From Verif Require Import M_affine M_buffer P_buffer Vec Spec M_quad SpecConvex M_loss SpecLoss P_quad P_calc P_sep P_loss P_loss2.
Import ListNotations.
Local Open Scope R_scope.

(** ** Histories *)
Lemma weigh_none : forall h l r n, l_cw l = None -> weigh h l (Some r) n = (h, r).
Proof. intros h l r n E. unfold weigh. rewrite E. auto. Qed.
Lemma gstep_none : forall g h o, l_cw (g_loss g) = None -> gstep g h o = h.
Proof. intros g h [b m|b d] E; cbn [gstep]; unfold glm_eval, loss_eval, glm_hess, hess_eval; rewrite weigh_none by auto; auto. Qed.
Theorem glm_history : forall ops g h, l_cw (g_loss g) = None -> grun g h ops = h.
Proof. induction ops as [|o ops IH]; intros g h E; auto. unfold grun in *. cbn. rewrite gstep_none by auto. auto. Qed.
Lemma gstep_some : forall g h o w, l_cw (g_loss g) = Some w -> gstep g h o = write h (g_cw g) (vmul (read h (g_cw g)) (read h w)).
Proof. intros g h [b m|b d] w E; cbn [gstep]; unfold glm_eval, loss_eval, glm_hess, hess_eval, weigh; rewrite E; auto. Qed.
Theorem glm_weights_decay : forall ops g h w n, l_cw (g_loss g) = Some w -> w <> g_cw g -> (g_cw g < length h)%nat -> length (read h w) = n -> length (read h (g_cw g)) = n ->
  forall i, (i < n)%nat -> nth i (read (grun g h ops) (g_cw g)) 0 = nth i (read h (g_cw g)) 0 * nth i (read h w) 0 ^ length ops.
Proof.
  induction ops as [|o ops IH]; intros g h w n E N B Lw Lg i Hi; [cbn [length pow]; change (grun g h []) with h; ring|]. change (grun g h (o :: ops)) with (grun g (gstep g h o) ops). rewrite (gstep_some g h o w E).
  rewrite (IH g _ w n); auto; [|rewrite write_length; auto|rewrite read_write_other by auto; auto|rewrite read_write_same by auto; unfold vmul; apply zl; auto].
  rewrite read_write_same, read_write_other by auto. unfold vmul. rewrite (nth_zip0 _ _ _ n) by auto. cbn [length pow]. ring.
Qed.
Lemma vmul_ones : forall n v, length v = n -> vmul (ones n) v = v.
Proof. intros n v <-. induction v as [|a v IH]; auto. cbn. unfold vmul, ones in *. cbn. f_equal; [ring|auto]. Qed.
Lemma weigh_own : forall h l n h1 c, weigh h l None n = (h1, c) -> (forall w, l_cw l = Some w -> (w < length h)%nat) -> (forall w, l_cw l = Some w -> length (read h w) = n) ->
  read h1 c = (match l_cw l with Some w => read h w | None => ones n end) /\ (length h <= length h1)%nat /\ forall r, (r < length h)%nat -> read h1 r = read h r.
Proof.
  intros h l n h1 c E B L. unfold weigh in E. destruct (l_cw l) as [w|]; injection E as <- <-.
  - assert (Hw := B w eq_refl). rewrite read_write_same by (rewrite app_length; cbn; lia). rewrite read_new, (read_app h [ones n] w) by auto. rewrite vmul_ones by auto. split; [auto|]. rewrite write_length, app_length. split; [lia|]. intros r Hr. rewrite read_write_other by lia. apply read_app. auto.
  - rewrite read_new, app_length. split; [auto|]. split; [lia|]. intros r Hr. apply read_app. auto.
Qed.
Lemma made_weights : forall h l w, made h l -> l_cw l = Some w -> length (read h w) = l_shape l /\ nonneg (read h w) /\ (w < length h)%nat.
Proof.
  intros h l w (off & q & E & B & F & O) Ew. assert (Hb := B w Ew). unfold new_loss in E. rewrite Ew in E.
  destruct (Rlt_dec (l_coef l) 0); [discriminate|]. destruct (negb (check_data _)); [discriminate|]. destruct (any_neg (read h w)) eqn:A; [discriminate|]. destruct (negb (Nat.eqb (length (read h w)) (cases (l_fam l)))) eqn:C; [discriminate|].
  apply negb_false_iff, Nat.eqb_eq in C. split; [|split; auto].
  - etransitivity; [exact C|]. destruct (l_fam l); cbn in *; auto; tauto.
  - apply Forall_forall. intros a Ha. destruct (Rlt_dec a 0) as [N|N]; [|lra]. exfalso. unfold any_neg in A. assert (X : existsb (fun a => if Rlt_dec a 0 then true else false) (read h w) = true) by (apply existsb_exists; exists a; split; auto; destruct (Rlt_dec a 0); auto). congruence.
Qed.
Theorem eval_own : forall h l x m, made h l -> length x = l_shape l ->
  snd (loss_eval h l None x m) = smooth_value (l_fam l) (l_coef l) (l_offset l) (own_weights h l) x m /\
  forall r, (r < length h)%nat -> read (fst (loss_eval h l None x m)) r = read h r.
Proof.
  intros h l x m M Lx. unfold loss_eval. destruct (weigh h l None (length x)) as [h1 c] eqn:E. destruct (weigh_own h l (length x) h1 c E) as (V & _ & R).
  - intros w Hw. apply (made_weights h l w M Hw).
  - intros w Hw. rewrite Lx. apply (made_weights h l w M Hw).
  - cbn. split; auto. rewrite V. unfold own_weights. rewrite Lx. auto.
Qed.
Lemma made_ext : forall h h' l, made h l -> (length h <= length h')%nat -> (forall r, (r < length h)%nat -> read h' r = read h r) -> made h' l.
Proof.
  intros h h' l (off & q & E & B & F & O) Lh R. exists off, q. split; [|split; [intros w Hw; specialize (B w Hw); lia|auto]]. etransitivity; [|exact E]. unfold new_loss. destruct (l_cw l) as [w|]; auto. rewrite (R w (B w eq_refl)). auto.
Qed.
Lemma eval_frame : forall h l x m, made h l -> length x = l_shape l -> made (fst (loss_eval h l None x m)) l /\ own_weights (fst (loss_eval h l None x m)) l = own_weights h l /\ (length h <= length (fst (loss_eval h l None x m)))%nat.
Proof.
  intros h l x m M Lx. destruct (eval_own h l x m M Lx) as [_ R]. assert (Lh : (length h <= length (fst (loss_eval h l None x m)))%nat).
  { unfold loss_eval. destruct (weigh h l None (length x)) as [h1 c] eqn:E. cbn. apply (weigh_own h l (length x) h1 c E); intros w Hw; [apply (made_weights h l w M Hw)|rewrite Lx; apply (made_weights h l w M Hw)]. }
  split; [apply (made_ext h); auto|]. split; auto. unfold own_weights. destruct (l_cw l) as [w|] eqn:Ew; auto. apply R. apply (made_weights h l w M Ew).
Qed.
Theorem loss_history : forall ops h l, made h l -> Forall (fun o => length (fst o) = l_shape l) ops -> (forall r, (r < length h)%nat -> read (lrun l h ops) r = read h r) /\
  forall x m, length x = l_shape l -> snd (loss_eval (lrun l h ops) l None x m) = smooth_value (l_fam l) (l_coef l) (l_offset l) (own_weights h l) x m.
Proof.
  induction ops as [|[y m'] ops IH]; intros h l M F.
  - split; auto. intros x m Lx. apply eval_own; auto.
  - assert (Ly := Forall_inv F). cbn in Ly. apply Forall_inv_tail in F. destruct (eval_frame h l y m' M Ly) as (M' & W & Lh). destruct (eval_own h l y m' M Ly) as [_ R]. destruct (IH _ l M' F) as [R' V].
    change (lrun l h ((y, m') :: ops)) with (lrun l (fst (loss_eval h l None y m')) ops). split.
    + intros r Hr. rewrite R' by lia. auto.
    + intros x m Lx. rewrite V by auto. rewrite W. auto.
Qed.
(** ** copy *)
Definition same_loss (l l' : loss) : Prop := l_fam l' = l_fam l /\ l_shape l' = l_shape l /\ l_coef l' = l_coef l /\ l_offset l' = l_offset l.
Lemma new_loss_fields : forall h k n c off q w l, new_loss h k n c off q w = Ok l -> l_fam l = k /\ l_shape l = n /\ l_coef l = c /\ l_cw l = w /\
  l_offset l = (match off with Some v => if all_zero v then None else Some v | None => None end) /\ 0 <= c.
Proof.
  intros h k n c off q w l E. unfold new_loss in E. destruct (Rlt_dec c 0); [discriminate|]. destruct (negb _); [discriminate|]. destruct (match w with Some _ => _ | None => _ end); [discriminate|].
  destruct (if adds_const k then _ else _) as [q1|]; [|discriminate]. cbn in E. apply Ok_inj in E. subst l. cbn. repeat split; auto. lra.
Qed.
Lemma normal_offset : forall off : option vec, let o := (match off with Some v => if all_zero v then None else Some v | None => None end) in (match o with Some v => if all_zero v then None else Some v | None => None end) = o.
Proof. intros [v|]; cbn; auto. destruct (all_zero v) eqn:E; cbn; auto. rewrite E. auto. Qed.
Theorem copy_works : forall h l, made h l -> copies_weights (l_fam l) = true \/ l_cw l = None ->
  exists h' l', copy_loss h l = (h', Ok l') /\ same_loss l l' /\ made h' l' /\ own_weights h' l' = own_weights h l /\ (length h <= length h')%nat /\ (forall r, (r < length h)%nat -> read h' r = read h r) /\
    (forall w, l_cw l' = Some w -> (length h <= w)%nat) /\ (l_cw l' = None <-> l_cw l = None) /\
    rbind (if adds_const (l_fam l) then q_add (l_quad l) (AQuad (mk_iq 0 (FScal 0) (FScal 0) (dev_const (l_fam l) (l_coef l)))) else Ok (l_quad l)) (fun q => Ok q) = Ok (l_quad l').
Proof.
  intros h l M C. destruct M as (off & q & E & B & F & O). assert (M : made h l) by (exists off, q; auto).
  destruct (new_loss_fields _ _ _ _ _ _ _ _ E) as (_ & _ & _ & _ & Eo & Hc).
  assert (Chk : negb (check_data (l_fam l)) = false). { unfold new_loss in E. destruct (Rlt_dec (l_coef l) 0); [discriminate|]. destruct (negb (check_data (l_fam l))); auto. discriminate. }
  assert (Fo : off_fits (l_shape l) (l_offset l)). { rewrite Eo. destruct off as [v|]; cbn in *; auto. destruct (all_zero v); cbn; auto. }
  assert (No : (match l_offset l with Some v => if all_zero v then None else Some v | None => None end) = l_offset l) by (rewrite Eo; apply normal_offset).
  assert (Q : exists q1, (if adds_const (l_fam l) then q_add (l_quad l) (AQuad (mk_iq 0 (FScal 0) (FScal 0) (dev_const (l_fam l) (l_coef l)))) else Ok (l_quad l)) = Ok q1) by (destruct (adds_const (l_fam l)); cbn; eauto).
  destruct Q as [q1 Q].
  assert (N : forall h' w', (match w' with Some r => any_neg (read h' r) || negb (Nat.eqb (length (read h' r)) (cases (l_fam l))) | None => false end) = false ->
    new_loss h' (l_fam l) (l_shape l) (l_coef l) (l_offset l) (Some (l_quad l)) w' = Ok (mk_loss (l_fam l) (l_shape l) (l_coef l) (l_offset l) q1 w')).
  { intros h' w' H. unfold new_loss. destruct (Rlt_dec (l_coef l) 0); [lra|]. rewrite Chk, H, Q, No. auto. }
  unfold copy_loss. destruct (l_cw l) as [w|] eqn:Ew.
  - destruct C as [C|C]; [|discriminate]. rewrite C. assert (Wf : any_neg (read h w) || negb (Nat.eqb (length (read h w)) (cases (l_fam l))) = false).
    { unfold new_loss in E. destruct (Rlt_dec (l_coef l) 0); [discriminate|]. rewrite Chk in E. destruct (any_neg (read h w) || _); auto. discriminate. }
    assert (X := N (h ++ [read h w]) (Some (length h))). cbv beta iota in X. rewrite !read_new in X. specialize (X Wf).
    eexists. eexists. split; [rewrite X; reflexivity|]. split; [unfold same_loss; cbn; auto|]. split; [|split; [|split; [|split; [|split; [|split]]]]].
    + exists (l_offset l), (Some (l_quad l)). cbn. rewrite X. split; auto. split; auto. intros w' Hw'. injection Hw' as <-. rewrite app_length. cbn. lia.
    + unfold own_weights. cbn. rewrite Ew, read_new. auto.
    + rewrite app_length. lia.
    + intros r Hr. apply read_app. auto.
    + cbn. intros w' Hw'. injection Hw' as <-. lia.
    + cbn. split; discriminate.
    + rewrite Q. reflexivity.
  - specialize (N h None eq_refl). eexists. eexists. split; [rewrite N; reflexivity|]. split; [unfold same_loss; cbn; auto|]. split; [|split; [|split; [|split; [|split; [|split]]]]].
    + exists (l_offset l), (Some (l_quad l)). cbn. rewrite N. split; [auto|]. split; [intros w' Hw'; discriminate|auto].
    + unfold own_weights. cbn. rewrite Ew. auto.
    + lia.
    + auto.
    + cbn. discriminate.
    + cbn. tauto.
    + rewrite Q. reflexivity.
Qed.
Lemma write_frame : forall h w v r, r <> w -> read (write h w v) r = read h r.
Proof. intros. apply read_write_other. auto. Qed.
(** The copy evaluates like the original, whatever is later written into the arrays that existed before. *)
Theorem copy_value : forall h l h' l', made h l -> copies_weights (l_fam l) = true \/ l_cw l = None -> copy_loss h l = (h', Ok l') ->
  (forall x m, length x = l_shape l -> snd (loss_eval h' l' None x m) = snd (loss_eval h l None x m)) /\
  (forall h2, (length h' <= length h2)%nat -> (forall r, (length h <= r < length h')%nat -> read h2 r = read h' r) -> forall x m, length x = l_shape l -> snd (loss_eval h2 l' None x m) = snd (loss_eval h l None x m)).
Proof.
  intros h l h' l' M C E. destruct (copy_works h l M C) as (h1 & l1 & E1 & (S1 & S2 & S3 & S4) & M1 & W & Lh & R & Fr & _ & _). rewrite E1 in E. injection E as -> ->.
  assert (K : forall h2, made h2 l' -> own_weights h2 l' = own_weights h' l' -> forall x m, length x = l_shape l -> snd (loss_eval h2 l' None x m) = snd (loss_eval h l None x m)).
  { intros h2 M2 W2 x m Lx. destruct (eval_own h2 l' x m M2 ltac:(congruence)) as [V _]. destruct (eval_own h l x m M Lx) as [V' _]. rewrite V, V', S1, S3, S4. congruence. }
  split; [intros x m Lx; apply K; auto|]. intros h2 L2 R2. 
  assert (G : forall w, l_cw l' = Some w -> read h2 w = read h' w) by (intros w Hw; apply R2; split; [apply Fr; auto|apply (made_weights h' l' w M1 Hw)]).
  apply K.
  - destruct M1 as (off & q & E & B & F & O). exists off, q. split; [|split; auto; intros w Hw; specialize (B w Hw); lia]. etransitivity; [|exact E]. unfold new_loss. destruct (l_cw l') as [w|] eqn:Ew; auto. rewrite (G w eq_refl). auto.
  - unfold own_weights. destruct (l_cw l') as [w|] eqn:Ew; auto.
Qed.
(** ** subsample *)
Lemma indicator_restrict : forall idx w, vmul w (indicator (length w) idx) = restrict idx w.
Proof.
  intros idx w. unfold vmul, indicator, restrict. apply (nth_ext _ _ 0 0); [rewrite (zl _ _ _ (length w)); rewrite ?map_length, ?seq_length; auto|].
  intros i Hi. rewrite (zl _ _ _ (length w)) in Hi by (rewrite ?map_length, ?seq_length; auto). rewrite (nth_zip0 _ _ _ (length w)) by (rewrite ?map_length, ?seq_length; auto).
  assert (N : forall f : nat -> R, nth i (map f (seq 0 (length w))) 0 = f i). { intros f. rewrite (nth_indep _ 0 (f 0%nat)) by (rewrite map_length, seq_length; auto). rewrite (map_nth f), seq_nth by auto. auto. }
  rewrite !N. destruct (in_dec Nat.eq_dec i idx) as [I|I].
  - replace (existsb (Nat.eqb i) idx) with true; [ring|]. symmetry. apply existsb_exists. exists i. split; auto. apply Nat.eqb_refl.
  - destruct (existsb (Nat.eqb i) idx) eqn:E; [|ring]. exfalso. apply existsb_exists in E. destruct E as (j & Hj & Ej). apply Nat.eqb_eq in Ej. subst j. auto.
Qed.
Lemma restrict_length : forall idx w, length (restrict idx w) = length w.
Proof. intros. unfold restrict. rewrite map_length, seq_length. auto. Qed.
Lemma ones_length : forall n, length (ones n) = n.
Proof. intros. unfold ones, const_vec. apply repeat_length. Qed.
Theorem subsample_value : forall h l idx, made h l -> copies_weights (l_fam l) = true \/ l_cw l = None -> Forall (fun i => (i < l_shape l)%nat) idx ->
  exists h' l', subsample_loss h l idx = (h', Ok l') /\ (forall r, (r < length h)%nat -> read h' r = read h r) /\
    forall x m, length x = l_shape l -> snd (loss_eval h' l' None x m) = smooth_value (l_fam l) (l_coef l) (l_offset l) (restrict idx (own_weights h l)) x m.
Proof.
  intros h l idx M C F. destruct (copy_works h l M C) as (h1 & l1 & E1 & (S1 & S2 & S3 & S4) & M1 & W & Lh & R & Fr & Nn & _). unfold subsample_loss. rewrite E1.
  replace (forallb (fun i => Nat.ltb i (l_shape l)) idx) with true by (symmetry; apply forallb_forall; rewrite Forall_forall in F; intros i Hi; apply Nat.ltb_lt; auto). cbn [negb].
  destruct (l_cw l1) as [w|] eqn:Ew.
  - destruct (made_weights h1 l1 w M1 Ew) as (Lw & Nw & Bw). eexists. eexists. split; [reflexivity|]. split.
    + intros r Hr. rewrite read_write_other; [auto|]. specialize (Fr w eq_refl). lia.
    + intros x m Lx. unfold loss_eval. match goal with |- context [weigh ?h ?l None ?n] => destruct (weigh h l None n) as [h2 c] eqn:E end. destruct (weigh_own _ _ _ _ _ E) as (V & _ & _).
      * intros w' Hw'. rewrite write_length. rewrite Ew in Hw'. injection Hw' as <-. auto.
      * intros w' Hw'. rewrite Ew in Hw'. injection Hw' as <-. rewrite read_write_same by auto. rewrite indicator_restrict, restrict_length. congruence.
      * cbn [snd]. rewrite V, Ew, read_write_same by auto. rewrite indicator_restrict, S1, S3, S4. unfold own_weights in W at 1. rewrite Ew in W. rewrite W. auto.
  - eexists. eexists. split; [reflexivity|]. split.
    + intros r Hr. rewrite read_app by lia. auto.
    + intros x m Lx. unfold loss_eval. match goal with |- context [weigh ?h ?l None ?n] => destruct (weigh h l None n) as [h2 c] eqn:E end. destruct (weigh_own _ _ _ _ _ E) as (V & _ & _).
      * cbn. intros w' Hw'. injection Hw' as <-. rewrite app_length. cbn. lia.
      * cbn. intros w' Hw'. injection Hw' as <-. rewrite read_new. assert (X := indicator_restrict idx (ones (l_shape l))). rewrite ones_length in X. rewrite X, restrict_length, ones_length. auto.
      * cbn in V. cbn [snd l_fam l_coef l_offset]. rewrite V, read_new, S1, S3, S4. assert (X := indicator_restrict idx (ones (l_shape l))). rewrite ones_length in X. rewrite X. unfold own_weights. replace (l_cw l) with (@None ref) by (symmetry; apply Nn; auto). auto.
Qed.
(** ** glm: copies and subsamples of a glm whose saturated loss has no weights of its own *)
Definition glm_ok (h : heap) (g : glm) : Prop := made h (g_loss g) /\ l_cw (g_loss g) = None /\ (g_cw g < length h)%nat /\ length (read h (g_cw g)) = l_shape (g_loss g).
Lemma glm_eval_none : forall h g b m, l_cw (g_loss g) = None -> glm_eval h g b m = (h, rbind (smooth_value (l_fam (g_loss g)) (l_coef (g_loss g)) (l_offset (g_loss g)) (read h (g_cw g)) (g_map g (sub_offset (g_offset g) b)) m)
  (fun v => match v with VFunc f => Ok (VFunc f) | VGrad u => Ok (VGrad (g_adj g u)) | VBoth f u => Ok (VBoth f (g_adj g u)) end)).
Proof. intros h g b m E. unfold glm_eval, loss_eval. rewrite weigh_none by auto. auto. Qed.
Theorem glm_copy : forall h g, glm_ok h g -> exists h' g', copy_glm h g = (h', Ok g') /\ (length h <= g_cw g' < length h')%nat /\ glm_ok h' g' /\ (forall r, (r < length h)%nat -> read h' r = read h r) /\
  (forall b m, snd (glm_eval h' g' b m) = snd (glm_eval h g b m)).
Proof.
  intros h g (M & N & B & L). destruct (copy_works h (g_loss g) M (or_intror N)) as (h1 & l1 & E1 & (S1 & S2 & S3 & S4) & M1 & W & Lh & R & Fr & Nn & _). unfold copy_glm. rewrite E1.
  assert (N1 : l_cw l1 = None) by (apply Nn; auto). eexists. eexists. split; [reflexivity|]. cbn [g_cw g_loss]. rewrite app_length. split; [cbn; lia|]. split; [split; [|split; [auto|split]]|].
  - cbn. apply (made_ext h1); auto; [rewrite app_length; lia|]. intros r Hr. apply read_app. auto.
  - cbn. rewrite app_length. cbn. lia.
  - cbn. rewrite read_new, R by auto. congruence.
  - split; [intros r Hr; rewrite read_app by lia; auto|]. intros b m. rewrite !glm_eval_none by auto. cbn [snd g_loss g_map g_adj g_offset g_cw]. rewrite read_new, R, S1, S3, S4 by auto. auto.
Qed.
Theorem glm_subsample : forall h g idx, glm_ok h g -> Forall (fun i => (i < l_shape (g_loss g))%nat) idx -> exists h' g', subsample_glm h g idx = (h', Ok g') /\ (forall r, (r < length h)%nat -> read h' r = read h r) /\
  (forall b m, snd (glm_eval h' g' b m) = snd (glm_eval (write h (g_cw g) (restrict idx (read h (g_cw g)))) g b m)).
Proof.
  intros h g idx H F. destruct (glm_copy h g H) as (h1 & g1 & E1 & Bd & H1 & R & V). destruct H as (M & N & B & L). unfold subsample_glm. rewrite E1.
  replace (forallb (fun i => Nat.ltb i (l_shape (g_loss g))) idx) with true by (symmetry; apply forallb_forall; rewrite Forall_forall in F; intros i Hi; apply Nat.ltb_lt; auto). cbn [negb].
  eexists. eexists. split; [reflexivity|]. split; [intros r Hr; rewrite read_write_other by lia; auto|]. intros b m. destruct H1 as (M1 & N1 & B1 & L1).
  unfold copy_glm in E1. destruct (copy_works h (g_loss g) M (or_intror N)) as (h2 & l2 & E2 & (S1 & S2 & S3 & S4) & M2 & W & Lh & R2 & Fr & Nn & _). rewrite E2 in E1. injection E1 as <- <-. cbn [g_cw g_loss] in *.
  rewrite !glm_eval_none by auto. cbn [snd g_loss g_map g_adj g_offset g_cw]. rewrite !read_write_same by auto. rewrite read_new, R2, S1, S3, S4 by auto. rewrite <- L, indicator_restrict. auto.
Qed.
(** ** What copies lose *)
Theorem huber_copy_loses_weights : let h := [[2]] in let l := mk_loss (Huber [0] 1) 1 1 None (mk_iq 0 (FScal 0) (FScal 0) 0) (Some 0%nat) in made h l /\
  exists h' l', copy_loss h l = (h', Ok l') /\ snd (loss_eval h l None [1] EvFunc) = Ok (VFunc 1) /\ snd (loss_eval h' l' None [1] EvFunc) = Ok (VFunc (/ 2)).
Proof.
  cbv zeta. split.
  - exists None, None. cbn. split; [|split; [|split; [split; [auto|lra]|auto]]].
    + unfold new_loss. cbn. destruct (Rlt_dec 1 0); [lra|]. destruct (Rlt_dec 2 0); [lra|]. reflexivity.
    + intros w Hw. injection Hw as <-. lia.
  - eexists. eexists. split; [unfold copy_loss, new_loss; cbn; destruct (Rlt_dec 1 0); [lra|]; reflexivity|].
    assert (P : huber_proj 1 (1 - 0) = 1). { rewrite huber_proj_clip by lra. replace ((1 - 0) / 1) with 1 by field. unfold Rmin, Rmax. repeat destruct (Rle_dec _ _); lra. }
    unfold loss_eval, weigh. cbn -[huber_val scale]. unfold huber_val. rewrite P, !scale_eq. split; do 2 f_equal; lra.
Qed.
Theorem logistic_copy_moves_constant : let l := mk_loss (Logistic [1] [2]) 1 1 None (mk_iq 0 (FScal 0) (FScal 0) 0) None in
  exists h' l', copy_loss [] l = (h', Ok l') /\ (forall x, length x = 1%nat -> q_denot 1 (l_quad l) x = 0 /\ q_denot 1 (l_quad l') x = - 2 * ln 2).
Proof.
  cbv zeta. eexists. eexists. split.
  - unfold copy_loss, new_loss. cbn [l_cw l_fam l_shape l_coef l_offset l_quad]. destruct (Rlt_dec 1 0); [lra|]. cbn [check_data any_neg vsub vzip existsb]. destruct (Rlt_dec (2 - 1) 0); [lra|]. destruct (Rlt_dec 1 0); [lra|]. cbn. reflexivity.
  - intros x Lx. destruct x as [|a [|]]; cbn in Lx; try discriminate. assert (T : binomial_term 1 2 = - 2 * ln 2).
    { unfold binomial_term. cbv zeta. destruct (Req_EM_T (1 / 2) 0); [lra|]. destruct (Req_EM_T (1 / 2) 1); [lra|]. replace (1 - 1 / 2) with (/ 2) by lra. replace (1 / 2) with (/ 2) by lra. rewrite ln_Rinv by lra. lra. }
    unfold q_denot. cbn. rewrite T. unfold quad_fun, sqn, dot. cbn. split; lra.
Qed.

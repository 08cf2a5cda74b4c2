(** Cross-validation of lasso paths from end to end. *)
From Coq Require Import Reals List Lra Lia Arith Bool ZArith Permutation FunctionalExtensionality.
From Verif Require Import M_affine SpecAffine Vec Spec SpecConvex M_quad M_buffer M_loss SpecLoss P_quad P_calc P_sep P_loss P_loss2 P_loss4 SpecSmooth SpecCv M_cv P_cv M_path SpecPath P_path P_path2 P_path3 P_path4 M_semi M_subprob SpecSubprob P_subprob
  M_crossval SpecCrossval.
Import ListNotations.
Local Open Scope R_scope.

Lemma fold_eval : forall h l train, made h l -> copies_weights (l_fam l) = true \/ l_cw l = None -> length train = l_shape l -> (0 < size train)%nat ->
  exists h' l', fold_loss h l train = (h', Ok l') /\ l_shape l' = l_shape l /\ off_fits (l_shape l) (l_offset l) /\ length (restrict (picked train) (own_weights h l)) = l_shape l /\
    forall x m, length x = l_shape l -> snd (loss_eval h' l' None x m) = smooth_value (l_fam l) (l_coef l * (INR (l_shape l) / INR (size train))) (l_offset l) (restrict (picked train) (own_weights h l)) x m.
Proof.
  intros h l train M C Lt Hs. assert (F : Forall (fun i => (i < l_shape l)%nat) (picked train)). { rewrite Forall_forall. intros i Hi. apply picked_in in Hi. lia. }
  destruct (subsample_weights h l (picked train) M C F) as (h' & l' & E & R & S1 & S2 & S3 & S4 & w & Ew & Bw & Vw & Lw). unfold fold_loss. rewrite E. cbn [rbind]. rewrite picked_size.
  destruct (Nat.eqb_spec (size train) 0) as [Z|NZ]; [lia|]. eexists. eexists. split; [reflexivity|]. cbn [l_shape]. split; [auto|].
  split. { destruct M as (off & q & En & Bm & Fm & Om). destruct (new_loss_fields _ _ _ _ _ _ _ _ En) as (_ & _ & _ & _ & -> & _). destruct off as [v|]; cbn; auto. destruct (all_zero v); cbn; auto. }
  split; [rewrite <- Vw; auto|]. intros x m Lx. unfold loss_eval.
  match goal with |- context [weigh ?h ?l None ?n] => destruct (weigh h l None n) as [h2 c] eqn:Ec end. destruct (weigh_own _ _ _ _ _ Ec) as (V & _ & _).
  { cbn. intros w' Hw'. rewrite Ew in Hw'. injection Hw' as <-. auto. }
  { cbn. intros w' Hw'. rewrite Ew in Hw'. injection Hw' as <-. lia. }
  cbn in V. rewrite Ew in V. cbn [snd l_fam l_coef l_offset]. rewrite V, Vw, S1, S3, S4, Lt. reflexivity.
Qed.
Definition only {A} (n : nat) (F : vec -> A) (d : A) (z : vec) : A := if Nat.eqb (length z) n then F z else d.
Lemma fold_path_value : forall h l train X w e alpha, made h l -> copies_weights (l_fam l) = true \/ l_cw l = None -> length train = l_shape l -> (0 < size train)%nat ->
  let c := l_coef l * (INR (l_shape l) / INR (size train)) in let W := restrict (picked train) (own_weights h l) in
  fold_path h l train X w e alpha = Ok (mk_lpath (only (l_shape l) (loss_grad (l_fam l) c (l_offset l) W) []) (only (l_shape l) (loss_func (l_fam l) c (l_offset l) W) 0) X w e alpha).
Proof.
  intros h l train X w e alpha M C Lt Hs c W. destruct (fold_eval h l train M C Lt Hs) as (h' & l' & E & S & _ & _ & V). unfold fold_path. rewrite E. unfold rmap. cbn [rbind]. unfold path_of. f_equal.
  f_equal; apply functional_extensionality; intros z; [unfold grad_at|unfold func_at]; unfold only; rewrite S; destruct (Nat.eqb_spec (length z) (l_shape l)) as [Lz|Lz]; auto; rewrite V by auto; reflexivity.
Qed.
(** ** The training path is as good as the whole one *)
Lemma restrict_nonneg : forall idx w, nonneg w -> nonneg (restrict idx w).
Proof.
  intros idx w H. unfold restrict, nonneg. rewrite Forall_forall. intros a Ha. apply in_map_iff in Ha as (i & <- & Hi). apply in_seq in Hi. destruct (in_dec Nat.eq_dec i idx); [|lra].
  unfold nonneg in H. rewrite Forall_forall in H. apply H. apply nth_In. lia.
Qed.
Lemma own_nonneg : forall h l, made h l -> nonneg (own_weights h l).
Proof.
  intros h l M. unfold own_weights. destruct (l_cw l) as [w|] eqn:Ew; [apply (made_weights h l w M Ew)|]. unfold nonneg, ones, const_vec. rewrite Forall_forall. intros a Ha. apply repeat_spec in Ha. subst. lra.
Qed.
Lemma made_fits : forall h l, made h l -> fits (l_fam l) (l_shape l) /\ 0 <= l_coef l.
Proof. intros h l (off & q & En & _ & F & _). split; auto. unfold new_loss in En. destruct (Rlt_dec (l_coef l) 0); [discriminate|lra]. Qed.
Lemma scale_nonneg : forall c n s, 0 <= c -> (0 < s)%nat -> 0 <= c * (INR n / INR s).
Proof. intros c n s Hc Hs. apply Rmult_le_pos; auto. apply Rmult_le_pos; [apply pos_INR|]. apply Rlt_le, Rinv_0_lt_compat, lt_0_INR. auto. Qed.
Lemma tame_cases : forall k off x, tame k -> Forall (exact_case k) (predictor k off x) /\ regular k (predictor k off x).
Proof.
  intros k off x (C & N). split; [|unfold regular]; rewrite Forall_forall; intros a _; destruct k; cbn in *; auto; contradiction.
Qed.
Lemma only_good : forall k n c off W X w e alpha p, fits k n -> off_fits n off -> length W = n -> 0 <= c -> nonneg W -> tame k -> good_design X p n -> length w = p -> nonneg w -> length e = p -> nonneg e -> 0 < alpha <= 1 ->
  good_path (mk_lpath (only n (loss_grad k c off W) []) (only n (loss_func k c off W) 0) X w e alpha).
Proof.
  intros k n c off W X w e alpha p F O LW Hc NW T GX Lw Nw Le Ne Ha. destruct GX as (A & B & Ei & Eo). assert (Sz : forall x d t, length x = n -> length d = n -> length (vadd x (vscal t d)) = n). { intros x d t Lx Ld. unfold vadd. apply vzip_length2; auto. unfold vscal. rewrite map_length. auto. }
  split; unfold lp_size; cbn [lp_X lp_weights lp_enet lp_alpha lp_func lp_grad]; rewrite ?Ei, ?Eo.
  - exact (conj A (conj B (conj Ei Eo))).
  - split; auto.
  - split; auto.
  - auto.
  - destruct T as (C & N). assert (V := loss_convex k n c off W F O LW Hc NW C N). intros x y t Lx Ly Ht. assert (Lb : length (between x y t) = n). { unfold between. apply Sz; auto. unfold vsub. apply vzip_length2; auto. }
    unfold only. rewrite Lx, Ly, Lb, Nat.eqb_refl. apply V; auto.
  - intros x Lx. unfold only at 2. rewrite Lx, Nat.eqb_refl. destruct (loss_gradient k n c off W x F O LW Lx (proj2 (tame_cases k off x T))) as (L & G). split; auto. intros d Ld.
    specialize (G d Ld). eapply derive_ext; [|exact G]. intros t. unfold only. rewrite Sz by auto. rewrite Nat.eqb_refl. reflexivity.
Qed.
(** ** From the zero solution, whatever the gradient one starts with *)
Lemma strong_any : forall P, good_path P -> (forall j, (j < lp_size P)%nat -> 0 < nth j (lp_weights P) 0) -> forall M, sized M ->
  (forall set l, index_set (lp_size P) set -> 0 < l -> minimized M (length set) (objective (sub_loss P set l) (lasso_pen P set l))) -> forall chk max_tries fuel l0 ls g, Forall (fun l => 0 < l) ls -> (max_tries + 4 <= fuel)%nat -> (5 <= max_tries)%nat ->
  exists pts, strong_rules fuel P (path_solver M P (lasso_pen P)) chk max_tries (l0 :: ls) (zeros (lp_size P)) g = Ok pts /\ map pt_lagrange pts = ls /\
    Forall (fun pt => length (pt_beta pt) = lp_size P /\ ((lp_size P < max_tries)%nat -> pt_warned pt = false) /\ (pt_warned pt = false -> forall v, length v = lp_size P ->
      path_objective P (pt_lagrange pt) (pt_beta pt) <= path_objective P (pt_lagrange pt) v + kkt_tol * (lp_alpha P * pt_lagrange pt * sum_over (lp_size P) (fun j => nth j (lp_weights P) 0 * Rabs (nth j v 0))))) pts.
Proof.
  intros P GP Wp M S1 S2 chk max_tries fuel l0 ls g Pl Hf H5. destruct (lasso_exact P GP M S1 S2) as (RS & XS).
  assert (B := bound_le max_tries). rewrite Nat.max_r in B by lia. destruct (path_ends P (path_solver M P (lasso_pen P)) chk max_tries fuel ls l0 (start_state P (zeros (lp_size P)) g) ltac:(lia)) as (pts & E & _). exists pts. split; [exact E|].
  destruct (path_spec P GP _ chk max_tries fuel ls l0 _ pts RS (start_ok P g) E) as (L & F1). split; auto. assert (F2 := path_exact P GP _ chk max_tries fuel RS XS ls l0 _ pts Pl (start_ok P g) (repeat_length _ _) E).
  rewrite Forall_forall in *. intros pt Hp. destruct (F1 pt Hp) as ((I & Eb & _) & A & _). destruct (F2 pt Hp) as (_ & W & So). destruct So as (Ls & So).
  split; [rewrite Eb; apply embed_length; auto|]. split; [intros Hm; destruct (pt_warned pt); auto; specialize (W eq_refl); lia|]. intros Nw v Lv. destruct (A Nw) as (Pa & _). rewrite Eb in *. apply nearly_optimal; auto; [|split; auto].
  apply Pl. rewrite <- L. apply in_map. auto.
Qed.
(** the objective along the training path *)
Lemma train_value : forall h l train X w e alpha lam v p, made h l -> copies_weights (l_fam l) = true \/ l_cw l = None -> length train = l_shape l -> (0 < size train)%nat -> tame (l_fam l) ->
  good_design X p (l_shape l) -> length v = p -> (forall j, (j < p)%nat -> 0 < nth j w 0) -> forall P, fold_path h l train X w e alpha = Ok P -> path_objective P lam v = train_objective h l train X w e alpha lam v.
Proof.
  intros h l train X w e alpha lam v p M C Lt Hs T GX Lv Wp P E. destruct (fold_eval h l train M C Lt Hs) as (_ & _ & _ & _ & Of & Lr & _). rewrite fold_path_value in E by auto. injection E as <-.
  destruct GX as (A & B & Ei & Eo). assert (LX : length (t_lin X v) = l_shape l). { rewrite <- Eo. apply A. congruence. }
  unfold path_objective, lasso_objective, smooth_part, train_objective, lp_size. cbn [lp_X lp_weights lp_enet lp_alpha lp_func lp_grad]. f_equal. f_equal.
  - unfold only. rewrite LX, Nat.eqb_refl. destruct (made_fits h l M) as (F & Hc). rewrite (loss_value (l_fam l) (l_shape l)) by (auto; apply tame_cases; auto). unfold doc_loss. f_equal. apply sum_over_ext. intros i Hi.
    unfold restrict. rewrite restrict_length in Lr.
    rewrite (nth_indep _ 0 ((fun i => if in_dec Nat.eq_dec i (picked train) then nth i (own_weights h l) 0 else 0) 0%nat)) by (rewrite map_length, seq_length; lia).
    rewrite (map_nth (fun i => if in_dec Nat.eq_dec i (picked train) then nth i (own_weights h l) 0 else 0)), seq_nth by lia. cbn [plus]. destruct (in_dec Nat.eq_dec i (picked train)) as [I|I].
    + apply picked_in in I. destruct I as (_ & ->). auto.
    + destruct (nth i train false) eqn:Et; [|ring]. exfalso. apply I, picked_in. split; auto. lia.
  - f_equal. apply sum_over_ext. intros j Hj. rewrite Ei in Hj. specialize (Wp j Hj). destruct (Req_EM_T (nth j w 0) 0); [lra|]. reflexivity.
Qed.
(** ** The jobs *)
Lemma jobs_spec : forall fit folds, (forall train g, snd (fit train g) = g) -> forall order g, run_jobs fit folds order g = (map (fun k => (k, fst (fit (fst (nth k folds ([], []))) g))) order, g).
Proof.
  intros fit folds H. induction order as [|k order IH]; intros g; cbn [run_jobs map]; auto. destruct (fit (fst (nth k folds ([], []))) g) as [r g1] eqn:E. assert (g1 = g) by (rewrite <- (H (fst (nth k folds ([], []))) g), E; auto). subst. rewrite IH. reflexivity.
Qed.
Definition unpack (r : res fitted) : res (list vec) := match r with Ok (Dict b _) => Ok b | Ok (Solutions _) => Err IndexError | Err x => Err x end.
Lemma beta_spec : forall (F : nat -> res fitted) order k, In k order -> beta_of (map (fun k => (k, F k)) order) k = unpack (F k).
Proof.
  intros F order k. unfold beta_of. induction order as [|j order IH]; intros Hk; [contradiction|]. cbn [map find fst]. destruct (Nat.eqb_spec j k) as [->|N]; [destruct (F k) as [[b w|a]|x]; reflexivity|]. apply IH. destruct Hk; [contradiction|auto].
Qed.
Lemma all_ok_spec : forall A (g : nat -> A) ks (F : nat -> res A), (forall k, In k ks -> F k = Ok (g k)) -> all_ok (map F ks) = Ok (map g ks).
Proof. intros A g ks F. induction ks as [|k ks IH]; intros H; [reflexivity|]. cbn [map all_ok]. rewrite (H k) by (left; auto). cbn [rbind]. rewrite IH by (intros; apply H; right; auto). reflexivity. Qed.
Lemma combine_map_seq : forall A B (l : list A) (g : A -> B) d, combine l (map (fun k => g (nth k l d)) (seq 0 (length l))) = map (fun a => (a, g a)) l.
Proof.
  intros A B l g d. induction l as [|a l IH]; [reflexivity|]. cbn [length seq map combine nth]. f_equal. rewrite <- seq_shift, map_map. cbn [nth]. exact IH.
Qed.
Lemma train_inhabited : forall n folds, partitions n folds -> (2 <= length folds)%nat -> forall f, In f folds -> (0 < size (fst f))%nat.
Proof.
  intros n folds (F & U) H2 f Hf. rewrite Forall_forall in F. apply (In_nth _ _ ([], [])) in Hf as (k & Hk & Ef). assert (exists k', (k' < length folds)%nat /\ k' <> k) as (k' & Hk' & Nk). { destruct k; [exists 1%nat|exists 0%nat]; lia. }
  destruct (F (nth k' folds ([], [])) (nth_In _ _ Hk')) as (L' & _ & i & Hi & Ti). destruct (F f) as (L & Etr & _); [rewrite <- Ef; apply nth_In; auto|].
  destruct (U i Hi) as (u & _ & Uq). assert (A := Uq k' (conj Hk' Ti)). destruct (nth i (snd f) false) eqn:Es; [exfalso; apply Nk; rewrite <- A; apply Uq; split; auto; rewrite Ef; auto|].
  rewrite <- picked_size. assert (In i (picked (fst f))). { apply picked_in. rewrite Etr, map_length. split; [lia|]. rewrite (nth_indep _ false (negb false)) by (rewrite map_length; lia). rewrite map_nth, Es. reflexivity. }
  destruct (picked (fst f)); [contradiction|cbn; lia].
Qed.

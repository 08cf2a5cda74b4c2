(** The class methods of glm. *)
From Coq Require Import Reals ZArith List Arith Lra Lia Bool Classical.
From Verif Require Import Vec Spec M_quad M_buffer M_affine M_loss M_probit SpecProbit SpecLoss SpecSmooth P_quad P_buffer P_loss P_loss2 P_loss4 P_loss5 P_loss6 P_smooth P_sklearn1 P_probit2 M_mglm M_factory SpecFactory.
Import ListNotations.
Local Open Scope R_scope.

Lemma counts_forall2 : forall s t : vec, length s = length t -> (counts (length s) s t <-> Forall2 (fun a b => 0 <= a <= b) s t).
Proof.
  intros s t L. split.
  - intros (_ & _ & H). revert t L H. induction s as [|a s IH]; intros [|b t] L H; try discriminate; constructor.
    + exact (H 0%nat ltac:(cbn; lia)).
    + apply IH; [cbn in L; lia|]. intros i Hi. exact (H (S i) ltac:(cbn; lia)).
  - intros H. split; auto. split; auto. clear L. induction H; intros i Hi; [cbn in Hi; lia|]. destruct i as [|i]; cbn; [auto|]. apply IHForall2. cbn in Hi. lia.
Qed.
Lemma binary_given : forall s t : vec, length s = length t -> (Forall2 (fun a b => 0 <= a <= b) s t -> binary_data s (Some t) = Ok (s, t)) /\ (~ Forall2 (fun a b => 0 <= a <= b) s t -> binary_data s (Some t) = Err ValueError).
Proof.
  intros s t L. destruct (set_data_given None s (Some t) t eq_refl) as [A B]. rewrite counts_forall2 in A, B by auto. split; intros H; unfold binary_data; [rewrite (A H)|rewrite (B H)]; auto.
Qed.
Lemma binary_default : forall s, (Forall (fun a => a = 0 \/ a = 1) s -> binary_data s None = Ok (s, ones (length s))) /\ (~ Forall (fun a => a = 0 \/ a = 1) s -> binary_data s None = Err ValueError).
Proof.
  intros s. destruct (set_data_binary s) as [A B]. split; intros H; unfold binary_data; [rewrite (A H); auto|]. specialize (B H). destruct (set_data None s None) as [[s' [t'|]] r]; cbn in B; subst r; auto.
Qed.
Lemma zero_one_counts : forall s, Forall (fun a => a = 0 \/ a = 1) s -> Forall2 (fun a b => 0 <= a <= b) s (ones (length s)).
Proof. induction s as [|a s IH]; intros H; cbn; constructor; [assert (X := Forall_inv H); cbn in X; lra|]. apply IH. eapply Forall_inv_tail; eauto. Qed.
Lemma family_ok : forall D n, data_fits D n -> legal_spec D -> data_family D = Ok (doc_family D) /\ legal_data (doc_family D).
Proof.
  intros [y|s [t|]|s [t|]|y|y e|y e] n F L; unfold data_fits in F; cbn [data_family doc_family legal_spec legal_data fits] in *; auto; try (destruct F as [L1 L2]).
  - rewrite (proj1 (binary_given s t ltac:(congruence)) L). auto.
  - rewrite (proj1 (binary_default s) L). split; auto. apply zero_one_counts; auto.
  - rewrite (proj1 (binary_given s t ltac:(congruence)) L). auto.
  - rewrite (proj1 (binary_default s) L). split; auto. apply zero_one_counts; auto.
Qed.
Lemma family_bad : forall D n, data_fits D n -> ~ legal_spec D -> data_family D = Err ValueError \/ (data_family D = Ok (doc_family D) /\ ~ legal_data (doc_family D)).
Proof.
  intros [y|s [t|]|s [t|]|y|y e|y e] n F L; unfold data_fits in F; cbn [data_family doc_family legal_spec legal_data fits] in *; auto; try (destruct F as [L1 L2]).
  - left. rewrite (proj2 (binary_given s t ltac:(congruence)) L). auto.
  - left. rewrite (proj2 (binary_default s) L). auto.
  - left. rewrite (proj2 (binary_given s t ltac:(congruence)) L). auto.
  - left. rewrite (proj2 (binary_default s) L). auto.
Qed.
Lemma fits_cases : forall k n, fits k n -> cases k = n.
Proof. intros [] n F; cbn in *; intuition. Qed.
Lemma with_own : forall l, with_family l (l_fam l) = l.
Proof. intros []. reflexivity. Qed.
Lemma set_given : forall old (s t : vec), length s = length t -> Forall2 (fun a b => 0 <= a <= b) s t -> set_data old s (Some t) = (s, Some t, Ok tt).
Proof. intros old s t L H. apply (set_data_given old s (Some t) t eq_refl). apply counts_forall2; auto. Qed.
Lemma set_kept : forall s t : vec, length s = length t -> Forall2 (fun a b => 0 <= a <= b) s t -> set_data (Some t) s None = (s, Some t, Ok tt).
Proof. intros s t L H. apply (set_data_given (Some t) s None t eq_refl). apply counts_forall2; auto. Qed.
Lemma reassign : forall l n, fits (l_fam l) n -> legal_data (l_fam l) -> assign_loss l (fst (passed (l_fam l))) (snd (passed (l_fam l))) = (l, Ok tt) /\ assign_loss l (fst (passed (l_fam l))) None = (l, Ok tt).
Proof.
  intros l n F L. assert (W := with_own l). unfold assign_loss. destruct (l_fam l) eqn:E; cbn [passed fst snd] in *; try (rewrite W; auto; fail).
  - destruct F as [F1 F2]. rewrite set_given, set_kept by (auto; congruence). rewrite W. auto.
  - destruct F as [F1 F2]. rewrite set_given, set_kept by (auto; congruence). rewrite W. auto.
Qed.
Lemma classic_spec : forall D, legal_spec D \/ ~ legal_spec D.
Proof. intros D. apply classic. Qed.
Lemma classic_weights : forall D n c w, (0 <= c /\ legal_spec D /\ legal_weights n w) \/ ~ (0 <= c /\ legal_spec D /\ legal_weights n w).
Proof. intros. apply classic. Qed.
(** The object a class method returns *)
Record built (h h1 : heap) (X : transform) (D : dataspec) (n : nat) (c : R) (soff off : option vec) (q : option iq) (w : option ref) (g : glm) : Prop := mk_built {
  b_fam : l_fam (g_loss g) = doc_family D; b_shape : l_shape (g_loss g) = n; b_coef : l_coef (g_loss g) = c; b_off : l_offset (g_loss g) = stored soff; b_cw : l_cw (g_loss g) = None;
  b_made : new_loss h (doc_family D) n c soff None None = Ok (g_loss g);
  b_map : g_map g = t_lin X; b_adj : g_adj g = t_adj X; b_cols : g_cols g = t_in X; b_goff : g_offset g = stored off; b_quad : g_quad g = match q with Some q => q | None => mk_iq 0 (FScal 0) (FScal 0) 0 end;
  b_read : read h1 (g_cw g) = weights_of h n w; b_heap : h1 = match w with Some _ => h | None => h ++ [ones n] end; b_ref : g_cw g = match w with Some r => r | None => length h end;
  b_weights : legal_weights n (weights_of h n w); b_c : 0 <= c; b_legal : legal_spec D }.
Lemma new_glm_ok : forall h l X off q w h1 g n, new_glm h l X off q w = (h1, Ok g) -> t_out X = n -> l_shape l = n ->
  g = mk_glm l (t_lin X) (t_adj X) (t_in X) (stored off) (match q with Some q => q | None => mk_iq 0 (FScal 0) (FScal 0) 0 end) (match w with Some r => r | None => length h end) /\
  h1 = match w with Some _ => h | None => h ++ [ones n] end /\ read h1 (g_cw g) = weights_of h n w /\ legal_weights n (weights_of h n w).
Proof.
  intros h l X off q w h1 g n E O S. unfold new_glm in E. rewrite O, S in E. destruct w as [r|].
  - injection E as <- E. destruct (any_neg (read h r)) eqn:A; [discriminate|]. destruct (negb _) eqn:B; [discriminate|]. apply Ok_inj in E. subst g. split; [reflexivity|]. split; [reflexivity|]. split; [reflexivity|].
    cbn [weights_of]. split; [apply Nat.eqb_eq, negb_false_iff; exact B|apply any_neg_false; exact A].
  - injection E as <- E. rewrite read_new in E. destruct (any_neg (ones n)) eqn:A; [discriminate|]. destruct (negb _) eqn:B; [discriminate|]. apply Ok_inj in E. subst g. split; [reflexivity|]. split; [reflexivity|]. split; [cbn [g_cw weights_of]; apply read_new|].
    cbn [weights_of]. split; [apply Nat.eqb_eq, negb_false_iff; exact B|apply any_neg_false; exact A].
Qed.
Lemma new_glm_accepts : forall h l X off q w n, t_out X = n -> l_shape l = n ->
  (legal_weights n (weights_of h n w) -> exists h1 g, new_glm h l X off q w = (h1, Ok g)) /\ (~ legal_weights n (weights_of h n w) -> exists h1, new_glm h l X off q w = (h1, Err ValueError)).
Proof.
  intros h l X off q w n O S. unfold new_glm. rewrite O, S.
  assert (K : forall h1 r v, read h1 r = v ->
    (legal_weights n v -> exists g, (if any_neg (read h1 r) then Err ValueError else if negb (Nat.eqb (length (read h1 r)) n) then Err ValueError else Ok (mk_glm l (t_lin X) (t_adj X) (t_in X) (stored off) (match q with Some q => q | None => mk_iq 0 (FScal 0) (FScal 0) 0 end) r)) = Ok g) /\
    (~ legal_weights n v -> (if any_neg (read h1 r) then Err ValueError else if negb (Nat.eqb (length (read h1 r)) n) then Err ValueError else Ok (mk_glm l (t_lin X) (t_adj X) (t_in X) (stored off) (match q with Some q => q | None => mk_iq 0 (FScal 0) (FScal 0) 0 end) r)) = Err ValueError)).
  { intros h1 r v ->. unfold legal_weights. rewrite <- any_neg_false. destruct (any_neg v); [split; auto; intros [_ X0]; discriminate|]. destruct (Nat.eqb (length v) n) eqn:B; cbn [negb].
    - apply Nat.eqb_eq in B. split; [eauto|]. intros N. exfalso. apply N. auto.
    - apply Nat.eqb_neq in B. split; auto. intros [X0 _]. contradiction. }
  destruct w as [r|]; cbn [weights_of].
  - destruct (K h r (read h r) eq_refl) as [A B]. split; intros H; [destruct (A H) as [g Eg]; exists h, g; f_equal; exact Eg|exists h; f_equal; exact (B H)].
  - destruct (K (h ++ [ones n]) (length h) (ones n) (read_new _ _)) as [A B]. split; intros H; [destruct (A H) as [g Eg]; exists (h ++ [ones n]), g; f_equal; exact Eg|exists (h ++ [ones n]); f_equal; exact (B H)].
Qed.
Theorem make_accepts : forall h X D n c soff off q w, data_fits D n -> t_out X = n ->
  ((exists h1 g, glm_make h X D c soff off q w = (h1, Ok g)) <-> 0 <= c /\ legal_spec D /\ legal_weights n (weights_of h n w)) /\
  (~ (0 <= c /\ legal_spec D /\ legal_weights n (weights_of h n w)) -> snd (glm_make h X D c soff off q w) = Err ValueError).
Proof.
  intros h X D n c soff off q w F O. assert (Fc := fits_cases _ _ F). assert (F' : fits (doc_family D) (cases (doc_family D))) by (rewrite Fc; exact F).
  destruct (new_loss_accepts h (doc_family D) n c soff None F') as [Ac Re].
  assert (P : (0 <= c /\ legal_spec D /\ legal_weights n (weights_of h n w)) -> exists h1 g, glm_make h X D c soff off q w = (h1, Ok g)).
  { intros (Hc & Hl & Hw). destruct (family_ok D n F Hl) as [Ef Ld]. unfold glm_make. rewrite Ef. cbn [rbind]. rewrite Fc.
    destruct (proj2 Ac ltac:(split; [auto|split; [auto|discriminate]])) as [l El]. rewrite El. destruct (new_loss_fields _ _ _ _ _ _ _ _ El) as (E1 & E2 & _).
    destruct (reassign l n) as [Ra _]; [rewrite E1; exact F|rewrite E1; auto|]. rewrite Ra. apply (new_glm_accepts h l X off q w n O E2). exact Hw. }
  assert (N : ~ (0 <= c /\ legal_spec D /\ legal_weights n (weights_of h n w)) -> snd (glm_make h X D c soff off q w) = Err ValueError).
  { intros Nn. unfold glm_make. assert (Fam : data_family D = Err ValueError \/ data_family D = Ok (doc_family D)).
    { destruct (classic_spec D) as [Hl|Hl]; [right; apply (family_ok D n); auto|]. destruct (family_bad D n F Hl) as [E|[E _]]; auto. }
    destruct Fam as [->| Ef]; [reflexivity|]. rewrite Ef. cbn [rbind]. rewrite Fc. destruct (new_loss h (doc_family D) n c soff None None) as [l|e] eqn:El.
    - destruct (proj1 Ac (ex_intro _ l eq_refl)) as (Hc & Ld & _). destruct (new_loss_fields _ _ _ _ _ _ _ _ El) as (E1 & E2 & _).
      assert (Hl : legal_spec D). { destruct (classic_spec D) as [Hl|Hl]; auto. destruct (family_bad D n F Hl) as [E|[_ E]]; [congruence|contradiction]. }
      destruct (reassign l n) as [Ra _]; [rewrite E1; exact F|rewrite E1; auto|]. rewrite Ra. destruct (proj2 (new_glm_accepts h l X off q w n O E2)) as [h1 ->]; [tauto|reflexivity].
    - cbn [snd]. assert (Z : Err e = Err ValueError :> res loss) by (apply Re; intros l; discriminate). injection Z as ->. reflexivity. }
  split; [|exact N]. split; [|exact P]. intros (h1 & g & E). destruct (classic_weights D n c (weights_of h n w)) as [Y|Y]; auto. specialize (N Y). rewrite E in N. discriminate.
Qed.

Lemma make_built : forall h X D n c soff off q w h1 g, data_fits D n -> t_out X = n -> glm_make h X D c soff off q w = (h1, Ok g) -> built h h1 X D n c soff off q w g.
Proof.
  intros h X D n c soff off q w h1 g F O E. destruct (make_accepts h X D n c soff off q w F O) as [Ac _]. destruct (proj1 Ac (ex_intro _ h1 (ex_intro _ g E))) as (Hc & Hl & Hw).
  assert (Fc := fits_cases _ _ F). destruct (family_ok D n F Hl) as [Ef Ld]. unfold glm_make in E. rewrite Ef in E. cbn [rbind] in E. rewrite Fc in E.
  destruct (new_loss h (doc_family D) n c soff None None) as [l|e] eqn:El; [|discriminate]. destruct (new_loss_fields _ _ _ _ _ _ _ _ El) as (E1 & E2 & E3 & E4 & E5 & _).
  destruct (reassign l n) as [Ra _]; [rewrite E1; exact F|rewrite E1; auto|]. rewrite Ra in E. destruct (new_glm_ok h l X off q w h1 g n E O E2) as (Eg & Eh & Er & Ew). subst g. constructor; cbn; auto.
Qed.
Lemma built_eval : forall h h1 X D n c soff off q w g b m, built h h1 X D n c soff off q w g -> t_out X = n -> off_fits n soff -> length (t_lin X (minus b off)) = n -> off_fits (t_in X) off -> length b = t_in X ->
  glm_eval h1 g b m = (h1, rbind (M_loss.smooth_value (doc_family D) c soff (weights_of h n w) (t_lin X (minus b off)) m) (fun v => match v with VFunc f => Ok (VFunc f) | VGrad u => Ok (VGrad (t_adj X u)) | VBoth f u => Ok (VBoth f (t_adj X u)) end)).
Proof.
  intros h h1 X D n c soff off q w g b m B O So Le Ho Lb. rewrite glm_eval_none by (apply (b_cw _ _ _ _ _ _ _ _ _ _ _ B)).
  rewrite (b_fam _ _ _ _ _ _ _ _ _ _ _ B), (b_coef _ _ _ _ _ _ _ _ _ _ _ B), (b_off _ _ _ _ _ _ _ _ _ _ _ B), (b_read _ _ _ _ _ _ _ _ _ _ _ B), (b_map _ _ _ _ _ _ _ _ _ _ _ B), (b_adj _ _ _ _ _ _ _ _ _ _ _ B), (b_goff _ _ _ _ _ _ _ _ _ _ _ B).
  rewrite (stored_minus off b (t_in X) Lb Ho). f_equal.
  assert (S : forall x, length x = n -> M_loss.smooth_value (doc_family D) c (stored soff) (weights_of h n w) x m = M_loss.smooth_value (doc_family D) c soff (weights_of h n w) x m).
  { intros x Lx. unfold M_loss.smooth_value. rewrite (loss_stored _ _ _ _ _ n Lx So). unfold loss_grad. rewrite (stored_minus soff x n Lx So). replace (sub_offset soff x) with (minus x soff) by (destruct soff; auto). reflexivity. }
  rewrite S by auto. reflexivity.
Qed.
Theorem make_value : forall h X D n p c soff off q w h1 g b, data_fits D n -> good_design X p n -> off_fits n soff -> off_fits p off -> length b = p ->
  glm_make h X D c soff off q w = (h1, Ok g) ->
  (forall r, (r < length h)%nat -> read h1 r = read h r) /\ g_quad g = match q with Some q => q | None => mk_iq 0 (FScal 0) (FScal 0) 0 end /\
  (Forall (exact_case (doc_family D)) (eta X (doc_family D) soff off b) -> glm_eval h1 g b EvFunc = (h1, Ok (VFunc (doc_loss (doc_family D) n c (weights_of h n w) (eta X (doc_family D) soff off b))))) /\
  exists F u, (forall z, length z = p -> glm_eval h1 g z EvFunc = (h1, Ok (VFunc (F z)))) /\ glm_eval h1 g b EvGrad = (h1, Ok (VGrad u)) /\ glm_eval h1 g b EvBoth = (h1, Ok (VBoth (F b) u)) /\
    glm_eval h1 g b EvOther = (h1, Err ValueError) /\ (regular (doc_family D) (eta X (doc_family D) soff off b) -> is_gradient p F b u).
Proof.
  intros h X D n p c soff off q w h1 g b Fd G So Ho Lb E. assert (G' := G). destruct G' as ((A1 & A2 & A3) & _ & En & Em). assert (B := make_built h X D n c soff off q w h1 g Fd Em E).
  assert (Le : forall z, length z = p -> length (t_lin X (minus z off)) = n) by (intros z Lz; rewrite A1; [auto|]; rewrite En; apply minus_length; auto).
  assert (Lw : length (weights_of h n w) = n) by (apply (b_weights _ _ _ _ _ _ _ _ _ _ _ B)).
  assert (Ev : forall z m, length z = p -> glm_eval h1 g z m = (h1, rbind (M_loss.smooth_value (doc_family D) c soff (weights_of h n w) (t_lin X (minus z off)) m) (fun v => match v with VFunc f => Ok (VFunc f) | VGrad u => Ok (VGrad (t_adj X u)) | VBoth f u => Ok (VBoth f (t_adj X u)) end))).
  { intros z m Lz. apply (built_eval h h1 X D n c soff off q w g z m B Em So (Le z Lz)); [rewrite En; auto|congruence]. }
  split; [|split; [|split]].
  - intros r Hr. rewrite (b_heap _ _ _ _ _ _ _ _ _ _ _ B). destruct w; auto. apply read_app; auto.
  - apply (b_quad _ _ _ _ _ _ _ _ _ _ _ B).
  - intros Ex. rewrite Ev by auto. cbn [M_loss.smooth_value rbind]. rewrite (loss_value (doc_family D) n) by (auto; apply Le; auto). reflexivity.
  - exists (fun z => loss_func (doc_family D) c soff (weights_of h n w) (t_lin X (minus z off))), (t_adj X (loss_grad (doc_family D) c soff (weights_of h n w) (t_lin X (minus b off)))).
    split; [intros z Lz; rewrite Ev by auto; reflexivity|]. split; [rewrite Ev by auto; reflexivity|]. split; [rewrite Ev by auto; reflexivity|]. split; [rewrite Ev by auto; reflexivity|].
    intros Rg. apply (glm_chain X p n off (loss_func (doc_family D) c soff (weights_of h n w)) b); auto. apply loss_gradient; auto.
Qed.
(** ** Assigning to data *)
Definition kin (k1 k2 : family) : Prop :=
  match k1, k2 with
  | Gaussian _, Gaussian _ | Logistic _ _, Logistic _ _ | Cloglog _ _, Cloglog _ _ | Poisson _, Poisson _ => True
  | Huber _ e, Huber _ e' | HuberSvm _ e, HuberSvm _ e' => e = e'
  | _, _ => False
  end.
Lemma assign_kin : forall l y t, let l' := fst (assign_loss l y t) in kin (l_fam l) (l_fam l') /\ l_shape l' = l_shape l /\ l_coef l' = l_coef l /\ l_offset l' = l_offset l /\ l_cw l' = l_cw l /\ l_quad l' = l_quad l.
Proof. intros l y t. unfold assign_loss. destruct (l_fam l) eqn:E; cbn zeta; try (destruct (set_data _ _ _) as [[s' t'] r]); cbn; repeat split; auto. Qed.
Lemma kin_trans : forall a b c, kin a b -> kin b c -> kin a c.
Proof. intros [] [] []; cbn; intros; subst; auto; contradiction. Qed.
Lemma kin_sym : forall a b, kin a b -> kin b a.
Proof. intros [] []; cbn; auto. Qed.
Definition like (g g' : glm) : Prop := kin (l_fam (g_loss g)) (l_fam (g_loss g')) /\ l_shape (g_loss g') = l_shape (g_loss g) /\ l_coef (g_loss g') = l_coef (g_loss g) /\ l_offset (g_loss g') = l_offset (g_loss g) /\ l_cw (g_loss g') = l_cw (g_loss g) /\ l_quad (g_loss g') = l_quad (g_loss g) /\
  g_map g' = g_map g /\ g_adj g' = g_adj g /\ g_cols g' = g_cols g /\ g_offset g' = g_offset g /\ g_quad g' = g_quad g /\ g_cw g' = g_cw g.
Lemma kin_refl : forall k, kin k k. Proof. intros []; cbn; auto. Qed.
Lemma assign_like : forall g X y t, like (d_glm g) (d_glm (fst (glm_assign g X y t))).
Proof.
  intros g X y t. unfold glm_assign. assert (K := assign_kin (g_loss (d_glm g)) y t). destruct (assign_loss _ y t) as [l r]. cbn in K. destruct K as (K1 & K2 & K3 & K4 & K5 & K6). unfold like. cbn. repeat split; auto.
Qed.
Lemma like_trans : forall a b c, like a b -> like b c -> like a c.
Proof. intros a b c (A1 & A2 & A3 & A4 & A5 & A6 & A7 & A8 & A9 & A10 & A11 & A12) (B1 & B2 & B3 & B4 & B5 & B6 & B7 & B8 & B9 & B10 & B11 & B12). unfold like. repeat split; try congruence. eapply kin_trans; eauto. Qed.
Lemma history_like : forall hist g, like (d_glm g) (d_glm (assignments g hist)).
Proof.
  induction hist as [|o hist IH]; intros g; [unfold like; repeat split; apply kin_refl|]. cbn [assignments fold_left]. eapply like_trans; [apply (assign_like g (fst (fst o)) (snd (fst o)) (snd o))|]. apply IH.
Qed.
Lemma assign_complete : forall l D n, kin (l_fam l) (doc_family D) -> data_fits D n -> names_trials D -> (legal_spec D \/ exists y, D = DPoisson y) -> assign_loss l (fst (assigned D)) (snd (assigned D)) = (with_family l (doc_family D), Ok tt).
Proof.
  intros l D n K F N L. unfold assign_loss. destruct D as [y|s [t|]|s [t|]|y|y e|y e]; cbn [names_trials] in N; try contradiction; unfold data_fits in F; cbn [doc_family assigned fst snd fits] in *; destruct (l_fam l); cbn [kin] in K; try contradiction; subst; try reflexivity.
  - destruct F as [F1 F2]. destruct L as [L|[y0 X]]; [|discriminate]. cbn [legal_spec legal_data doc_family] in L. rewrite set_given by (auto; congruence). reflexivity.
  - destruct F as [F1 F2]. destruct L as [L|[y0 X]]; [|discriminate]. cbn [legal_spec legal_data doc_family] in L. rewrite set_given by (auto; congruence). reflexivity.
Qed.
Lemma same_kin : forall D1 D2, same_kind D1 D2 -> kin (doc_family D1) (doc_family D2).
Proof. intros [] [] H; cbn in *; auto. Qed.
(** After any history, a complete assignment gives a model with the new data and the first design. *)
Theorem assign_last : forall h X X2 D D2 n c soff off q w h1 g hist, data_fits D n -> data_fits D2 n -> t_out X = n -> same_kind D D2 -> names_trials D2 -> legal_spec D2 ->
  glm_make h X D c soff off q w = (h1, Ok g) ->
  exists g2 gf, glm_assign (assignments (fresh X g) hist) X2 (fst (assigned D2)) (snd (assigned D2)) = (g2, Ok tt) /\ glm_make h X D2 c soff off q w = (h1, Ok gf) /\
    (forall b m, d_eval h1 g2 b m = glm_eval h1 gf b m) /\ (forall b, d_predictor g2 b = t_lin X2 b) /\ (X2 = X -> forall b d, d_hess h1 g2 b d = glm_hess h1 gf b d).
Proof.
  intros h X X2 D D2 n c soff off q w h1 g hist F F2 O S N L E. assert (B := make_built h X D n c soff off q w h1 g F O E).
  destruct (history_like hist (fresh X g)) as (K1 & K2 & K3 & K4 & K5 & K6 & K7 & K8 & K9 & K10 & K11 & K12). cbn [fresh d_glm] in *. unfold fresh in *. set (g' := assignments (mk_dglm g X) hist) in *.
  assert (Kk : kin (l_fam (g_loss (d_glm g'))) (doc_family D2)).
  { assert (Sk := same_kin _ _ S). rewrite <- (b_fam _ _ _ _ _ _ _ _ _ _ _ B) in Sk. eapply kin_trans; [apply kin_sym; exact K1|exact Sk]. }
  assert (A := assign_complete (g_loss (d_glm g')) D2 n Kk F2 N (or_introl L)).
  destruct (make_accepts h X D2 n c soff off q w F2 O) as [Ac _]. destruct (proj2 Ac) as (h1' & gf & Ef); [split; [apply (b_c _ _ _ _ _ _ _ _ _ _ _ B)|split; [exact L|apply (b_weights _ _ _ _ _ _ _ _ _ _ _ B)]]|].
  assert (Bf := make_built h X D2 n c soff off q w h1' gf F2 O Ef). assert (Eh : h1' = h1) by (rewrite (b_heap _ _ _ _ _ _ _ _ _ _ _ Bf), (b_heap _ _ _ _ _ _ _ _ _ _ _ B); reflexivity). subst h1'.
  exists (mk_dglm (with_loss (d_glm g') (with_family (g_loss (d_glm g')) (doc_family D2))) X2), gf. split; [unfold glm_assign; rewrite A; reflexivity|]. split; [exact Ef|]. split; [|split].
  - intros b m. unfold d_eval. cbn [d_glm]. rewrite !glm_eval_none; [|apply (b_cw _ _ _ _ _ _ _ _ _ _ _ Bf)|cbn; rewrite K5; apply (b_cw _ _ _ _ _ _ _ _ _ _ _ B)].
    cbn [with_loss with_family g_loss g_map g_adj g_offset g_cw l_fam l_coef l_offset]. rewrite K3, K4, K7, K8, K10, K12.
    rewrite (b_coef _ _ _ _ _ _ _ _ _ _ _ B), (b_off _ _ _ _ _ _ _ _ _ _ _ B), (b_map _ _ _ _ _ _ _ _ _ _ _ B), (b_adj _ _ _ _ _ _ _ _ _ _ _ B), (b_goff _ _ _ _ _ _ _ _ _ _ _ B), (b_ref _ _ _ _ _ _ _ _ _ _ _ B).
    rewrite (b_fam _ _ _ _ _ _ _ _ _ _ _ Bf), (b_coef _ _ _ _ _ _ _ _ _ _ _ Bf), (b_off _ _ _ _ _ _ _ _ _ _ _ Bf), (b_map _ _ _ _ _ _ _ _ _ _ _ Bf), (b_adj _ _ _ _ _ _ _ _ _ _ _ Bf), (b_goff _ _ _ _ _ _ _ _ _ _ _ Bf), (b_ref _ _ _ _ _ _ _ _ _ _ _ Bf). reflexivity.
  - reflexivity.
  - intros -> b d. unfold d_hess, glm_hess, hess_eval, d_predictor. cbn [d_glm d_X with_loss with_family g_loss g_cw]. rewrite !weigh_none; [|apply (b_cw _ _ _ _ _ _ _ _ _ _ _ Bf)|cbn; rewrite K5; apply (b_cw _ _ _ _ _ _ _ _ _ _ _ B)].
    cbn [with_loss with_family g_loss g_cw l_fam l_coef]. cbv zeta. rewrite K3, K12. rewrite (b_coef _ _ _ _ _ _ _ _ _ _ _ B), (b_ref _ _ _ _ _ _ _ _ _ _ _ B).
    rewrite (b_fam _ _ _ _ _ _ _ _ _ _ _ Bf), (b_coef _ _ _ _ _ _ _ _ _ _ _ Bf), (b_map _ _ _ _ _ _ _ _ _ _ _ Bf), (b_adj _ _ _ _ _ _ _ _ _ _ _ Bf), (b_ref _ _ _ _ _ _ _ _ _ _ _ Bf). reflexivity.
Qed.
(** A copy is a model with the design assigned last. *)
Theorem assign_copy : forall h X X2 D D2 n c soff off q w h1 g hist g2, data_fits D n -> data_fits D2 n -> t_out X = n -> t_out X2 = n -> same_kind D D2 -> names_trials D2 -> legal_spec D2 ->
  glm_make h X D c soff off q w = (h1, Ok g) -> glm_assign (assignments (fresh X g) hist) X2 (fst (assigned D2)) (snd (assigned D2)) = (g2, Ok tt) ->
  exists h2 gc gf, d_copy h1 g2 = (h2, Ok gc) /\ glm_make h X2 D2 c soff off q w = (h1, Ok gf) /\ (forall b m, snd (d_eval h2 gc b m) = snd (glm_eval h1 gf b m)) /\ (forall r, (r < length h1)%nat -> read h2 r = read h1 r).
Proof.
  intros h X X2 D D2 n c soff off q w h1 g hist g2 F F2 O O2 S N L E Ea. assert (B := make_built h X D n c soff off q w h1 g F O E).
  destruct (history_like hist (fresh X g)) as (K1 & K2 & K3 & K4 & K5 & K6 & K7 & K8 & K9 & K10 & K11 & K12). cbn [fresh d_glm] in *. unfold fresh in *. set (g' := assignments (mk_dglm g X) hist) in *.
  assert (Kk : kin (l_fam (g_loss (d_glm g'))) (doc_family D2)).
  { assert (Sk := same_kin _ _ S). rewrite <- (b_fam _ _ _ _ _ _ _ _ _ _ _ B) in Sk. eapply kin_trans; [apply kin_sym; exact K1|exact Sk]. }
  assert (A := assign_complete (g_loss (d_glm g')) D2 n Kk F2 N (or_introl L)).
  unfold glm_assign in Ea. rewrite A in Ea. injection Ea as <-.
  destruct (make_accepts h X2 D2 n c soff off q w F2 O2) as [Ac _]. destruct (proj2 Ac) as (h1' & gf & Ef); [split; [apply (b_c _ _ _ _ _ _ _ _ _ _ _ B)|split; [exact L|apply (b_weights _ _ _ _ _ _ _ _ _ _ _ B)]]|].
  assert (Bf := make_built h X2 D2 n c soff off q w h1' gf F2 O2 Ef). assert (Eh : h1' = h1) by (rewrite (b_heap _ _ _ _ _ _ _ _ _ _ _ Bf), (b_heap _ _ _ _ _ _ _ _ _ _ _ B); reflexivity). subst h1'.
  destruct (family_ok D2 n F2 L) as [_ Ld].
  set (l2 := with_family (g_loss (d_glm g')) (doc_family D2)) in *.
  assert (Cl : exists lc, copy_loss h1 l2 = (h1, Ok lc) /\ l_fam lc = doc_family D2 /\ l_shape lc = n /\ l_coef lc = c /\ l_offset lc = stored soff /\ l_cw lc = None).
  { unfold copy_loss. assert (Cw : l_cw l2 = None) by (unfold l2; cbn; rewrite K5; apply (b_cw _ _ _ _ _ _ _ _ _ _ _ B)). rewrite Cw.
    assert (X0 : exists lc, new_loss h1 (l_fam l2) (l_shape l2) (l_coef l2) (l_offset l2) (Some (l_quad l2)) None = Ok lc).
    { unfold new_loss. assert (Ec : l_coef l2 = c) by (unfold l2; cbn; rewrite K3; apply (b_coef _ _ _ _ _ _ _ _ _ _ _ B)). rewrite Ec. destruct (Rlt_dec c 0) as [Hn|_]; [assert (0 <= c) by apply (b_c _ _ _ _ _ _ _ _ _ _ _ B); lra|].
      assert (Ck : check_data (l_fam l2) = true).
      { unfold l2. cbn. assert (Bm := b_made _ _ _ _ _ _ _ _ _ _ _ Bf). unfold new_loss in Bm. destruct (Rlt_dec c 0); [discriminate|]. destruct (check_data (doc_family D2)); auto. discriminate. }
      rewrite Ck. cbn [negb]. destruct (adds_const (l_fam l2)); cbn; eauto. }
    destruct X0 as [lc X0]. exists lc. rewrite X0. split; auto. destruct (new_loss_fields _ _ _ _ _ _ _ _ X0) as (Y1 & Y2 & Y3 & Y4 & Y5 & _). unfold l2 in *. cbn in *. rewrite Y1, Y2, Y3, Y4, Y5, K2, K3, K4.
    split; [auto|]. split; [apply (b_shape _ _ _ _ _ _ _ _ _ _ _ B)|]. split; [apply (b_coef _ _ _ _ _ _ _ _ _ _ _ B)|]. split; [|auto]. rewrite (b_off _ _ _ _ _ _ _ _ _ _ _ B). apply normal_offset. }
  destruct Cl as (lc & Cl & Y1 & Y2 & Y3 & Y5 & Y4).
  assert (Rc : assign_loss lc (fst (passed (doc_family D2))) None = (lc, Ok tt)) by (rewrite <- Y1; apply (reassign lc n); rewrite Y1; auto).
  assert (Rw : read h1 (g_cw (d_glm g')) = weights_of h n w). { rewrite K12. apply (b_read _ _ _ _ _ _ _ _ _ _ _ B). }
  destruct (new_glm_accepts (h1 ++ [weights_of h n w]) lc X2 (g_offset (d_glm g')) (Some (g_quad (d_glm g'))) (Some (length h1)) n O2 Y2) as [Ac2 _].
  destruct Ac2 as (h2 & gc & Ec); [cbn [weights_of]; rewrite read_new; apply (b_weights _ _ _ _ _ _ _ _ _ _ _ B)|].
  destruct (new_glm_ok _ _ _ _ _ _ _ _ n Ec O2 Y2) as (Eg & Eh & Er & _). exists h2, (fresh X2 gc), gf. split; [|split; [exact Ef|split]].
  - unfold d_copy. cbn [d_glm with_loss g_loss g_cw g_offset g_quad d_X]. rewrite Cl. cbn [l2 with_family l_fam]. rewrite Rc, Rw, Ec. reflexivity.
  - intros b m. unfold d_eval. cbn [fresh d_glm]. assert (Cc : l_cw (g_loss gc) = None) by (rewrite Eg; exact Y4). rewrite !glm_eval_none by (auto; apply (b_cw _ _ _ _ _ _ _ _ _ _ _ Bf)). cbn [snd].
    rewrite Er. cbn [weights_of]. rewrite read_new. rewrite Eg. cbn [g_loss g_map g_adj g_offset]. rewrite Y1, Y3, Y5, K10, (b_goff _ _ _ _ _ _ _ _ _ _ _ B).
    rewrite (b_fam _ _ _ _ _ _ _ _ _ _ _ Bf), (b_coef _ _ _ _ _ _ _ _ _ _ _ Bf), (b_off _ _ _ _ _ _ _ _ _ _ _ Bf), (b_map _ _ _ _ _ _ _ _ _ _ _ Bf), (b_adj _ _ _ _ _ _ _ _ _ _ _ Bf), (b_goff _ _ _ _ _ _ _ _ _ _ _ Bf), (b_read _ _ _ _ _ _ _ _ _ _ _ Bf).
    replace (stored (stored off)) with (stored off) by (symmetry; apply normal_offset). reflexivity.
  - intros r Hr. rewrite Eh. apply read_app; auto.
Qed.

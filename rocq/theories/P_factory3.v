(** Class methods that cannot work, assignments that are refused, and concrete cases. *)
From Coq Require Import Reals ZArith List Arith Lra Lia Bool Classical.
From Verif Require Import Vec Spec M_quad M_buffer M_affine M_loss M_probit SpecProbit SpecLoss SpecSmooth SpecConvex P_quad P_buffer P_affine P_loss P_loss2 P_loss4 P_loss5 P_loss6 P_smooth P_sklearn1 P_probit2 M_mglm SpecMglm P_calc M_factory SpecFactory P_factory P_factory2 SpecSklearn P_sklearn3.
Import ListNotations.
Local Open Scope R_scope.

Lemma collect_forall2 : forall {A} (l : list (res A)) r, collect l = Ok r -> Forall2 (fun x y => x = Ok y) l r.
Proof.
  intros A. induction l as [|x l IH]; intros r E; cbn in E; [apply Ok_inj in E; subst; constructor|]. destruct x as [a|]; [|discriminate]. cbn in E. destruct (collect l) as [r'|]; [|discriminate]. apply Ok_inj in E. subst r. constructor; auto.
Qed.
Lemma misread_data : forall c s t z d, misread c s t = Ok (z, d) -> d = t /\ Forall (fun a => a = 0 \/ a = 1) t /\ integer_array s /\ 0 <= c.
Proof.
  intros c s t z d E. unfold misread in E. destruct (zeros_shape s) as [z'|] eqn:Z; [|discriminate]. cbn [rbind] in E. destruct (Rlt_dec c 0) as [|Hc]; [discriminate|]. destruct (classic (Forall (fun a => a = 0 \/ a = 1) t)) as [F|F].
  - rewrite (proj1 (binary_default t) F) in E. apply Ok_inj in E. injection E as _ <-. split; auto. split; auto. split; [|lra]. destruct s as [[|a v]|]; cbn in *; auto. discriminate.
  - rewrite (proj2 (binary_default t) F) in E. discriminate.
Qed.
Lemma losses_data : forall c ss ts ls, binary_losses c ss (Some ts) = Ok ls -> map snd ls = firstn (length ss) ts /\ (length ss <= length ts)%nat /\ Forall (Forall (fun a => a = 0 \/ a = 1)) (map snd ls) /\ Forall integer_array ss.
Proof.
  intros c ss ts ls E. unfold binary_losses in E. apply collect_forall2 in E.
  assert (G : forall ss k ls, Forall2 (fun x y => x = Ok y) (map (fun p : nat * narray => match nth_error ts (fst p) with None => Err IndexError | Some t => misread c (snd p) t end) (combine (seq k (length ss)) ss)) ls ->
    map snd ls = firstn (length ss) (skipn k ts) /\ (length ss <= length (skipn k ts))%nat /\ Forall (Forall (fun a => a = 0 \/ a = 1)) (map snd ls) /\ Forall integer_array ss).
  { clear. induction ss as [|s ss IH]; intros k ls H; cbn [length seq combine map] in H; inversion H as [|x y lx ly Hx Hr]; subst; [cbn; repeat split; auto; lia|]. cbn [fst snd] in Hx. destruct (nth_error ts k) as [t|] eqn:Et; [|discriminate].
    destruct y as [z d]. destruct (misread_data _ _ _ _ _ Hx) as (-> & F & Ia & _). destruct (IH (S k) ly Hr) as (A & B & C & D).
    assert (Sk : skipn k ts = t :: skipn (S k) ts). { clear - Et. revert ts Et. induction k as [|k IH]; intros [|a ts] Et; try discriminate; [injection Et as ->; reflexivity|]. apply IH. exact Et. }
    rewrite Sk. cbn [map snd firstn length]. rewrite A. repeat split; auto; [lia|]. constructor; auto. rewrite <- A. exact C. }
  destruct (G ss 0%nat ls E) as (A & B & C & D). cbn [skipn] in *. auto.
Qed.
(** What becomes the data of a stack of logistic losses: the trials *)
Theorem binary_swapped : forall c ss trials, ss <> [] ->
  (trials = None -> chain_binary c ss trials = Err TypeError /\ stack_binary c ss trials = Err TypeError) /\
  (forall ts, trials = Some ts ->
     (forall k data, chain_binary c ss trials = Ok (k, data) -> data = firstn (length ss) ts /\ Forall (Forall (fun a => a = 0 \/ a = 1)) data /\ Forall integer_array ss) /\
     (forall z data, stack_binary c ss trials = Ok (z, data) -> data = firstn (length ss) ts /\ Forall (Forall (fun a => a = 0 \/ a = 1)) data /\ Forall integer_array ss)).
Proof.
  intros c ss trials N. split.
  - intros ->. destruct ss as [|s ss]; [contradiction|]. split; reflexivity.
  - intros ts ->. split; intros k data E.
    + unfold chain_binary in E. destruct (binary_losses c ss (Some ts)) as [ls|] eqn:B; [|discriminate]. cbn [rbind] in E. destruct (first_dims ls) as [ks|]; [|discriminate]. cbn [rbind] in E. destruct (losses_data _ _ _ _ B) as (A1 & A2 & A3 & A4).
      destruct ls as [|l ls]; [discriminate|]. apply Ok_inj in E. injection E as _ <-. auto.
    + unfold stack_binary in E. destruct (binary_losses c ss (Some ts)) as [ls|] eqn:B; [|discriminate]. cbn [rbind] in E. destruct (losses_data _ _ _ _ B) as (A1 & A2 & A3 & A4).
      destruct ls as [|[z0 l] ls]; [discriminate|]. destruct (forallb _ _) in E; [|discriminate]. apply Ok_inj in E. injection E as _ <-. auto.
Qed.
Example binary_runs : chain_binary 1 [Ints [2; 0]%Z; Ints [3; 1]%Z] (Some [[0; 1]; [1; 1]]) = Ok (5%Z, [[0; 1]; [1; 1]]) /\ chain_binary 1 [Floats [1; 0]] (Some [[1; 1]]) = Err TypeError /\
  chain_binary 1 [Ints [2; 0]%Z] (Some [[2; 2]]) = Err ValueError.
Proof.
  unfold chain_binary, binary_losses. cbn [length seq combine map fst snd nth_error collect].
  assert (B1 : binary_data [0; 1] None = Ok ([0; 1], ones 2)) by (apply binary_default; repeat constructor; auto).
  assert (B2 : binary_data [1; 1] None = Ok ([1; 1], ones 2)) by (apply binary_default; repeat constructor; auto).
  assert (B3 : binary_data [2; 2] None = Err ValueError) by (apply binary_default; intros F; assert (X := Forall_inv F); cbn in X; lra).
  unfold misread. cbn [zeros_shape length Nat.ltb Nat.leb existsb Z.ltb Z.compare orb rbind]. destruct (Rlt_dec 1 0); [lra|]. rewrite B1, B2, B3. cbn. auto.
Qed.
(** ** sparse_group_block.stacked_* *)
Theorem block_methods : forall h (Ys : list vec), Ys <> [] ->
  (forall k, k <> KGaussian -> snd (block_factory h k Ys) = Err (match k with KPoisson => NameError | _ => TypeError end)) /\
  exists h1 s, block_factory h KGaussian Ys = (h1, Ok (Stack_of s)) /\
    forall x, length x = length (concat Ys) -> exists h2 h3 u, chain_eval h1 s None x EvFunc = (h2, Ok (RFunc (squares 1 Ys x))) /\ chain_eval h1 s None x EvGrad = (h3, Ok (RGrad u)) /\ read h3 u = vsub x (concat Ys).
Proof.
  intros h Ys N. split.
  - intros k Hk. destruct k; try contradiction; try reflexivity; destruct Ys as [|y Ys]; try contradiction; reflexivity.
  - destruct (gaussian_chain h Ys 1 None None None ltac:(lra) N Logic.I ltac:(intros r Hr; discriminate)) as (h1 & s & E & _ & _ & H). exists h1, s. split.
    + unfold block_factory. cbn [binds stacked_signature block_arguments negb]. replace (negb (binds (stacked_signature KGaussian) (block_arguments KGaussian))) with false by reflexivity. rewrite E. reflexivity.
    + intros x Lx. destruct (H x Lx) as (h2 & h3 & u & E1 & E2 & E3). exists h2, h3, u. cbn [minus] in *. split; [exact E1|]. split; [exact E2|]. rewrite E3. unfold vscal. rewrite <- (map_id (vsub x (concat Ys))) at 2. apply map_ext. intros a. ring.
Qed.
(** ** Assignments that are refused, or should be *)
Theorem refused_assignment : forall h X X2 D n p c soff off q w h1 g (s t : vec), data_fits D n -> good_design X p n -> off_fits n soff -> off_fits p off -> glm_make h X D c soff off q w = (h1, Ok g) ->
  (exists s0 t0, D = DLogistic s0 t0) -> length s = n -> length t = n -> ~ Forall2 (fun a b => 0 <= a <= b) s t ->
  exists g2, glm_assign (fresh X g) X2 s (Some t) = (g2, Err ValueError) /\ (forall b, d_predictor g2 b = t_lin X2 b) /\
    (forall b, length b = p -> Forall (fun a => a <= 100) (eta X (doc_family D) soff off b) ->
      d_eval h1 g2 b EvFunc = (h1, Ok (VFunc (doc_loss (match doc_family D with Logistic _ t0 => Logistic s t0 | k => k end) n c (weights_of h n w) (eta X (doc_family D) soff off b))))).
Proof.
  intros h X X2 D n p c soff off q w h1 g s t F G So Ho E (s0 & t0 & ->) Ls Lt Nl. assert (G' := G). destruct G' as ((A1 & A2 & A3) & _ & En & Em). assert (B := make_built h X _ n c soff off q w h1 g F Em E).
  assert (Ef := b_fam _ _ _ _ _ _ _ _ _ _ _ B). cbn [doc_family] in Ef. set (t1 := match t0 with Some t => t | None => ones (length s0) end) in *.
  assert (Sd : set_data (Some t1) s (Some t) = (s, Some t1, Err ValueError)). { apply (set_data_given (Some t1) s (Some t) t eq_refl). rewrite counts_forall2 by congruence. exact Nl. }
  unfold glm_assign, assign_loss. cbn [fresh d_glm]. rewrite Ef, Sd. eexists. split; [reflexivity|]. split; [reflexivity|].
  intros b Lb Ex. unfold d_eval. cbn [d_glm doc_family]. fold t1. rewrite glm_eval_none by (cbn; apply (b_cw _ _ _ _ _ _ _ _ _ _ _ B)). cbn [with_loss with_family g_loss g_map M_loss.g_map M_loss.g_adj g_offset M_loss.g_offset M_loss.g_loss g_cw l_fam l_coef l_offset].
  rewrite (b_coef _ _ _ _ _ _ _ _ _ _ _ B), (b_off _ _ _ _ _ _ _ _ _ _ _ B), (b_read _ _ _ _ _ _ _ _ _ _ _ B), (b_map _ _ _ _ _ _ _ _ _ _ _ B), (b_adj _ _ _ _ _ _ _ _ _ _ _ B), (b_goff _ _ _ _ _ _ _ _ _ _ _ B).
  rewrite (stored_minus off b p Lb Ho). assert (Le : length (t_lin X (minus b off)) = n) by (rewrite A1; [auto|]; rewrite En; apply minus_length; auto).
  cbn [M_loss.smooth_value rbind]. rewrite (loss_stored _ _ _ _ _ n Le So). unfold data_fits in F. cbn [doc_family fits] in F. rewrite (loss_value (Logistic s t1) n); auto; [split; [auto|apply F]|apply (b_weights _ _ _ _ _ _ _ _ _ _ _ B)].
Qed.
Theorem counts_unchecked : forall h X X2 D n c soff off q w h1 g y y2, data_fits D n -> t_out X = n -> D = DPoisson y -> glm_make h X D c soff off q w = (h1, Ok g) ->
  snd (glm_assign (fresh X g) X2 y2 None) = Ok tt /\ (~ legal_spec (DPoisson y2) -> length y2 = n -> snd (glm_make h X (DPoisson y2) c soff off q w) = Err ValueError).
Proof.
  intros h X X2 D n c soff off q w h1 g y y2 F O -> E. assert (B := make_built h X _ n c soff off q w h1 g F O E). split.
  - unfold glm_assign, assign_loss. cbn [fresh d_glm]. rewrite (b_fam _ _ _ _ _ _ _ _ _ _ _ B). reflexivity.
  - intros N L. apply (make_accepts h X (DPoisson y2) n c soff off q w); auto. tauto.
Qed.
Theorem trials_kept : forall h X X2 s0 t0 n c soff off q w h1 g s, data_fits (DLogistic s0 t0) n -> t_out X = n -> glm_make h X (DLogistic s0 t0) c soff off q w = (h1, Ok g) ->
  glm_assign (fresh X g) X2 s None = glm_assign (fresh X g) X2 s (Some (match t0 with Some t => t | None => ones n end)).
Proof.
  intros h X X2 s0 t0 n c soff off q w h1 g s F O E. assert (B := make_built h X _ n c soff off q w h1 g F O E). unfold glm_assign, assign_loss. cbn [fresh d_glm]. rewrite (b_fam _ _ _ _ _ _ _ _ _ _ _ B). cbn [doc_family].
  destruct t0 as [t|]; [reflexivity|]. unfold data_fits in F. cbn in F. destruct F as [-> _]. reflexivity.
Qed.
(** ** Concrete cases *)
Lemma one_good : forall a, good_design (one_by_one a) 1 1.
Proof. intros a. apply matrix_design. split; auto. Qed.
(** After an assignment of a new design the Hessian is not that of the objective. *)
Theorem stale_design : exists h1 g g2, glm_make [] (one_by_one 1) (DGaussian [0]) 1 None None None None = (h1, Ok g) /\ glm_assign (fresh (one_by_one 1) g) (one_by_one 2) [0] None = (g2, Ok tt) /\
  exists G H, (forall b, length b = 1%nat -> snd (d_eval h1 g2 b EvGrad) = Ok (VGrad (G b))) /\ (forall d, length d = 1%nat -> snd (d_hess h1 g2 [0] d) = Ok (H d)) /\ ~ is_jacobian 1 G [0] H.
Proof.
  assert (F : data_fits (DGaussian [0]) 1) by reflexivity.
  destruct (make_accepts [] (one_by_one 1) (DGaussian [0]) 1 1 None None None None F eq_refl) as [A _]. destruct (proj2 A) as (h1 & g & E); [split; [lra|]; split; [exact Logic.I|]; split; [reflexivity|repeat constructor; cbn; lra]|].
  assert (B := make_built [] (one_by_one 1) (DGaussian [0]) 1 1 None None None None h1 g F eq_refl E).
  exists h1, g. eexists. split; [exact E|]. split; [unfold glm_assign, assign_loss; cbn [fresh d_glm]; rewrite (b_fam _ _ _ _ _ _ _ _ _ _ _ B); reflexivity|].
  exists (fun b => [nth 0 b 0]), (fun d => [4 * nth 0 d 0]). split; [|split].
  - intros [|b [|]] L; try discriminate. unfold d_eval. cbn [d_glm]. rewrite glm_eval_none by (cbn; apply (b_cw _ _ _ _ _ _ _ _ _ _ _ B)). cbn [with_loss with_family M_loss.g_loss M_loss.g_map M_loss.g_adj M_loss.g_offset g_cw l_fam l_coef l_offset snd].
    rewrite (b_coef _ _ _ _ _ _ _ _ _ _ _ B), (b_off _ _ _ _ _ _ _ _ _ _ _ B), (b_read _ _ _ _ _ _ _ _ _ _ _ B), (b_map _ _ _ _ _ _ _ _ _ _ _ B), (b_adj _ _ _ _ _ _ _ _ _ _ _ B), (b_goff _ _ _ _ _ _ _ _ _ _ _ B).
    cbn [M_loss.smooth_value rbind stored sub_offset]. unfold loss_grad. rewrite vscale_eq. cbn. do 2 f_equal. unfold dot, vsum, mat_tvec. cbn. f_equal. ring.
  - intros [|d [|]] L; try discriminate. unfold d_hess, hess_eval, d_predictor. cbn [d_glm d_X with_loss with_family M_loss.g_loss g_cw]. rewrite weigh_none by (cbn; apply (b_cw _ _ _ _ _ _ _ _ _ _ _ B)). cbn [snd l_fam l_coef with_loss with_family M_loss.g_loss g_cw].
    rewrite (b_coef _ _ _ _ _ _ _ _ _ _ _ B), (b_read _ _ _ _ _ _ _ _ _ _ _ B). cbn. do 2 f_equal. rewrite ?vscale_eq. unfold dot, vsum, mat_tvec. cbn. f_equal. ring.
  - intros J. specialize (J [1] 0%nat eq_refl ltac:(lia)). cbn in J. assert (D : derivable_pt_lim (fun t => 0 + t * 1) 0 1).
    { apply (derive_ext (fun t => t)); [intros t; ring|apply derivable_pt_lim_id]. }
    assert (U := uniqueness_limite _ _ _ _ J D). lra.
Qed.
Theorem logistic_loss_value : forall h X p n s t c h1 g b, good_design X p n -> length s = n -> length t = n -> length b = p -> logistic_loss h X s (Some t) c = (h1, Ok g) ->
  Forall (fun e => e <= 100) (t_lin X b) ->
  glm_eval h1 g b EvFunc = (h1, Ok (VFunc (c * sum_over n (fun i => nth i t 0 * ln (1 + exp (nth i (t_lin X b) 0)) - nth i s 0 * nth i (t_lin X b) 0)))).
Proof.
  intros h X p n s t c h1 g b G Ls Lt Lb E B. unfold logistic_loss in E.
  destruct (make_value h X (DLogistic s (Some t)) n p c None None None None h1 g b (Logic.conj Ls Lt) G Logic.I Logic.I Lb E) as (_ & _ & V & _).
  rewrite V by exact B. do 3 f_equal. unfold doc_loss. f_equal. unfold sum_over. f_equal. apply map_ext_in. intros i Hi. apply in_seq in Hi. cbn [doc_family doc_case weights_of]. unfold eta. cbn [doc_family predictor minus]. assert (O : nth i (ones n) 0 = 1) by (unfold ones, const_vec; rewrite (nth_indep _ 0 1) by (rewrite repeat_length; lia); apply nth_repeat). rewrite O. ring.
Qed.

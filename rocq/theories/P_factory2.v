(** Stacked losses from the class methods. *)
From Coq Require Import Reals ZArith List Arith Lra Lia Bool Classical.
From Verif Require Import Vec Spec M_quad M_buffer M_affine M_loss M_probit SpecProbit SpecLoss SpecSmooth P_quad P_buffer P_loss P_loss2 P_loss4 P_loss5 P_loss6 P_smooth P_sklearn1 P_probit2 M_mglm SpecMglm P_mglm4 P_mglm5 P_mglm6 P_mglm7 P_calc P_loss3 M_factory SpecFactory P_factory.
Import ListNotations.
Local Open Scope R_scope.

Definition plain (k : family) (n : nat) (c : R) : loss := mk_loss k n c None (mk_iq 0 (FScal 0) (FScal 0) 0) None.
Definition simple (K : vec -> family) : Prop := forall y, fits (K y) (length y) /\ cases (K y) = length y /\ check_data (K y) = true /\ adds_const (K y) = false.
Lemma simple_gaussian : simple Gaussian. Proof. intros y. cbn. auto. Qed.
Lemma plain_new : forall h k n c, check_data k = true -> adds_const k = false -> 0 <= c -> new_loss h k n c None None None = Ok (plain k n c).
Proof. intros h k n c A B C. unfold new_loss. destruct (Rlt_dec c 0); [lra|]. rewrite A. cbn [negb]. rewrite B. reflexivity. Qed.
Lemma collect_ok : forall {A B} (f : A -> res B) (g : A -> B) l, (forall a, In a l -> f a = Ok (g a)) -> collect (map f l) = Ok (map g l).
Proof. intros A B f g. induction l as [|a l IH]; intros H; auto. cbn. rewrite (H a (or_introl eq_refl)). cbn. rewrite IH by (intros b Hb; apply H; right; auto). reflexivity. Qed.
Lemma plain_collect : forall (K : vec -> family) h (Ys : list vec) c, simple K -> 0 <= c -> collect (map (fun y => new_loss h (K y) (length y) c None None None) Ys) = Ok (map (fun y => plain (K y) (length y) c) Ys).
Proof. intros K h Ys c S C. apply (collect_ok _ (fun y => plain (K y) (length y) c)). intros y _. destruct (S y) as (_ & _ & A & B). apply plain_new; auto. Qed.
Lemma plain_made : forall h k n c, fits k n -> check_data k = true -> adds_const k = false -> 0 <= c -> made h (plain k n c).
Proof. intros h k n c F A B C. exists None, None. split; [apply plain_new; auto|]. split; [discriminate|]. split; [exact F|exact Logic.I]. Qed.
Lemma plain_size : forall (K : vec -> family) c (Ys : list vec), total_size (map (fun y => plain (K y) (length y) c) Ys) = length (concat Ys).
Proof. intros K c. induction Ys as [|y Ys IH]; auto. unfold total_size in *. cbn. rewrite app_length, IH. reflexivity. Qed.
Lemma chain_new : forall (K : vec -> family) h (Ys : list vec) c off q weights, simple K -> 0 <= c -> Ys <> [] -> off_fits (length (concat Ys)) off -> (forall r, weights = Some r -> legal_weights (length (concat Ys)) (read h r)) ->
  exists s, new_chain h (map (fun y => plain (K y) (length y) c) Ys) 1 off q weights = (h ++ [zeros (length (concat Ys))], Ok s) /\ chain_ok (h ++ [zeros (length (concat Ys))]) s /\
    s_losses s = map (fun y => plain (K y) (length y) c) Ys /\ s_coef s = 1 /\ s_offset s = stored off /\ s_quad s = match q with Some q => q | None => mk_iq 0 (FScal 0) (FScal 0) 0 end.
Proof.
  intros K h Ys c off q weights S C N O W. unfold new_chain. assert (Z := plain_size K c Ys). unfold total_size in Z. rewrite Z. destruct (Rlt_dec 1 0); [lra|].
  destruct (map (fun y => plain (K y) (length y) c) Ys) as [|l0 ls] eqn:E; [destruct Ys; [contradiction|discriminate]|]. rewrite <- E in *.
  match goal with |- context [if ?b then (_, Err ValueError) else _] => replace b with false end.
  2:{ destruct weights as [r|]; auto. destruct (W r eq_refl) as (L & Nn). symmetry. apply orb_false_iff. split; [apply any_neg_false; auto|apply negb_false_iff, Nat.eqb_eq; auto]. }
  eexists. split; [reflexivity|]. cbn [s_losses s_coef s_offset s_quad]. split; [|auto]. split; [|split; [|split]]; cbn [s_losses s_offset s_buf].
  - intros l Hl. apply in_map_iff in Hl. destruct Hl as (y & <- & _). destruct (S y) as (A1 & A2 & A3 & A4). split; [apply plain_made; auto|discriminate].
  - unfold total_size. rewrite Z. destruct off as [v|]; cbn in O |- *; auto. match goal with |- context [if ?b then _ else _] => destruct b end; cbn; auto.
  - rewrite app_length. cbn. lia.
  - rewrite read_new. unfold zeros. rewrite repeat_length. unfold total_size. auto.
Qed.
Lemma plain_value : forall (K : vec -> family) h c (Ys : list vec) z, simple K -> (forall y a, exact_case (K y) a) -> length z = length (concat Ys) ->
  chain_value (map (fun y => plain (K y) (length y) c) Ys) 1 (own_weights h) z = pieces_loss K c Ys z.
Proof.
  intros K h c Ys z S X L. unfold chain_value, pieces_loss. rewrite Rmult_1_l. f_equal. rewrite map_map. cbn [plain l_shape]. revert z L.
  induction Ys as [|y Ys IH]; intros z L; auto. cbn [map pieces combine fst snd]. cbn [concat] in L. rewrite app_length in L. f_equal.
  - unfold own_weights. cbn [plain l_cw l_shape l_fam l_coef l_offset]. destruct (S y) as (A1 & A2 & _). rewrite (loss_value (K y) (length y)); auto.
    + unfold predictor. destruct (K y); reflexivity.
    + exact Logic.I.
    + unfold ones. apply repeat_length.
    + rewrite firstn_length. lia.
    + apply Forall_forall. intros a _. apply X.
  - apply IH. rewrite skipn_length. lia.
Qed.
Theorem chain_method : forall (K : vec -> family) h (Ys : list vec) c off q weights, simple K -> (forall y a, exact_case (K y) a) -> 0 <= c -> Ys <> [] -> off_fits (length (concat Ys)) off -> (forall r, weights = Some r -> legal_weights (length (concat Ys)) (read h r)) ->
  exists h1 s, (match collect (map (fun y => new_loss h (K y) (length y) c None None None) Ys) with Err e => (h, Err e) | Ok ls => new_chain h ls 1 off q weights end) = (h1, Ok s) /\
    s_quad s = match q with Some q => q | None => mk_iq 0 (FScal 0) (FScal 0) 0 end /\ (forall r, (r < length h)%nat -> read h1 r = read h r) /\
    forall x, length x = length (concat Ys) -> exists h2 h3 u, chain_eval h1 s None x EvFunc = (h2, Ok (RFunc (pieces_loss K c Ys (minus x off)))) /\ chain_eval h1 s None x EvGrad = (h3, Ok (RGrad u)) /\
      read h3 u = chain_grad (map (fun y => plain (K y) (length y) c) Ys) 1 (own_weights h1) (minus x off) /\
      ((forall y a, regular_case (K y) a) -> is_gradient (length (concat Ys)) (fun z => pieces_loss K c Ys (minus z off)) x (read h3 u)).
Proof.
  intros K h Ys c off q weights S X C N O W. rewrite plain_collect by auto. destruct (chain_new K h Ys c off q weights S C N O W) as (s & E & Ko & S1 & S2 & S3 & S4). exists (h ++ [zeros (length (concat Ys))]), s.
  split; [exact E|]. split; [exact S4|]. split; [intros r Hr; apply read_app; auto|]. intros x Lx. assert (Z := plain_size K c Ys).
  assert (Mi : forall z, length z = length (concat Ys) -> minus z (s_offset s) = minus z off). { intros z Lz. rewrite S3. rewrite <- (stored_minus off z _ Lz O). destruct (stored off); reflexivity. }
  assert (Lz : length x = total_size (s_losses s)) by (rewrite S1, Z; auto). set (h1 := h ++ [zeros (length (concat Ys))]) in *.
  destruct (chain_works h1 s None x EvFunc Ko ltac:(intros r Hr; discriminate) Lz Logic.I) as (h2 & v & E2 & _ & _ & _ & _ & V1 & _ & V3 & _).
  destruct (chain_works h1 s None x EvGrad Ko ltac:(intros r Hr; discriminate) Lz Logic.I) as (h3 & v' & E3 & _ & _ & _ & _ & _ & G1 & _ & V4 & _).
  destruct (proj1 V3 eq_refl) as [f ->]. destruct (proj1 V4 eq_refl) as [u ->]. exists h2, h3, u. specialize (V1 f (or_introl eq_refl)). destruct (G1 u (or_introl eq_refl)) as (_ & Ru & _).
  rewrite S1, S2, Mi in V1, Ru by auto. rewrite plain_value in V1 by (auto; apply minus_length; auto). split; [rewrite E2, V1; reflexivity|]. split; [exact E3|]. split; [exact Ru|].
  intros Rg. rewrite Ru. assert (G := chain_gradient h1 (map (fun y => plain (K y) (length y) c) Ys) 1 off x). rewrite Z in G.
  assert (G' : is_gradient (length (concat Ys)) (fun z => chain_value (map (fun y => plain (K y) (length y) c) Ys) 1 (own_weights h1) (minus z off)) x (chain_grad (map (fun y => plain (K y) (length y) c) Ys) 1 (own_weights h1) (minus x off))).
  { apply G; auto.
    - intros l Hl. apply in_map_iff in Hl. destruct Hl as (y & <- & _). destruct (S y) as (A1 & A2 & A3 & A4). apply plain_made; auto.
    - apply Forall_forall. intros p Hp. destruct p as [l z]. apply in_combine_l in Hp. apply in_map_iff in Hp. destruct Hp as (y & <- & _). apply Forall_forall. intros a _. apply Rg. }
  destruct G' as [G1' G2']. split; auto. intros d Ld. specialize (G2' d Ld). eapply derive_ext; [|exact G2']. intros t. cbn. apply plain_value; auto. apply minus_length; [|auto]. unfold vadd, vscal. rewrite vzip_length by (rewrite map_length; lia). lia.
Qed.
(** ** Least squares *)
Lemma gauss_loss : forall (y z : vec) c, length z = length y -> doc_loss (Gaussian y) (length y) c (ones (length y)) z = c / 2 * sqn (vsub z y).
Proof.
  intros y z c L. assert (V := loss_value (Gaussian y) (length y) c None (ones (length y)) z). cbn [predictor minus] in V. unfold predictor, minus in V. rewrite <- V; [|reflexivity|exact Logic.I|apply repeat_length|exact L|apply Forall_forall; intros; exact Logic.I].
  unfold loss_func. cbn [sub_offset]. rewrite scale_eq. rewrite vmul_ones; [unfold sqn, dot; lra|]. unfold vmul, vsub. rewrite !vzip_length by (rewrite ?vzip_length; lia). lia.
Qed.
Lemma sqn_app : forall a b c d : vec, length a = length c -> sqn (vsub (a ++ b) (c ++ d)) = sqn (vsub a c) + sqn (vsub b d).
Proof.
  induction a as [|x a IH]; intros b [|y c] d L; try discriminate.
  - cbn [app]. replace (sqn (vsub [] [])) with 0 by (unfold sqn, dot, vsum; cbn; lra). lra.
  - cbn [app]. change (sqn ((x - y) :: vsub (a ++ b) (c ++ d)) = sqn ((x - y) :: vsub a c) + sqn (vsub b d)). unfold sqn. rewrite !dot_cons. fold (sqn (vsub (a ++ b) (c ++ d))). rewrite IH by (cbn in L; lia). unfold sqn. lra.
Qed.
Lemma gauss_pieces : forall (Ys : list vec) c z, length z = length (concat Ys) -> pieces_loss Gaussian c Ys z = squares c Ys z.
Proof.
  unfold pieces_loss, squares. induction Ys as [|y Ys IH]; intros c z L.
  - destruct z; [|discriminate]. unfold sqn, dot, vsum. cbn. lra.
  - cbn [concat] in L. rewrite app_length in L. cbn [map pieces combine fst snd concat]. rewrite vsum_cons, IH by (rewrite skipn_length; lia). rewrite gauss_loss by (rewrite firstn_length; lia).
    rewrite <- (firstn_skipn (length y) z) at 3. rewrite sqn_app by (rewrite firstn_length; lia). lra.
Qed.
Lemma gauss_grad : forall (Ys : list vec) c h z, length z = length (concat Ys) -> chain_grad (map (fun y => plain (Gaussian y) (length y) c) Ys) 1 (own_weights h) z = vscal c (vsub z (concat Ys)).
Proof.
  intros Ys c h z L. unfold chain_grad. rewrite map_map. cbn [plain l_shape].
  assert (E : concat (map (fun p => loss_grad (l_fam (fst p)) (l_coef (fst p)) (l_offset (fst p)) (own_weights h (fst p)) (snd p)) (combine (map (fun y => plain (Gaussian y) (length y) c) Ys) (pieces (map (@length R) Ys) z))) = vscal c (vsub z (concat Ys))).
  { revert z L. induction Ys as [|y Ys IH]; intros z L; [destruct z; [|discriminate]; reflexivity|]. cbn [concat] in L. rewrite app_length in L. cbn [map pieces combine fst snd concat]. rewrite IH by (rewrite skipn_length; lia).
    unfold own_weights. cbn [plain l_cw l_shape l_fam l_coef l_offset loss_grad sub_offset]. rewrite vmul_ones by (unfold vsub; rewrite vzip_length by (rewrite firstn_length; lia); rewrite firstn_length; lia). rewrite vscale_eq.
    rewrite <- (firstn_skipn (length y) z) at 3. unfold vscal, vsub. rewrite <- map_app. f_equal. assert (Lf : length (firstn (length y) z) = length y) by (rewrite firstn_length; lia). revert Lf. generalize (firstn (length y) z). generalize (skipn (length y) z). clear.
    intros b a. revert y. induction a as [|x a IH]; intros [|y c] Lf; try discriminate; auto. cbn [app]. change (x - y :: vzip Rminus a c ++ vzip Rminus b (concat Ys) = x - y :: vzip Rminus (a ++ b) (c ++ concat Ys)). f_equal. apply IH. cbn in Lf. lia. }
  transitivity (vscal 1 (vscal c (vsub z (concat Ys)))); [f_equal; exact E|]. unfold vscal. rewrite map_map. apply map_ext. intros a. ring.
Qed.
Theorem gaussian_chain : forall h (Ys : list vec) c off q weights, 0 <= c -> Ys <> [] -> off_fits (length (concat Ys)) off -> (forall r, weights = Some r -> legal_weights (length (concat Ys)) (read h r)) ->
  exists h1 s, chain_gaussian h Ys c off q weights = (h1, Ok s) /\ s_quad s = match q with Some q => q | None => mk_iq 0 (FScal 0) (FScal 0) 0 end /\ (forall r, (r < length h)%nat -> read h1 r = read h r) /\
    forall x, length x = length (concat Ys) -> exists h2 h3 u, chain_eval h1 s None x EvFunc = (h2, Ok (RFunc (squares c Ys (minus x off)))) /\ chain_eval h1 s None x EvGrad = (h3, Ok (RGrad u)) /\
      read h3 u = vscal c (vsub (minus x off) (concat Ys)).
Proof.
  intros h Ys c off q weights C N O W. destruct (chain_method Gaussian h Ys c off q weights simple_gaussian) as (h1 & s & E & Q & R & H); auto; [intros; exact Logic.I|]. exists h1, s. split; [exact E|]. split; [exact Q|]. split; [exact R|].
  intros x Lx. destruct (H x Lx) as (h2 & h3 & u & E1 & E2 & E3 & _). exists h2, h3, u. rewrite gauss_pieces in E1 by (apply minus_length; auto). rewrite gauss_grad in E3 by (apply minus_length; auto). auto.
Qed.
Lemma gaussian_refused : forall h (Ys : list vec) c off q weights, c < 0 -> Ys <> [] -> snd (chain_gaussian h Ys c off q weights) = Err ValueError /\ snd (stack_gaussian h Ys c off q weights) = Err ValueError.
Proof.
  intros h [|y Ys] c off q weights C N; [contradiction|]. unfold chain_gaussian, stack_gaussian, gaussian_losses. cbn [map collect]. replace (new_loss h (Gaussian y) (length y) c None None None) with (Err ValueError : res loss); [auto|]. unfold new_loss. destruct (Rlt_dec c 0); [auto|lra].
Qed.
(** ** Huber's loss and the smoothed hinge: coef has no effect *)
Lemma simple_huber : forall eps, 0 < eps -> simple (fun y => Huber y eps). Proof. intros eps P y. cbn. auto. Qed.
Lemma simple_svm : forall eps, 0 < eps -> simple (fun y => HuberSvm y eps). Proof. intros eps P y. cbn. auto. Qed.
Theorem huber_chain : forall h (Ys : list vec) eps c off q weights, 0 < eps -> Ys <> [] -> off_fits (length (concat Ys)) off -> (forall r, weights = Some r -> legal_weights (length (concat Ys)) (read h r)) ->
  exists h1 s, chain_huber false h Ys eps c off q weights = (h1, Ok s) /\ (forall r, (r < length h)%nat -> read h1 r = read h r) /\
    forall x, length x = length (concat Ys) -> exists h2 h3 u, chain_eval h1 s None x EvFunc = (h2, Ok (RFunc (pieces_loss (fun y => Huber y eps) 1 Ys (minus x off)))) /\ chain_eval h1 s None x EvGrad = (h3, Ok (RGrad u)) /\
      is_gradient (length (concat Ys)) (fun z => pieces_loss (fun y => Huber y eps) 1 Ys (minus z off)) x (read h3 u).
Proof.
  intros h Ys eps c off q weights P N O W. destruct (chain_method (fun y => Huber y eps) h Ys 1 off q weights (simple_huber eps P)) as (h1 & s & E & Q & R & H); auto; [intros; exact Logic.I|lra|]. exists h1, s. split; [exact E|]. split; [exact R|].
  intros x Lx. destruct (H x Lx) as (h2 & h3 & u & E1 & E2 & _ & E3). exists h2, h3, u. split; [exact E1|]. split; [exact E2|]. apply E3. intros. exact Logic.I.
Qed.
Theorem svm_chain : forall h (Ys : list vec) c off q weights, Ys <> [] -> off_fits (length (concat Ys)) off -> (forall r, weights = Some r -> legal_weights (length (concat Ys)) (read h r)) ->
  exists h1 s, chain_huber true h Ys 1 c off q weights = (h1, Ok s) /\ (forall r, (r < length h)%nat -> read h1 r = read h r) /\
    forall x, length x = length (concat Ys) -> exists h2 h3 u, chain_eval h1 s None x EvFunc = (h2, Ok (RFunc (pieces_loss (fun y => HuberSvm y 1) 1 Ys (minus x off)))) /\ chain_eval h1 s None x EvGrad = (h3, Ok (RGrad u)) /\
      is_gradient (length (concat Ys)) (fun z => pieces_loss (fun y => HuberSvm y 1) 1 Ys (minus z off)) x (read h3 u).
Proof.
  intros h Ys c off q weights N O W. destruct (chain_method (fun y => HuberSvm y 1) h Ys 1 off q weights (simple_svm 1 Rlt_0_1)) as (h1 & s & E & Q & R & H); auto; [intros; reflexivity|lra|]. exists h1, s. split; [exact E|]. split; [exact R|].
  intros x Lx. destruct (H x Lx) as (h2 & h3 & u & E1 & E2 & _ & E3). exists h2, h3, u. split; [exact E1|]. split; [exact E2|]. apply E3. intros. reflexivity.
Qed.
(** ** The stack of columns *)
Lemma col_length : forall n q j x, length (col n q j x) = n.
Proof. intros. unfold col. rewrite map_length, seq_length. reflexivity. Qed.
Lemma columns_value : forall (K : vec -> family) n c w (Ys : list vec) z, (forall y, fits (K y) (length y)) -> (forall y a, exact_case (K y) a) -> length w = n -> Forall (fun y => length y = n) Ys ->
  stack_value n (map (fun y => plain (K y) (length y) c) Ys) 1 w z = columns_loss K n c w Ys z.
Proof.
  intros K n c w Ys z S X Lw F. unfold stack_value, columns_loss. rewrite Rmult_1_l.
  assert (H : forall q st, map (fun p : nat * loss => loss_func (l_fam (snd p)) (l_coef (snd p)) (l_offset (snd p)) w (col n q (fst p) z)) (combine (seq st (length Ys)) (map (fun y => plain (K y) (length y) c) Ys)) =
    map (fun p : nat * vec => doc_loss (K (snd p)) n c w (col n q (fst p) z)) (combine (seq st (length Ys)) Ys)).
  { intros q. induction Ys as [|y Ys IH]; intros st; auto. cbn [length seq map combine fst snd].
    assert (Ly := Forall_inv F). cbn in Ly. f_equal; [|apply IH; apply (Forall_inv_tail F)]. cbn [plain l_fam l_coef l_offset]. rewrite (loss_value (K y) n); auto.
    - unfold predictor. destruct (K y); reflexivity.
    - rewrite <- Ly. apply S.
    - exact Logic.I.
    - apply col_length.
    - apply Forall_forall. intros a _. apply X. }
  rewrite map_length. f_equal. apply H.
Qed.
Theorem stack_method : forall (K : vec -> family) h n (Ys : list vec) c off q weights, simple K -> (forall y a, exact_case (K y) a) -> 0 <= c -> Ys <> [] -> Forall (fun y => length y = n) Ys -> off_fits (n * length Ys) off -> (forall r, weights = Some r -> (r < length h)%nat /\ legal_weights n (read h r)) ->
  exists h1 s, (match collect (map (fun y => new_loss h (K y) (length y) c None None None) Ys) with Err e => (h, Err e) | Ok ls => new_stacked h ls 1 off q weights end) = (h1, Ok s) /\ (forall r, (r < length h)%nat -> read h1 r = read h r) /\
    forall x, length x = (n * length Ys)%nat -> exists h2 h3 u, stacked_eval h1 s None x EvFunc = (h2, Ok (RFunc (columns_loss K n c (weights_of h n weights) Ys (minus x off)))) /\ stacked_eval h1 s None x EvGrad = (h3, Ok (RGrad u)) /\
      ((forall y a, regular_case (K y) a) -> is_gradient (n * length Ys) (fun z => columns_loss K n c (weights_of h n weights) Ys (minus z off)) x (read h3 u)).
Proof.
  intros K h n Ys c off q weights S X C N F O W. rewrite plain_collect by auto. set (ls := map (fun y => plain (K y) (length y) c) Ys).
  assert (Ll : length ls = length Ys) by apply map_length.
  assert (F1 : Forall (fun l => l_shape l = n) ls) by (apply Forall_forall; intros l Hl; apply in_map_iff in Hl; destruct Hl as (y & <- & Hy); rewrite Forall_forall in F; exact (F y Hy)).
  assert (F2 : Forall (free_loss n) ls). { apply Forall_forall; intros l Hl; apply in_map_iff in Hl; destruct Hl as (y & <- & Hy). rewrite Forall_forall in F. split; [reflexivity|]. split; [|exact Logic.I]. cbn [plain l_fam]. rewrite <- (F y Hy). apply S. }
  assert (N' : ls <> []) by (unfold ls; destruct Ys; [contradiction|discriminate]).
  destruct (new_stacked_ok h ls 1 off q weights n F1 F2 N' ltac:(rewrite Ll; auto) ltac:(lra) W) as (s & E & Ko & S1 & S2 & S3 & S4 & S5 & Mi). rewrite Ll in *. set (h1 := h ++ [zeros (n * length Ys)]) in *. exists h1, s. split; [exact E|].
  assert (Rd : forall r, (r < length h)%nat -> read h1 r = read h r) by (intros r Hr; apply read_app; auto). split; [exact Rd|]. intros x Lx.
  assert (Cs : s_cols s = length Ys) by (unfold s_cols; rewrite S1; exact Ll).
  assert (Wt : vmul (arg_weights h1 n None) (stack_weights h1 s n) = weights_of h n weights /\ length (weights_of h n weights) = n).
  { unfold stack_weights. rewrite S3. destruct weights as [r|]; cbn [arg_weights weights_of]; [destruct (W r eq_refl) as (W1 & W2 & _); rewrite Rd by auto; split; [apply vmul_ones; auto|auto]|split; [apply vmul_ones|]; apply repeat_length]. }
  destruct Wt as [Wt Lw].
  destruct (stacked_works h1 s n None x EvFunc Ko ltac:(intros r Hr; discriminate) ltac:(rewrite Cs; auto) Logic.I) as (h2 & v & E2 & _ & _ & _ & _ & V1 & _ & V3 & _).
  destruct (stacked_works h1 s n None x EvGrad Ko ltac:(intros r Hr; discriminate) ltac:(rewrite Cs; auto) Logic.I) as (h3 & v' & E3 & _ & _ & _ & _ & _ & G1 & _ & V4 & _).
  destruct (proj1 V3 eq_refl) as [f ->]. destruct (proj1 V4 eq_refl) as [u ->]. exists h2, h3, u. specialize (V1 f (or_introl eq_refl)). destruct (G1 u (or_introl eq_refl)) as (_ & Ru & _).
  rewrite Wt, S1, S2, Mi in V1, Ru by auto. unfold ls in V1. rewrite columns_value in V1 by (auto; intros y; apply S). split; [rewrite E2, V1; reflexivity|]. split; [exact E3|].
  intros Rg. assert (G := stack_gradient n ls 1 (weights_of h n weights) off x (read h3 u) N' F2 Lw). rewrite Ll in G. specialize (G O Lx).
  assert (G' : is_gradient (n * length Ys) (fun z => stack_value n ls 1 (weights_of h n weights) (minus z off)) x (read h3 u)).
  { apply G; auto. intros j l Hl. apply nth_error_In in Hl. apply in_map_iff in Hl. destruct Hl as (y & <- & _). apply Forall_forall. intros a _. apply Rg. }
  destruct G' as [G1' G2']. split; auto. intros d Ld. specialize (G2' d Ld). eapply derive_ext; [|exact G2']. intros t. cbn beta. unfold ls. apply columns_value; auto. intros y. apply S.
Qed.
Theorem gaussian_columns : forall h n (Ys : list vec) c off q weights, 0 <= c -> Ys <> [] -> Forall (fun y => length y = n) Ys -> off_fits (n * length Ys) off -> (forall r, weights = Some r -> (r < length h)%nat /\ legal_weights n (read h r)) ->
  exists h1 s, stack_gaussian h Ys c off q weights = (h1, Ok s) /\ (forall r, (r < length h)%nat -> read h1 r = read h r) /\
    forall x, length x = (n * length Ys)%nat -> exists h2 h3 u, stacked_eval h1 s None x EvFunc = (h2, Ok (RFunc (columns_loss Gaussian n c (weights_of h n weights) Ys (minus x off)))) /\ stacked_eval h1 s None x EvGrad = (h3, Ok (RGrad u)) /\
      is_gradient (n * length Ys) (fun z => columns_loss Gaussian n c (weights_of h n weights) Ys (minus z off)) x (read h3 u).
Proof.
  intros h n Ys c off q weights C N F O W. destruct (stack_method Gaussian h n Ys c off q weights simple_gaussian) as (h1 & s & E & R & H); auto; [intros; exact Logic.I|]. exists h1, s. split; [exact E|]. split; [exact R|].
  intros x Lx. destruct (H x Lx) as (h2 & h3 & u & E1 & E2 & E3). exists h2, h3, u. split; [exact E1|]. split; [exact E2|]. apply E3. intros. exact Logic.I.
Qed.
Theorem svm_columns : forall h n (Ys : list vec) c off q weights, Ys <> [] -> Forall (fun y => length y = n) Ys -> off_fits (n * length Ys) off -> (forall r, weights = Some r -> (r < length h)%nat /\ legal_weights n (read h r)) ->
  exists h1 s, stack_huber_svm h Ys 1 c off q weights = (h1, Ok s) /\
    forall x, length x = (n * length Ys)%nat -> exists h2, stacked_eval h1 s None x EvFunc = (h2, Ok (RFunc (columns_loss (fun y => HuberSvm y 1) n 1 (weights_of h n weights) Ys (minus x off)))).
Proof.
  intros h n Ys c off q weights N F O W. destruct (stack_method (fun y => HuberSvm y 1) h n Ys 1 off q weights (simple_svm 1 Rlt_0_1)) as (h1 & s & E & R & H); auto; [intros; reflexivity|lra|]. exists h1, s. split; [exact E|].
  intros x Lx. destruct (H x Lx) as (h2 & h3 & u & E1 & _). exists h2. exact E1.
Qed.
Lemma huber_witness : pieces_loss (fun y => Huber y 1) 1 [[1; 2]; [3]] [0; 0; 0] <> pieces_loss (fun y => Huber y 1) 2 [[1; 2]; [3]] [0; 0; 0].
Proof.
  unfold pieces_loss, doc_loss, sum_over, vsum. cbn. unfold huber_fun. assert (Rabs (0 - 1) = 1) by (rewrite Rabs_left; lra). assert (Rabs (0 - 2) = 2) by (rewrite Rabs_left; lra). assert (Rabs (0 - 3) = 3) by (rewrite Rabs_left; lra).
  rewrite H, H0, H1. destruct (Rle_dec 1 1); [|lra]. destruct (Rle_dec 2 1); [lra|]. destruct (Rle_dec 3 1); [lra|]. lra.
Qed.
Definition huber_ignores := Logic.conj huber_chain (Logic.conj svm_chain (Logic.conj svm_columns huber_witness)).

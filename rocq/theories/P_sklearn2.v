(** What fit minimizes. *)
From Coq Require Import Reals List Arith Lra Lia Bool.
From Verif Require Import M_affine M_loss M_smooth M_buffer Vec Spec M_quad M_prox M_semi SpecAtom M_shift SpecBase SpecMode M_mode SpecModed M_cox SpecLoss SpecAffine SpecSmooth M_sklearn SpecSklearn P_quad P_sep P_affine P_shift P_gauge P_loss P_loss2 P_loss4 P_smooth P_sklearn1.
Import ListNotations.
Local Open Scope R_scope.

Lemma holds_facts : forall h e n y k w o, holds h e n y k w o -> (2 <= n)%nat -> fits k n /\ off_fits n o /\ length (weights n w) = n /\ nonneg (weights n w) /\ legal_data k.
Proof.
  intros h e n y k w o H Hn. destruct (holds_read _ _ _ _ _ _ _ H Hn) as (r & wr & or & E & Ef & Et & Ek & Fk & Lk & Ew & Eo & Bw & Bo & Bd).
  split; auto. split; [rewrite Eo; destruct or as [ro|]; cbn; auto; apply (Bo ro eq_refl)|]. rewrite Ew. destruct wr as [wr|]; cbn.
  - destruct (Bw wr eq_refl) as (_ & A & B). auto.
  - rewrite ones_len. split; auto. split; auto. apply ones_nonneg.
Qed.
Theorem fitted_loss : forall h e n p X y k w o, holds h e n y k w o -> (2 <= n)%nat -> design n p X -> 0 <= e_coef e ->
  exists h1 g, loglike_factory h e X p y = (h1, Ok g) /\ (forall r, (r < length h)%nat -> read h1 r = read h r) /\
    forall b, length b = p -> Forall (exact_case k) (predictor k o (mat_vec X b)) ->
      glm_eval h1 g b EvFunc = (h1, Ok (VFunc (doc_loss k n (e_coef e) (weights n w) (predictor k o (mat_vec X b))))).
Proof.
  intros h e n p X y k w o H Hn D Hc. destruct (loglike_ok _ _ _ _ _ _ _ _ _ H Hn D Hc) as (h1 & g & E & Rd & _ & _ & _ & Rw & Ev & V & _).
  exists h1, g. split; auto. split; auto. intros b Lb Ex. rewrite Ev, V, Rw. f_equal. f_equal. f_equal. destruct (holds_facts _ _ _ _ _ _ _ H Hn) as (F & O & L & _).
  apply loss_value; auto. rewrite mat_vec_length. apply D.
Qed.
Lemma zero_quad_value : forall x, q_func (mk_iq 0 (FScal 0) (FScal 0) 0) x = 0.
Proof.
  intros x. unfold q_func, q_linpart. cbn [coef linear_term constant_term]. assert (Z : vsum (map (fun t => 0 * t) x) = 0); [|rewrite Z; lra]. induction x as [|a x IH]; [reflexivity|].
  unfold vsum in *. cbn [map fold_right] in *. rewrite IH. lra.
Qed.
Lemma ext_zero : forall v, ext_add v (Fin 0) = v.
Proof. intros [r|]; cbn; auto. f_equal. lra. Qed.
(** The methods of the atom compute lam P and the constraint P <= b *)
Definition computes (p : nat) (P : vec -> ext) (value : vec -> R -> bool -> res ext) (constraint : vec -> R -> res ext) (m : smode) : Prop :=
  forall v, length v = p -> match m with Lagrange lam => value v lam true = Ok (ext_scale lam (P v)) | Bound b => constraint v b = Ok (gmode P (Bound b) v) end.
Lemma objective_ok : forall h e n p X y k w o P value constraint a m h1 g x, holds h e n y k w o -> (2 <= n)%nat -> design n p X -> 0 <= e_coef e ->
  moded_wf p a m -> computes p P value constraint m -> loglike_factory h e X p y = (h1, Ok g) -> length x = p ->
  problem_objective h1 g value constraint a x = Ok (ext_add (Fin (loss_func k (e_coef e) o (weights n w) (mat_vec X x))) (moded_doc p P a m x)).
Proof.
  intros h e n p X y k w o P value constraint a m h1 g x H Hn D Hc Wf C E Lx. destruct (loglike_ok _ _ _ _ _ _ _ _ _ H Hn D Hc) as (h1' & g' & E' & _ & Q & _ & _ & Rw & Ev & V & _).
  rewrite E in E'. injection E' as <- <-. unfold problem_objective. rewrite V, Rw, Q. cbn [rbind].
  rewrite (moded_objective_correct p P value constraint a m x true); auto. cbn [rmap]. rewrite zero_quad_value, ext_zero. reflexivity.
Qed.
Lemma exact_all : forall k z, exact_family k -> Forall (exact_case k) z.
Proof. intros k z H. apply Forall_forall. intros a _. destruct k; cbn in *; auto; contradiction. Qed.
Lemma exact_predictor : forall k o x, exact_family k -> predictor k o x = minus x o.
Proof. intros [] o x H; cbn in *; auto; contradiction. Qed.
Lemma exact_value : forall k n c o w x, exact_family k -> fits k n -> off_fits n o -> length w = n -> length x = n -> loss_func k c o w x = doc_loss k n c w (minus x o).
Proof. intros k n c o w x Ex F O L Lx. rewrite <- (exact_predictor k o x Ex). apply loss_value; auto. apply exact_all; auto. Qed.
Lemma argmin_ext : forall n F G b, (forall x, length x = n -> F x = G x) -> is_argmin n F b -> is_argmin n G b.
Proof. intros n F G b E (L & (r & Fr) & M). split; auto. rewrite <- (E b L). split; [eauto|]. intros v Lv. rewrite <- (E v Lv). auto. Qed.
Theorem fit_minimizes : forall solve P value constraint a m h e n p X y k w o h' e',
  holds h e n y k w o -> (2 <= n)%nat -> design n p X -> 0 <= e_coef e -> exact_family k -> moded_wf p a m ->
  (forall v, length v = p -> match m with Lagrange lam => value v lam true = Ok (ext_scale lam (P v)) | Bound b => constraint v b = Ok (gmode P (Bound b) v) end) ->
  (forall h1 g b F, loglike_factory h e X p y = (h1, Ok g) -> solve h1 g a = Ok b -> (forall x, length x = p -> problem_objective h1 g value constraint a x = Ok (F x)) -> is_argmin p F b) ->
  fit_base solve (Ok a) h e X p y = (h', e', Ok tt) ->
  exists b, e_coefs e' = Some b /\ is_argmin p (fun x => ext_add (Fin (doc_loss k n (e_coef e) (weights n w) (minus (mat_vec X x) o))) (moded_doc p P a m x)) b.
Proof.
  intros solve P value constraint a m h e n p X y k w o h' e' H Hn D Hc Ex Wf C S Fi. destruct (loglike_ok _ _ _ _ _ _ _ _ _ H Hn D Hc) as (h1 & g & E & _).
  unfold fit_base in Fi. rewrite E in Fi. cbn [rbind] in Fi. destruct (solve h1 g a) as [b|] eqn:Sv; [|discriminate]. injection Fi as <- <-. exists b. split; [reflexivity|].
  specialize (S h1 g b _ E Sv (fun x Lx => objective_ok h e n p X y k w o P value constraint a m h1 g x H Hn D Hc Wf C E Lx)).
  destruct (holds_facts _ _ _ _ _ _ _ H Hn) as (F & O & L & _). refine (argmin_ext p _ _ b _ S). intros x Lx. cbn beta. do 2 f_equal. apply exact_value; auto. rewrite mat_vec_length. apply D.
Qed.
(** the logistic loss: as close as its treatment of large predictors allows *)
Theorem fit_logistic : forall solve P value constraint a m h e n p X y s t w o h' e',
  holds h e n y (Logistic s t) w o -> (2 <= n)%nat -> design n p X -> 0 <= e_coef e -> moded_wf p a m ->
  (forall v, length v = p -> match m with Lagrange lam => value v lam true = Ok (ext_scale lam (P v)) | Bound b => constraint v b = Ok (gmode P (Bound b) v) end) ->
  (forall h1 g b F, loglike_factory h e X p y = (h1, Ok g) -> solve h1 g a = Ok b -> (forall x, length x = p -> problem_objective h1 g value constraint a x = Ok (F x)) -> is_argmin p F b) ->
  fit_base solve (Ok a) h e X p y = (h', e', Ok tt) ->
  let F := fun x => ext_add (Fin (doc_loss (Logistic s t) n (e_coef e) (weights n w) (minus (mat_vec X x) o))) (moded_doc p P a m x) in
  exists b, e_coefs e' = Some b /\ length b = p /\ forall v, length v = p -> ext_le (F b) (ext_add (F v) (Fin (e_coef e * (exp (-100) * dot (weights n w) t)))).
Proof.
  intros solve P value constraint a m h e n p X y s t w o h' e' H Hn D Hc Wf C S Fi. destruct (loglike_ok _ _ _ _ _ _ _ _ _ H Hn D Hc) as (h1 & g & E & _).
  unfold fit_base in Fi. rewrite E in Fi. cbn [rbind] in Fi. destruct (solve h1 g a) as [b|] eqn:Sv; [|discriminate]. injection Fi as <- <-. exists b. split; [reflexivity|].
  specialize (S h1 g b _ E Sv (fun x Lx => objective_ok h e n p X y (Logistic s t) w o P value constraint a m h1 g x H Hn D Hc Wf C E Lx)).
  destruct (holds_facts _ _ _ _ _ _ _ H Hn) as (Ft & O & L & Nw & Lg). destruct S as (Lb & (r & Er) & M). split; auto. intros v Lv.
  assert (Nt : nonneg t). { cbn in Lg. clear -Lg. induction Lg; constructor; auto. lra. }
  assert (G : forall x, length x = p -> loss_func (Logistic s t) (e_coef e) o (weights n w) (mat_vec X x) <= doc_loss (Logistic s t) n (e_coef e) (weights n w) (minus (mat_vec X x) o) <= loss_func (Logistic s t) (e_coef e) o (weights n w) (mat_vec X x) + e_coef e * (exp (-100) * dot (weights n w) t)).
  { intros x Lx. apply logistic_overflow; auto. rewrite mat_vec_length. apply D. }
  specialize (M v Lv). assert (Gb := G b Lb). assert (Gv := G v Lv).
  destruct (moded_doc p P a m b) as [mb|] eqn:Eb; [|cbn in Er; discriminate]. cbn in M |- *. destruct (moded_doc p P a m v) as [mv|]; cbn in *; auto. lra.
Qed.
(** ** The elastic net *)
Theorem enet_objective : forall p P value constraint a lam alpha, moded_wf p a (Lagrange lam) -> 0 <= alpha <= 1 -> alpha <> 0 ->
  (forall v l, length v = p -> value v l true = Ok (ext_scale l (P v))) ->
  exists a', enet_atom alpha a = Ok a' /\ moded_wf p a' (Lagrange ((1 - alpha) * lam)) /\ forall x, length x = p ->
    moded_objective value constraint a' x true = Ok (ext_add (ext_scale ((1 - alpha) * lam) (P (minus x (b_offset (m_base a))))) (Fin (alpha * lam / 2 * sqn x))).
Proof.
  intros p P value constraint a lam alpha (El & Eb & Hm & Hs & Ho & Hq) Ha Hn C. cbn in El, Eb, Hm. unfold enet_atom. destruct (Req_EM_T alpha 0) as [Z|_]; [contradiction|]. rewrite El. unfold put_lagrange. rewrite Eb. cbn [rmap].
  eexists. split; [reflexivity|]. set (a' := put_quadratic _ _). assert (Wf : moded_wf p a' (Lagrange ((1 - alpha) * lam))).
  { split; [cbn; f_equal; ring|]. split; auto. split; [cbn; nra|]. split; [exact Hs|]. split; [exact Ho|]. split; cbn; auto. }
  split; auto. intros x Lx. rewrite (moded_objective_correct p P value constraint a' _ x true Wf Lx); [|intros y Ly; apply C; auto].
  unfold moded_doc, base_doc. f_equal. unfold base_off. cbn [m_base a' put_quadratic b_offset b_quadratic coef center linear_term constant_term gmode]. f_equal.
  - f_equal. f_equal. destruct (b_offset (m_base a)) as [o|]; cbn; auto. exact (Vec.vsub_zeros_r x p Lx).
  - f_equal. unfold quad_fun. cbn [fbcast]. fold (zeros p). change (const_vec p 0) with (zeros p). rewrite (Vec.vsub_zeros_r x p Lx). rewrite dot_zeros_l. ring.
Qed.
Theorem enet_off : forall a, enet_atom 0 a = Ok a.
Proof. intros a. unfold enet_atom. destruct (Req_EM_T 0 0); auto. contradiction. Qed.
Theorem enet_bound : forall p a b alpha, moded_wf p a (Bound b) -> alpha <> 0 -> enet_atom alpha a = Err TypeError.
Proof. intros p a b alpha (El & Eb & _) H. unfold enet_atom. destruct (Req_EM_T alpha 0); [contradiction|]. rewrite El. reflexivity. Qed.

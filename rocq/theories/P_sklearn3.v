(** Fits in Lagrange form, and what fits get wrong. *)
From Coq Require Import Reals List Arith Lra Lia Bool.
From Verif Require Import M_affine M_loss M_smooth M_buffer Vec Spec M_quad M_prox M_semi SpecAtom M_shift SpecBase SpecMode M_mode SpecModed M_cox SpecLoss SpecAffine SpecSmooth M_sklearn SpecSklearn P_quad P_sep P_affine P_shift P_gauge P_loss P_loss2 P_loss4 P_smooth P_sklearn1 P_sklearn2.
Import ListNotations.
Local Open Scope R_scope.

Lemma matrix_design : forall n p X, design n p X -> good_design (matrix X p None) p n.
Proof. intros n p X (L & F). assert (G : good (matrix X p None)) by (apply good_matrix; [exact F|discriminate]). split; [apply G|]. split; [apply G|]. auto. Qed.
Lemma exact_regular : forall k z, exact_family k -> regular k z.
Proof. intros k z H. apply Forall_forall. intros a _. destruct k; cbn in *; auto; contradiction. Qed.
Lemma loss_zero_gradient : forall k n p X c o w b, exact_family k -> fits k n -> off_fits n o -> length w = n -> design n p X -> length b = p ->
  is_gradient p (fun x => doc_loss k n c w (minus (mat_vec X x) o)) b (mat_tvec p X (loss_grad k c o w (mat_vec X b))).
Proof.
  intros k n p X c o w b Ex F O L D Lb. assert (Lx : length (mat_vec X b) = n) by (rewrite mat_vec_length; apply D).
  assert (G := loss_gradient k n c o w (mat_vec X b) F O L Lx (exact_regular k _ Ex)).
  assert (G2 := glm_chain (matrix X p None) p n None (loss_func k c o w) b _ (matrix_design n p X D) I Lb G). cbn in G2.
  refine (gradient_ext p _ _ b _ _ Lb G2). intros z Lz. apply exact_value; auto. rewrite mat_vec_length. apply D.
Qed.
Theorem fit_lagrange_minimizes : forall solve mk alpha P value constraint h e n p X y k w o h' e',
  holds h e n y k w o -> (2 <= n)%nat -> design n p X -> 0 <= e_coef e -> exact_family k -> 0 <= alpha <= 1 ->
  (forall s a, mk s = Ok a -> exists lam, moded_wf p a (Lagrange lam)) ->
  (forall v l, length v = p -> value v l true = Ok (ext_scale l (P v))) ->
  (forall h1 g a b F, loglike_factory h e X p y = (h1, Ok g) -> (exists s a0, mk s = Ok a0 /\ enet_atom alpha a0 = Ok a) -> solve h1 g a = Ok b -> (forall x, length x = p -> problem_objective h1 g value constraint a x = Ok (F x)) -> is_argmin p F b) ->
  fit_lagrange solve mk alpha h e X p y = (h', e', Ok tt) ->
  let f := fun x => doc_loss k n (e_coef e) (weights n w) (minus (mat_vec X x) o) in
  exists b s a lam, e_coefs e' = Some b /\ is_gradient p f (zeros p) s /\ mk s = Ok a /\ moded_wf p a (Lagrange lam) /\
    (alpha <> 0 -> is_argmin p (fun x => ext_add (Fin (f x)) (ext_add (ext_scale ((1 - alpha) * lam) (P (minus x (b_offset (m_base a))))) (Fin (alpha * lam / 2 * sqn x)))) b) /\
    (alpha = 0 -> is_argmin p (fun x => ext_add (Fin (f x)) (moded_doc p P a (Lagrange lam) x)) b).
Proof.
  intros solve mk alpha P value constraint h e n p X y k w o h' e' H Hn D Hc Ex Ha Mk C S Fi f. destruct (loglike_ok _ _ _ _ _ _ _ _ _ H Hn D Hc) as (h1 & g & E & _ & _ & _ & _ & Rw & Ev & V & Gr & _).
  destruct (holds_facts _ _ _ _ _ _ _ H Hn) as (F & O & L & _).
  unfold fit_lagrange in Fi. rewrite E, Ev, Gr, Rw in Fi. cbn [rbind] in Fi. set (s := mat_tvec p X _) in *. unfold construct_atom in Fi.
  destruct (mk s) as [a|] eqn:Ea; [|discriminate]. cbn [rbind] in Fi. destruct (Mk s a Ea) as (lam & Wf). destruct (enet_atom alpha a) as [a'|] eqn:En; [|discriminate]. cbn [rbind] in Fi.
  destruct (solve h1 g a') as [b|] eqn:Sv; [|discriminate]. injection Fi as <- <-. exists b, s, a, lam. split; [reflexivity|].
  split; [apply loss_zero_gradient; auto; apply repeat_length|]. split; auto. split; auto.
  assert (Val : forall m0 x, moded_wf p a' m0 -> (exists l, m0 = Lagrange l) -> length x = p -> problem_objective h1 g value constraint a' x = Ok (ext_add (Fin (f x)) (moded_doc p P a' m0 x))).
  { intros m0 x Wf' (l & ->) Lx. rewrite (objective_ok h e n p X y k w o P value constraint a' (Lagrange l) h1 g x H Hn D Hc Wf'); auto.
    - unfold f. rewrite (exact_value k n); auto. rewrite mat_vec_length. apply D.
    - intros v Lv. apply C. auto. }
  split.
  - intros Na. destruct (enet_objective p P value constraint a lam alpha Wf Ha Na C) as (a2 & E2 & Wf2 & V2). rewrite En in E2. injection E2 as <-.
    refine (S h1 g a' b _ E (ex_intro _ s (ex_intro _ a (Logic.conj Ea En))) Sv _). intros x Lx. rewrite (Val _ x Wf2) by eauto. do 2 f_equal.
    specialize (V2 x Lx). rewrite (moded_objective_correct p P value constraint a' _ x true Wf2 Lx) in V2; [|intros v Lv; apply C; auto]. apply Ok_inj in V2. exact V2.
  - intros Z. assert (En' := En). rewrite Z, enet_off in En. injection En as <-. exact (S h1 g a b _ E (ex_intro _ s (ex_intro _ a (Logic.conj Ea En'))) Sv (fun x Lx => Val (Lagrange lam) x Wf (ex_intro _ lam eq_refl) Lx)).
Qed.
(** ** What goes wrong *)
Definition same_but_quadratic (e : est) (q : option iq) : est := mk_est (e_fam e) (e_classifier e) (e_cw e) (e_off e) (e_coef e) q (e_method e) (e_coefs e) (e_loglike e).
Theorem quadratic_ignored : forall solve atom h e q X p y, let '(h1, e1, r1) := fit_base solve atom h e X p y in
  let '(h2, e2, r2) := fit_base solve atom h (mk_est (e_fam e) (e_classifier e) (e_cw e) (e_off e) (e_coef e) q (e_method e) (e_coefs e) (e_loglike e)) X p y in
  h1 = h2 /\ e_coefs e1 = e_coefs e2 /\ r1 = r2.
Proof.
  intros. unfold fit_base. change (loglike_factory h (mk_est _ _ _ _ _ q _ _ _) X p y) with (loglike_factory h e X p y). destruct (loglike_factory h e X p y) as [h1 [g|x]]; auto.
  destruct (rbind atom (solve h1 g)); cbn; auto.
Qed.
Theorem enet_quadratic_lost : forall alpha a q, alpha <> 0 -> enet_atom alpha (put_quadratic a q) = enet_atom alpha a.
Proof.
  intros alpha a q H. unfold enet_atom. destruct (Req_EM_T alpha 0); [contradiction|]. cbn [m_lagrange put_quadratic]. destruct (m_lagrange a); auto. unfold put_lagrange. cbn [m_bound put_quadratic].
  destruct (m_bound a); reflexivity.
Qed.
Definition plain (f : efam) (cw off : bool) (m : smethod) : est := mk_est f false cw off 1 None m None None.
Lemma NoDup3 : NoDup [0; 1; 2]%nat. Proof. repeat constructor; cbn; intuition discriminate. Qed.
Theorem one_row : forall s t w x, 0 <= s <= t -> 0 <= w -> let h := [[s]; [t]; [w]] in let y := Y2 1 [0; 1; 2]%nat in let e := mk_est ELogistic false true false 1 None Deviance None None in
  holds h e 1 y (Logistic [s] [t]) (Some [w]) None /\ design 1 1 [[x]] /\ snd (loglike_factory h e [[x]] 1 y) = Err ValueError.
Proof.
  intros s t w x Hs Hw h y e. split; [|split].
  - exists [[s]; [t]]. split; [|split; [reflexivity|split]].
    + right. split; [|split; [discriminate|auto]]. exists [0; 1]%nat, (Some 2%nat), None. repeat (split; [reflexivity|]). split; [|exact NoDup3]. repeat constructor; cbn; lia.
    + cbn. constructor; [lra|constructor].
    + intros v E. injection E as <-. constructor; [exact Hw|constructor].
  - split; repeat constructor.
  - unfold loglike_factory. cbn [e_cw e_off e check_y y column_from_end length Nat.leb rbind rmap Nat.sub nth all_but_last firstn map squeeze read h Nat.eqb e_fam e_coef new_saturated family_of no_trials_ok].
    destruct (is_binary [s; t]) eqn:B; [|reflexivity]. unfold new_loss. destruct (Rlt_dec 1 0); [lra|]. destruct (negb (check_data _)); [reflexivity|]. cbn [rbind adds_const q_add].
    cbn. destruct (Rlt_dec w 0); reflexivity.
Qed.
Theorem cloglog_fit_offset : let h := [[0; 0]; [1; 1]] in let y := Y2 2 [0; 1]%nat in let e := mk_est ECloglog false false true 1 None Deviance None None in let k := Cloglog [0; 0] [1; 1] in
  holds h e 2 y k None (Some [1; 1]) /\ design 2 1 [[1]; [1]] /\ exists h1 g v, loglike_factory h e [[1]; [1]] 1 y = (h1, Ok g) /\ snd (glm_eval h1 g [0] EvFunc) = Ok (VFunc v) /\
    Forall (exact_case k) (minus (mat_vec [[1]; [1]] [0]) (Some [1; 1])) /\ v <> doc_loss k 2 1 [1; 1] (minus (mat_vec [[1]; [1]] [0]) (Some [1; 1])).
Proof.
  intros h y e k. assert (H : holds h e 2 y k None (Some [1; 1])).
  { exists [[0; 0]]. split; [|split; [reflexivity|split; [cbn; repeat constructor|discriminate]]]. right. split; [|split; [discriminate|auto]].
    exists [0]%nat, None, (Some 1%nat). repeat (split; [reflexivity|]). split; [repeat constructor; cbn; lia|]. repeat constructor; cbn; intuition discriminate. }
  assert (D : design 2 1 [[1]; [1]]) by (split; repeat constructor). split; auto. split; auto.
  destruct (fitted_loss h e 2 1 [[1]; [1]] y k None (Some [1; 1]) H (le_n 2) D) as (h1 & g & E & _ & V); [cbn; lra|].
  exists h1, g. assert (M : mat_vec [[1]; [1]] [0] = [0; 0]) by (cbn; unfold dot, vsum, vmul; cbn; repeat f_equal; lra).
  specialize (V [0] eq_refl). rewrite M in *. assert (Xc : Forall (exact_case k) [0; 0]) by (repeat constructor; cbn; lra).
  cbn [predictor k] in V. fold k in V. rewrite (V Xc). eexists. split; [exact E|]. split; [reflexivity|]. split; [cbn; repeat constructor; cbn; lra|].
  unfold doc_loss, sum_over. cbn [weights seq map nth ones const_vec repeat k doc_case minus]. unfold vsum, vsub. cbn. rewrite !Rmult_0_l. intros Eq.
  assert (Ex := exp_increasing (0 - 1) 0). lra.
Qed.

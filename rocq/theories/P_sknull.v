From Coq Require Import Reals List Lra.
From Verif Require Import M_affine M_loss M_buffer Vec Spec M_quad M_semi SpecMode M_shift M_mode SpecModed M_weighted M_prox P_weighted M_sklearn M_sknull.
Import ListNotations.
Local Open Scope R_scope.

Lemma null_nan : forall norm rest h g p a, b_offset (m_base a) = None -> norm (vsub (zeros p) (zeros p)) true = Ok (Fin 0) -> forall x, snd (null_solution norm rest h g p a) <> Ok x.
Proof.
  intros norm rest h g p a O N x. unfold null_solution. destruct (m_bound a); [discriminate|]. destruct (glm_eval h g (zeros p) EvFunc) as [h1 [v|e]]; [|discriminate].
  rewrite O. cbn [rbind snd]. rewrite N. cbn [rbind]. unfold inf_times. destruct (Rlt_dec 0 0); [lra|discriminate].
Qed.
Lemma enet_offset : forall alpha a a', enet_atom alpha a = Ok a' -> b_offset (m_base a') = b_offset (m_base a).
Proof.
  intros alpha a a' E. unfold enet_atom, put_lagrange, put_quadratic in E. destruct (Req_EM_T alpha 0); [injection E as <-; auto|]. destruct (m_lagrange a); [|discriminate].
  destruct (m_bound a); [discriminate|]. injection E as <-. reflexivity.
Qed.
Lemma zeros_minus : forall p, vsub (zeros p) (zeros p) = zeros p.
Proof. induction p as [|p IH]; [reflexivity|]. change (zeros (S p)) with (0 :: zeros p). change (0 - 0 :: vsub (zeros p) (zeros p) = 0 :: zeros p). rewrite IH. f_equal. ring. Qed.
Lemma unpenalized_fails : forall norm rest solve mk alpha h e X p y, (forall s a, mk s = Ok a -> b_offset (m_base a) = None) ->
  norm (zeros p) true = Ok (Fin 0) -> snd (fit_unpenalized norm rest solve mk alpha h e X p y) <> Ok tt /\ e_coefs (snd (fst (fit_unpenalized norm rest solve mk alpha h e X p y))) = e_coefs e.
Proof.
  intros norm rest solve mk alpha h e X p y Hm Hn. unfold fit_unpenalized. destruct (loglike_factory h e X p y) as [h1 [g|x]]; [|split; [discriminate|reflexivity]].
  destruct (glm_eval h1 g (zeros p) EvGrad) as [h2 v].
  destruct (rbind v (fun v0 => match v0 with VGrad s => construct_atom mk alpha s | _ => Err TypeError end)) as [a|x] eqn:E; [|split; [discriminate|reflexivity]].
  assert (O : b_offset (m_base a) = None).
  { destruct v as [[f|s|f s]|x]; try discriminate. cbn [rbind] in E. unfold construct_atom in E. destruct (mk s) as [a0|] eqn:Em; [|discriminate]. cbn [rbind] in E.
    rewrite (enet_offset _ _ _ E). eapply Hm; eauto. }
  assert (Z : vsub (zeros p) (zeros p) = zeros p).
  { apply zeros_minus. }
  assert (K := null_nan norm rest h2 g p a O). rewrite Z in K. specialize (K Hn). destruct (null_solution norm rest h2 g p a) as [h3 [x0|x]]; [exfalso; eapply K; reflexivity|].
  split; [discriminate|reflexivity].
Qed.
Lemma violates_zeros : forall w p, violates w (zeros p) = false.
Proof. induction w as [|c w IH]; intros [|p]; cbn; auto. destruct (Req_EM_T 0 0); [|congruence]. rewrite Bool.andb_false_r. apply IH. Qed.
Lemma masked_zeros : forall w p, Forall (fun q => fst q = 0) (masked finiteb w (zeros p)).
Proof. induction w as [|[r|] w IH]; intros [|p]; cbn; auto; try (constructor; auto; apply IH); apply IH. Qed.
Lemma weighted_norm_zero : forall w p, w_seminorm WL1 w (zeros p) 1 true = Ok (Fin 0).
Proof.
  intros w p. unfold w_seminorm. rewrite violates_zeros. cbn [andb]. do 2 f_equal. assert (H := masked_zeros w p).
  induction H as [|[a b] l E F IH]; unfold vsum in *; cbn [map fold_right fst snd] in *; [lra|]. cbn in E. subst a. rewrite Rmult_0_l, Rabs_R0. lra.
Qed.

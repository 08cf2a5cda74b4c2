(** check_subgradient of the seminorm, slope and group lasso classes and of the cones. *)
From Coq Require Import Reals List Lra Lia Psatz Bool.
From Verif Require Import Vec Spec SpecConvex M_quad M_prox M_semi SpecAtom M_shift SpecBase SpecMode SpecCheck M_check P_semi P_calc P_gauge P_mixed P_conj P_feas P_prox P_admm P_problem P_check P_check2.
Import ListNotations.
Local Open Scope R_scope.

Lemma stripped_ok : forall n a m, atom_wf n a -> atom_mode a m -> mode_ok m -> stripped a = Ok (mk_atom (klass a) n (lag_of m) (bnd_of m) None no_quadratic).
Proof.
  intros n a m W M Hm. unfold stripped. rewrite (copy_correct n a m) by auto. cbn [rmap]. destruct M as [-> ->]. destruct W as (-> & _). reflexivity.
Qed.
Lemma stripped_conj : forall c n m, mode_ok m -> exists d, get_conjugate (mk_atom c n (lag_of m) (bnd_of m) None no_quadratic) = Ok d /\ klass d = pair_class c.
Proof.
  intros c n m Hm. unfold get_conjugate. cbn [a_quadratic no_quadratic coef]. destruct (Req_EM_T 0 0) as [_|]; [|lra]. cbn [work_out_conjugate klass shape a_offset a_bound a_lagrange].
  unfold new_atom. destruct m as [l|b]; cbn in *; destruct (Rlt_dec _ 0); try lra; eexists; split; reflexivity.
Qed.
Lemma sn_value : forall c x r, x <> [] -> doc_seminorm c x = Fin r -> seminorm_value c x 1 false = Ok (Fin r).
Proof.
  intros c x r Hx E. assert (K : ext_scale 1 (Fin r) = Fin r) by (cbn; f_equal; lra).
  assert (P : c <> CConMax -> c <> CConPosPart -> seminorm_value c x 1 false = Ok (Fin r)) by (intros; rewrite seminorm_value_plain, E, K by auto; auto).
  assert (Q : c = CConMax \/ c = CConPosPart -> all_nonneg x -> seminorm_value c x 1 false = Ok (Fin r)) by (intros; rewrite seminorm_value_con, E, K by auto; auto).
  destruct c; try (apply P; discriminate); cbn in E; (destruct (nonneg_dec x); [apply Q; auto|discriminate]).
Qed.
Lemma mode_gmode : forall c m, mode_fun c m = gmode (doc_seminorm c) m.
Proof. intros c [|]; reflexivity. Qed.
Lemma stripped_proximal : forall c n m z, (1 <= n)%nat -> mode_ok m -> length z = n -> exists u, proximal (mk_atom c n (lag_of m) (bnd_of m) None no_quadratic) (AQuad (centered z)) = Ok u /\
  solves_prox n (doc_seminorm c) m z u.
Proof.
  intros c n m z Hn Hm Lz. destruct (proximal_correct c n m (zeros n) no_quadratic (centered z) Hn Hm) as (a & v & E & P & U).
  - vl n.
  - split; cbn; auto.
  - split; cbn; auto.
  - cbn. lra.
  - right. left. cbn. auto.
  - rewrite new_atom_ok in E by auto. rewrite P_semi.all_zero_zeros in E. injection E as <-. exists v. split; auto.
    apply (stripped_prox n (gmode (doc_seminorm c) m) z v Lz). unfold prox_spec. revert U. apply argmin_ext. intros x Lx. unfold doc_objective, base_doc, base_off. cbn [b_offset off_vec b_quadratic]. rewrite mode_gmode. reflexivity.
Qed.

Section Plain.
Variables (n : nat) (a : atom) (m : smode) (z : vec).
Hypothesis Hn : (1 <= n)%nat.
Hypothesis Wa : atom_wf n a.
Hypothesis Ma : atom_mode a m.
Hypothesis Hm : 0 < parameter m.
Hypothesis Lz : length z = n.
Let h := doc_seminorm (klass a).
Let h' := doc_seminorm (pair_class (klass a)).

Lemma param_ok : mode_ok m.
Proof. destruct m; cbn in *; lra. Qed.
Lemma nonempty : forall x : vec, length x = n -> x <> [].
Proof. intros x Lx ->. cbn in Lx. lia. Qed.
Lemma h_values : forall c x r, length x = n -> doc_seminorm c x = Fin r -> seminorm_value c x 1 false = Ok (Fin r).
Proof. intros c x r Lx. apply sn_value. apply nonempty. auto. Qed.
Lemma h_polar : polar_pair n h h'.
Proof. apply doc_polar. Qed.
Lemma h_polar' : polar_pair n h' h.
Proof. unfold h. rewrite <- (pair_invol (klass a)). apply doc_polar. Qed.
Lemma check_with_form : forall prox, check_with prox a z =
  rbind (prox (mk_atom (klass a) n (lag_of m) (bnd_of m) None no_quadratic) (AQuad (centered z))) (fun U =>
  check_values (fun x => seminorm_value (klass a) x 1 false) (fun x => seminorm_value (pair_class (klass a)) x 1 false) (bnd_of m) (lag_of m) z U).
Proof.
  intros prox. unfold check_with. rewrite (stripped_ok n a m Wa Ma param_ok). cbn [rbind]. destruct (stripped_conj (klass a) n m param_ok) as (d & Ed & Kd). rewrite Ed. cbn [rbind klass a_bound a_lagrange]. rewrite Kd. reflexivity.
Qed.
Theorem check_agrees : exists u v, check_subgradient a z = Ok (v, Fin v) /\ solves_prox n h m z u /\ measured h h' m z u = Fin v.
Proof.
  destruct (stripped_proximal (klass a) n m z Hn param_ok Lz) as (u & Eu & Su). unfold check_subgradient. rewrite check_with_form, Eu. cbn [rbind].
  destruct (values_agree n h h' _ _ h_polar h_polar' (h_values _) (h_values _) m z u Lz Hm (proj1 Su)) as (v & Ev & Mv). exists u, v. auto.
Qed.
Theorem check_sound : forall U v w V x y, length U = n -> check_with (fun _ _ => Ok U) a z = Ok (v, w) -> h U = Fin x -> h' (vsub z U) = Fin y -> solves_prox n h m z V ->
  exists w', w = Fin w' /\ measured h h' m z U = Fin w' /\ sqn (vsub U V) <= / 10 ^ 5 * dot (vsub z V) V + parameter m * (w' - v).
Proof.
  intros U v w V x y LU C Ex Ey SV. rewrite check_with_form in C. cbn [rbind] in C.
  assert (E : exists p l, measured h h' m z U = Fin p /\ limited h h' m z U = Fin l). { destruct m; cbn [measured limited]; eauto. }
  destruct E as (p & l & Ep & El). exists p.
  destruct (values_sound n h h' _ _ h_polar h_polar' (h_values _) (h_values _) m z U Lz Hm LU p l v w V Ep El C (proj1 SV)) as (-> & B). auto.
Qed.
Theorem check_exact : forall U v V l, length U = n -> check_with (fun _ _ => Ok U) a z = Ok (v, Fin v) -> measured h h' m z U <> PInf -> limited h h' m z U = Fin l -> l <= parameter m -> solves_prox n h m z V -> U = V.
Proof.
  intros U v V l LU C Hp El Hl SV. rewrite check_with_form in C. cbn [rbind] in C. destruct (measured h h' m z U) as [p|] eqn:Ep; [|tauto].
  apply (values_exact n h h' _ _ h_polar h_polar' (h_values _) (h_values _) m z U Lz Hm LU p l v V Ep El Hl C (proj1 SV)).
Qed.
End Plain.

Lemma len_nonempty : forall n (x : vec), (1 <= n)%nat -> length x = n -> x <> [].
Proof. intros n x Hn Lx ->. cbn in Lx. lia. Qed.
(** A multiplier or bound 0 *)
Theorem check_zero : forall n a m z, (1 <= n)%nat -> atom_wf n a -> atom_mode a m -> parameter m = 0 -> length z = n -> check_subgradient a z = Err NaNResult.
Proof.
  intros n a m z Hn Wa Ma E0 Lz. assert (Hm : mode_ok m) by (destruct m; cbn in *; lra). unfold check_subgradient.
  unfold check_with. rewrite (stripped_ok n a m Wa Ma Hm). cbn [rbind]. destruct (stripped_conj (klass a) n m Hm) as (d & Ed & Kd). rewrite Ed. cbn [rbind klass a_bound a_lagrange]. rewrite Kd.
  destruct (stripped_proximal (klass a) n m z Hn Hm Lz) as (u & Eu & Su). rewrite Eu. cbn [rbind]. assert (Lu : length u = n) by apply Su. assert (Lr : length (vsub z u) = n) by vl n.
  pose proof (h_polar n a) as P. pose proof (h_polar' n a) as P'. assert (NQ : forall q, np_quotient q 0 = Err NaNResult) by (intros; unfold np_quotient; destruct (Req_EM_T 0 0); [auto|lra]).
  destruct m as [lam|b]; cbn [parameter] in E0; [subst lam|subst b]; cbn [lag_of bnd_of check_values].
  - destruct (kkt_lagrange n _ _ P P' z u Lz 0 ltac:(lra) (proj1 Su)) as (hu & du & EU & Er & Hd & Q). rewrite (sn_value _ _ _ (len_nonempty n _ Hn Lr) Er). cbn [rbind need]. unfold above. destruct (Rle_dec du _) as [|N]; [|destruct N; lra]. rewrite NQ. reflexivity.
  - destruct (kkt_bound n _ _ P P' z u Lz 0 ltac:(lra) (proj1 Su)) as (hu & du & EU & Er & Hd & Q). rewrite (sn_value _ _ _ (len_nonempty n _ Hn Lu) EU). cbn [rbind]. unfold above. destruct (Rle_dec hu _) as [|N]; [|destruct N; lra]. rewrite NQ. reflexivity.
Qed.

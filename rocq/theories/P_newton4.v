(** The quasi-Newton method: its objective, and when it stops. *)
From Coq Require Import Reals List Lra Lia Arith Bool.
From Verif Require Import M_affine SpecAffine M_loss SpecLoss M_smooth SpecSmooth Vec Spec SpecConvex M_quad P_quad M_semi SpecAtom M_shift SpecBase SpecCone M_cones M_fista SpecFista M_problem SpecProblem P_problem2 SpecNewton M_newton SpecNewton2 P_newton P_newton2 P_newton3.
Import ListNotations.
Local Open Scope R_scope.

Theorem qn_objective_correct : forall n P N x r, good_smooth n (qn_smooth N) -> exact_obj n P (qn_atom N) -> good_quad n (qn_quadratic N) -> length x = n -> P x = Fin r ->
  qn_nonsmooth N x true = Ok (simple_fun n (qn_smooth N) P (qn_quadratic N) x) /\
  qn_objective N x = objective (s_func (qn_smooth N)) (simple_fun n (qn_smooth N) P (qn_quadratic N)) x.
Proof.
  intros n P N x r (_ & _ & (Q1 & _) & _) HA (Q2 & _) Lx Er.
  assert (E : qn_nonsmooth N x true = Ok (simple_fun n (qn_smooth N) P (qn_quadratic N) x)).
  { unfold qn_nonsmooth. rewrite (eo_value _ _ _ HA x r true) by auto. cbn [rmap rbind]. unfold simple_fun, plus_quad. rewrite Er. rewrite !(q_func_eq n) by auto. auto. }
  split; auto. unfold qn_objective, objective. rewrite E. auto.
Qed.
Lemma max_list_lt : forall v b, 0 < b -> (max_list 0 v < b <-> Forall (fun a => a < b) v).
Proof.
  induction v as [|a v IH]; intros b Hb; cbn [max_list].
  - split; auto.
  - specialize (IH b Hb). split.
    + intros H. assert (a < b /\ max_list 0 v < b) as [A B] by (pose proof (Rmax_l a (max_list 0 v)); pose proof (Rmax_r a (max_list 0 v)); lra). constructor; tauto.
    + intros H. inversion H; subst. apply Rmax_lub_lt; tauto.
Qed.
Lemma max_list_0 : forall v, 0 <= max_list 0 v.
Proof. induction v as [|a v IH]; cbn [max_list]; [lra|]. pose proof (Rmax_r a (max_list 0 v)). lra. Qed.
Theorem converged_iff : forall n x y, length x = n -> length y = n ->
  (qn_converged x y = true <-> y <> zeros n /\ forall i, (i < n)%nat -> Rabs (nth i x 0 - nth i y 0) < / 10 ^ 6 * norm y).
Proof.
  intros n x y Lx Ly. unfold qn_converged. pose proof (norm_nonneg y) as N. assert (Lv : length (map Rabs (vsub x y)) = n) by (rewrite map_length; vlen).
  assert (NT : forall i, (i < n)%nat -> nth i (map Rabs (vsub x y)) 0 = Rabs (nth i x 0 - nth i y 0)).
  { intros i Hi. rewrite <- Rabs_R0 at 1. rewrite map_nth. f_equal. unfold vsub. clear - Lx Ly Hi. revert x y n Lx Ly Hi. induction i as [|i IH]; intros [|a x] [|b y] n Lx Ly Hi; simpl in *; subst; try lia; try discriminate; auto.
    apply (IH x y (length x)); auto; lia. }
  destruct (Rlt_dec _ _) as [L|L]; (split; [intros H|intros [Hy H]]); try discriminate; auto.
  - assert (0 < norm y). { pose proof (max_list_0 (map Rabs (vsub x y))) as M. lra. }
    split; [intros ->; rewrite norm_zeros in *; lra|]. intros i Hi. apply max_list_lt in L; [|nra]. rewrite Forall_forall in L. rewrite <- NT by auto. apply L. apply nth_In. lia.
  - exfalso. apply L. assert (norm y <> 0) by (intros C; apply Hy; apply norm_eq_zero in C; congruence). apply max_list_lt; [nra|]. apply Forall_forall. intros a Ha. destruct (In_nth _ _ 0 Ha) as (i & Hi & <-).
    rewrite NT by (rewrite <- Lv; auto). apply H. rewrite <- Lv. auto.
Qed.
Theorem stops_at : forall n niter loops fuel prm search N d g z, length (qn_coefs N) = n -> length d = n -> qn_inner loops fuel (prm 0%nat) N = Ok (d, g, z) ->
  let new := vadd (qn_coefs N) (vscal (search 0%nat (qn_coefs N) d) d) in
  new <> zeros n -> (forall i, (i < n)%nat -> Rabs (nth i (qn_coefs N) 0 - nth i new 0) < / 10 ^ 6 * norm new) ->
  qn_solve (S niter) loops fuel prm search N = Ok (qn_move N z (qn_hessian N), z).
Proof.
  intros n niter loops fuel prm search N d g z Lc Ld E new Hn H. unfold qn_solve. cbn [qn_loop]. rewrite E. cbn [rbind]. fold new.
  rewrite (proj2 (converged_iff n (qn_coefs N) new Lc ltac:(unfold new; vlen)) (Logic.conj Hn H)). cbn [rbind snd fst]. auto.
Qed.
Theorem goes_on : forall n niter loops fuel prm search N d g z i, length (qn_coefs N) = n -> length d = n -> qn_inner loops fuel (prm 0%nat) N = Ok (d, g, z) ->
  let new := vadd (qn_coefs N) (vscal (search 0%nat (qn_coefs N) d) d) in
  (i < n)%nat -> / 10 ^ 6 * norm new <= Rabs (nth i (qn_coefs N) 0 - nth i new 0) ->
  qn_solve (S (S niter)) loops fuel prm search N =
    rbind (update_hessian (qn_hessian N) (qn_coefs N) new g (s_grad (qn_smooth N) new)) (fun H =>
    qn_solve (S niter) loops fuel (fun k => prm (S k)) (fun k => search (S k)) (qn_move N new H)).
Proof.
  intros n niter loops fuel prm search N d g z i Lc Ld E new Hi H.
  assert (SH : forall k j prm search N last, qn_loop k (S j) loops fuel prm search N last = qn_loop k j loops fuel (fun k => prm (S k)) (fun k => search (S k)) N last).
  { clear. induction k as [|k IH]; intros; cbn [qn_loop]; auto. destruct (qn_inner _ _ _ _) as [[[d g] z]|]; cbn [rbind]; auto. destruct (qn_converged _ _); auto. destruct (update_hessian _ _ _ _ _); cbn [rbind]; auto. }
  assert (LA : forall k j prm search N last last', k <> 0%nat -> qn_loop k j loops fuel prm search N last = qn_loop k j loops fuel prm search N last') by (intros [|k]; intros; [congruence|reflexivity]).
  unfold qn_solve. cbn [qn_loop]. rewrite E. cbn [rbind]. fold new.
  destruct (qn_converged (qn_coefs N) new) eqn:C.
  - exfalso. destruct (proj1 (converged_iff n (qn_coefs N) new Lc ltac:(unfold new; vlen)) C) as [_ K]. specialize (K i Hi). lra.
  - destruct (update_hessian _ _ _ _ _) as [H'|e]; cbn [rbind]; auto. f_equal. change (qn_loop (S niter) 1 loops fuel prm search (qn_move N new H') (Some z) = qn_loop (S niter) 0 loops fuel (fun k => prm (S k)) (fun k => search (S k)) (qn_move N new H') None).
    rewrite SH. apply LA. discriminate.
Qed.

(** What check_subgradient returns, for any pair of polar gauges. *)
From Coq Require Import Reals List Lra Lia Psatz Bool.
From Verif Require Import Vec Spec SpecConvex M_quad M_prox M_semi SpecAtom M_shift SpecBase SpecMode SpecCheck M_check P_semi P_calc P_gauge P_admm P_problem P_check.
Import ListNotations.
Local Open Scope R_scope.

Section Values.
Variables (n : nat) (h h' : vec -> ext) (sn dsn : vec -> res ext).
Hypothesis PP : polar_pair n h h'.
Hypothesis PP' : polar_pair n h' h.
Hypothesis SN : forall x r, length x = n -> h x = Fin r -> sn x = Ok (Fin r).
Hypothesis DSN : forall x r, length x = n -> h' x = Fin r -> dsn x = Ok (Fin r).
Variables (m : smode) (z U : vec).
Hypothesis Lz : length z = n.
Hypothesis Hm : 0 < parameter m.

Lemma dot_sum : forall x y, vsum (vmul x y) = dot x y.
Proof. reflexivity. Qed.
Lemma e5 : 0 < / 10 ^ 5.
Proof. apply Rinv_0_lt_compat. apply pow_lt. lra. Qed.

Lemma values_agree : is_argmin n (prox_objective 1 z (gmode h m)) U ->
  exists v, check_values sn dsn (bnd_of m) (lag_of m) z U = Ok (v, Fin v) /\ measured h h' m z U = Fin v.
Proof.
  intros M. assert (LU : length U = n) by apply M. assert (Lr : length (vsub z U) = n) by vl n. pose proof e5. destruct m as [lam|b]; cbn [parameter] in Hm; cbn [measured lag_of bnd_of check_values].
  - destruct (kkt_lagrange n h h' PP PP' z U Lz lam ltac:(lra) M) as (hu & du & EU & Er & Hd & Q). exists hu. split; auto.
    rewrite (DSN _ _ Lr Er). cbn [rbind need]. unfold above. destruct (Rle_dec du ((1 + / 10 ^ 5) * lam)) as [|N]; [|destruct N; nra].
    unfold np_quotient. destruct (Req_EM_T lam 0); [lra|]. cbn [rbind]. rewrite (SN _ _ LU EU). cbn [rmap]. rewrite dot_sum, Q. do 2 f_equal. field. lra.
  - destruct (kkt_bound n h h' PP PP' z U Lz b ltac:(lra) M) as (hu & du & EU & Er & Hd & Q). exists du. split; auto.
    rewrite (SN _ _ LU EU). cbn [rbind need]. unfold above. destruct (Rle_dec hu ((1 + / 10 ^ 5) * b)) as [|N]; [|destruct N; nra].
    unfold np_quotient. destruct (Req_EM_T b 0); [lra|]. cbn [rbind]. rewrite (DSN _ _ Lr Er). cbn [rmap]. rewrite dot_sum, Q. do 2 f_equal. field. lra.
Qed.

(** The values of a candidate, and when it is rejected. *)
Lemma values_form : length U = n -> forall a l, measured h h' m z U = Fin a -> limited h h' m z U = Fin l ->
  check_values sn dsn (bnd_of m) (lag_of m) z U = if Rle_dec l ((1 + / 10 ^ 5) * parameter m) then Ok (dot (vsub z U) U / parameter m, Fin a) else Err ValueError.
Proof.
  intros LU a l. assert (Lr : length (vsub z U) = n) by vl n. destruct m as [lam|b]; cbn [parameter measured limited lag_of bnd_of check_values] in *; intros Ea El.
  - rewrite (DSN _ _ Lr El). cbn [rbind need]. unfold above. destruct (Rle_dec l _); auto. unfold np_quotient. destruct (Req_EM_T lam 0); [lra|]. cbn [rbind]. rewrite (SN _ _ LU Ea). auto.
  - rewrite (SN _ _ LU El). cbn [rbind]. unfold above. destruct (Rle_dec l _); auto. unfold np_quotient. destruct (Req_EM_T b 0); [lra|]. cbn [rbind]. rewrite (DSN _ _ Lr Ea). auto.
Qed.
Lemma near_any : length U = n -> forall d a l V, 0 <= d -> measured h h' m z U = Fin a -> limited h h' m z U = Fin l -> l <= (1 + d) * parameter m ->
  is_argmin n (prox_objective 1 z (gmode h m)) V -> sqn (vsub U V) <= d * dot (vsub z V) V + (parameter m * a - dot (vsub z U) U).
Proof.
  intros LU d a l V Hd Ea El Hl M. assert (LV : length V = n) by apply M. destruct m as [lam|b]; cbn [parameter measured limited] in *.
  - apply (near_lagrange n h h' PP z U Lz lam d V a l); auto. apply (kkt_lagrange n h h' PP PP' z V Lz lam ltac:(lra) M).
  - apply (near_bound n h h' PP z U Lz b d V l a); auto; try lra. apply (kkt_bound n h h' PP PP' z V Lz b ltac:(lra) M).
Qed.
Lemma values_sound : length U = n -> forall a l v w V, measured h h' m z U = Fin a -> limited h h' m z U = Fin l ->
  check_values sn dsn (bnd_of m) (lag_of m) z U = Ok (v, w) -> is_argmin n (prox_objective 1 z (gmode h m)) V ->
  w = Fin a /\ sqn (vsub U V) <= / 10 ^ 5 * dot (vsub z V) V + parameter m * (a - v).
Proof.
  intros LU a l v w V Ea El C M. rewrite (values_form LU a l Ea El) in C. destruct (Rle_dec l _) as [Hl|]; [|discriminate]. injection C as <- <-. split; auto.
  pose proof e5. assert (N := near_any LU (/ 10 ^ 5) a l V ltac:(lra) Ea El Hl M). replace (parameter m * (a - dot (vsub z U) U / parameter m)) with (parameter m * a - dot (vsub z U) U) by (field; lra). auto.
Qed.
Lemma values_exact : length U = n -> forall a l v V, measured h h' m z U = Fin a -> limited h h' m z U = Fin l -> l <= parameter m ->
  check_values sn dsn (bnd_of m) (lag_of m) z U = Ok (v, Fin v) -> is_argmin n (prox_objective 1 z (gmode h m)) V -> U = V.
Proof.
  intros LU a l v V Ea El Hl C M. rewrite (values_form LU a l Ea El) in C. destruct (Rle_dec l _) as [_|]; [|discriminate]. injection C as H1 H2. 
  assert (N := near_any LU 0 a l V ltac:(lra) Ea El ltac:(lra) M). assert (Q : parameter m * a = dot (vsub z U) U). { rewrite H2, <- H1. field. lra. }
  assert (LV : length V = n) by apply M. apply vsub_eq_zero; [vl n|]. pose proof (sqn_nonneg (vsub U V)). lra.
Qed.
End Values.

(** Without offset and quadratic the problem solved is the documented one. *)
Lemma stripped_prox : forall n h z u, length z = n -> prox_spec n h (mk_base n None no_quadratic) (centered z) u -> is_unique_argmin n (prox_objective 1 z h) u.
Proof.
  intros n h z u Lz H. unfold prox_spec in H. revert H. apply argmin_ext. intros v Lv. unfold base_doc, base_off, prox_objective. cbn [b_offset b_quadratic off_vec no_quadratic centered coef center linear_term constant_term fbcast].
  rewrite vsub_zeros_r by auto. destruct (h v) as [r|]; cbn; auto. f_equal. unfold quad_fun.
  replace (const_vec n 0) with (zeros n) by reflexivity. rewrite !(dot_comm (zeros n)), !dot_zeros_r, (sqn_vsub_sym z v) by congruence. lra.
Qed.

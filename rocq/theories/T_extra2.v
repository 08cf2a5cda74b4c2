(** More about C11. *)
From Coq Require Import Reals List Lra Lia Psatz.
From Verif Require Import Vec Spec M_quad M_prox SpecAtom P_prox.
Import ListNotations.
Local Open Scope R_scope.

(** A single positive weight below 1e-20, any norm and any level below the value at 0: the point returned is not the root, the function is above the level there. *)
Theorem C11_tiny_weight_refuted : forall w x b, 0 < w < / 10 ^ 20 -> 0 < x -> 0 <= b <= w * x ->
  exists t, find_solution_piecewise_linear b 0 [x] [w] = Ok t /\ b < w * pos (x - w * t).
Proof.
  intros w x b Hw Hx Hb. unfold find_solution_piecewise_linear, vmul, vsum. cbn [vzip fold_right]. destruct (Rlt_dec _ b) as [K|_]; [exfalso; lra|].
  cbn [knots_of]. unfold sort_desc. cbn [fold_right insert_desc pl_start pl_scan]. rewrite Rmax_right by lra. generalize dependent (/ 10 ^ 20). intros c Hc. unfold pl_final. destruct (Req_EM_T _ 0) as [K|_]; [exfalso; nra|].
  eexists. split; [reflexivity|]. assert (C0 : 0 < c) by lra.
  assert (E : x - w * ((b - (-0 * (x / c) - x / c * (-0 - w * w))) / (-0 - w * w)) = x * (c - w) / c + b / w) by (field; lra). rewrite E.
  assert (P1 : 0 < x * (c - w) / c) by (apply Rdiv_lt_0_compat; nra). assert (P2 : 0 <= b / w) by (apply Rmult_le_pos; [lra|left; apply Rinv_0_lt_compat; lra]).
  unfold pos. rewrite Rmax_left by lra. replace (w * (x * (c - w) / c + b / w)) with (w * (x * (c - w) / c) + b) by (field; lra). nra.
Qed.
Print Assumptions C11_tiny_weight_refuted.
Example C11_tiny_case : 0 < / 10 ^ 30 < / 10 ^ 20 /\ 0 < 1 /\ 0 <= 0 <= / 10 ^ 30 * 1.
Proof. assert (0 < / 10 ^ 30) by (apply Rinv_0_lt_compat; lra). assert (/ 10 ^ 30 < / 10 ^ 20) by (apply Rinv_lt_contravar; lra). lra. Qed.
(** All weights zero, where every t >= 0 solves the equation at level 0: the slope of the last piece is 0 and the division raises. *)
Lemma scan_zero : forall rest b curX curV, Forall (fun p => snd p = 0) rest -> pl_scan b 0 curX curV 0 rest = Err ZeroDivisionError.
Proof.
  assert (Fz : forall b x v, pl_final b (0 - 0) x v = Err ZeroDivisionError) by (intros; unfold pl_final; destruct (Req_EM_T _ 0) as [|K]; [reflexivity|exfalso; apply K; ring]).
  induction rest as [|[x s] rest IH]; intros b cx cv F; cbn [pl_scan]; auto. destruct (Rlt_dec _ _); auto. inversion F as [|? ? H F']; subst. cbn in H. subst s. replace (0 - 0) with 0 by ring. apply IH. auto.
Qed.
Lemma insert_zero : forall l p, snd p = 0 -> Forall (fun p => snd p = 0) l -> Forall (fun p : R * R => snd p = 0) (insert_desc p l).
Proof. induction l as [|q l IH]; intros p Hp F; cbn; [repeat constructor; auto|]. inversion F; subst. destruct (Rle_dec _ _); constructor; auto. Qed.
Lemma insert_some : forall l p, insert_desc p l <> [].
Proof. intros [|q l] p; cbn; [discriminate|]. destruct (Rle_dec _ _); discriminate. Qed.
Theorem C11_zero_weights_refuted : forall b norms, norms <> [] -> b <= 0 -> find_solution_piecewise_linear b 0 norms (zeros (length norms)) = Err ZeroDivisionError.
Proof.
  intros b norms Hn Hb. unfold find_solution_piecewise_linear. assert (Z : vsum (vmul (zeros (length norms)) norms) = 0).
  { change (vsum (vmul (zeros (length norms)) norms)) with (dot (zeros (length norms)) norms). apply dot_zeros_l. }
  rewrite Z. destruct (Rlt_dec 0 b); [exfalso; lra|]. assert (F : Forall (fun p => snd p = 0) (sort_desc (knots_of norms (zeros (length norms))))).
  { clear. induction norms as [|x l IH]; cbn; [constructor|]. apply insert_zero; auto. cbn. ring. }
  destruct (sort_desc (knots_of norms (zeros (length norms)))) as [|[x s] rest] eqn:E.
  - exfalso. destruct norms as [|x l]; [contradiction|]. cbn in E. apply (insert_some _ _ E).
  - unfold pl_start. inversion F as [|? ? H F']; subst. cbn in H. subst s. replace (-0) with 0 by ring. apply scan_zero. auto.
Qed.
Print Assumptions C11_zero_weights_refuted.

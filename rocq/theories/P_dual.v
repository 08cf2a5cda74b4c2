(** Proofs about dual problems. *)
From Coq Require Import Reals List Lra Lia Arith Bool.
From Verif Require Import M_affine SpecAffine P_affine M_loss M_smooth SpecSmooth P_smooth Vec Spec SpecConvex M_quad P_quad P_calc P_sep M_prox M_semi SpecAtom P_semi P_conj M_shift SpecBase P_shift M_afatom SpecCone M_cones P_cones M_fista SpecFista M_problem SpecProblem P_problem P_separable M_sconj SpecSconj P_sconj M_container SpecContainer.
Import ListNotations.
Local Open Scope R_scope.

(** ** Fenchel duality *)
Lemma small_t : forall a c, (forall t, 0 < t <= 1 -> 0 <= t * a + t * t * c) -> 0 <= a.
Proof.
  intros a c H. destruct (Rle_dec 0 a) as [|N]; auto. exfalso. assert (Ha : a < 0) by lra. destruct (Rle_dec c 0) as [Hc|Hc]; [specialize (H 1 ltac:(lra)); lra|].
  set (t := Rmin 1 (- a / (2 * c))). assert (0 < - a / (2 * c)) by (apply Rdiv_lt_0_compat; lra). assert (0 < t <= 1) by (unfold t; split; [apply Rmin_glb_lt; lra|apply Rmin_l]). specialize (H t ltac:(auto)).
  assert (t * c <= - a / 2). { assert (t <= - a / (2 * c)) by apply Rmin_r. apply Rle_trans with (- a / (2 * c) * c); [apply Rmult_le_compat_r; lra|]. apply Req_le. field. lra. } nra.
Qed.
Section Duality.
Variables (n : nat) (K : vec -> ext) (L : R) (f : vec -> R) (g : vec -> vec) (D : transform) (G H : vec -> ext).
Hypothesis S : smooth_conjugate_of n K L f g.
Hypothesis A : true_adjoint D.
Hypothesis En : t_in D = n.
Hypothesis CG : convex_ext (t_out D) G.
Hypothesis F : forall y, length y = t_out D -> is_fenchel (t_out D) G y (H y).
Let w (u : vec) : vec := vopp (t_adj D u).
Let phi (u : vec) : R := f (w u).
Lemma w_len : forall u, length u = t_out D -> length (w u) = n.
Proof. intros u Lu. unfold w. rewrite vopp_length. destruct A as (_ & A2 & _). rewrite A2; auto. Qed.
Lemma dot_w : forall u v, length u = t_out D -> length v = n -> dot (w u) v = - dot u (t_lin D v).
Proof. intros u v Lu Lv. destruct A as (A1 & A2 & A3). unfold w. rewrite dot_comm, dot_opp_r. rewrite <- A3 by congruence. rewrite (dot_comm (t_lin D v)). reflexivity. Qed.
Lemma dual_stationary : forall u gu u' gu', is_argmin (t_out D) (objective phi G) u -> G u = Fin gu -> length u' = t_out D -> G u' = Fin gu' -> gu + dot (t_lin D (g (w u))) (vsub u' u) <= gu'.
Proof.
  intros u gu u' gu' (Lu & _ & M) Eu Lu' Eu'. destruct S as (At & Cv & Gd & Lp). set (v := g (w u)). assert (Lw := w_len u Lu). assert (Lv : length v = n) by (apply At; auto).
  set (d := vsub u' u). assert (Ld : length d = t_out D) by (unfold d; vlen). set (a := gu' - gu - dot (t_lin D v) d). assert (0 <= a); [|unfold a in *; lra].
  destruct A as (A1 & A2 & A3). apply (small_t a (L / 2 * sqn (t_adj D d))). intros t Ht. assert (Lz : length (between u u' t) = t_out D) by (unfold between; vlen). specialize (M _ Lz). assert (C := CG u u' t gu gu' Lu Lu' ltac:(lra) Eu Eu').
  unfold objective in M. rewrite Eu in M. destruct (G (between u u' t)) as [gz|] eqn:Ez; [|contradiction]. cbn [ext_add ext_le] in M, C.
  assert (Ew : w (between u u' t) = vadd (w u) (vscal t (w d))). { unfold w, between. fold d. destruct (adjoint_linear (mk_transform (t_adj D) (t_adj D) (t_lin D) (t_off D) (t_out D) (t_in D))) as [B1 B2]. { split; [exact A2|split; [exact A1|]]. intros x y Lx Ly. cbn [t_lin t_adj t_in t_out] in *. rewrite dot_comm, <- A3 by auto. apply dot_comm. }
    cbn [t_lin t_in] in B1, B2. rewrite B1, B2 by vlen. clear. generalize (t_adj D u), (t_adj D d). unfold vopp, vadd, vscal. induction v as [|x v IH]; intros [|y z]; cbn; auto. f_equal; [ring|apply IH]. }
  assert (Lwd : length (w d) = n) by (apply w_len; auto). assert (Q := descent_lemma n f g L (w u) (w (between u u' t)) Gd Lp Lw (w_len _ Lz)).
  replace (vsub (w (between u u' t)) (w u)) with (vscal t (w d)) in Q. 2:{ rewrite Ew. assert (Lww : length (w u) = length (w d)) by congruence. revert Lww. clear. generalize (w u), (w d). unfold vsub, vadd, vscal. induction v as [|x v IH]; intros [|y z] E; cbn in *; try discriminate; auto. f_equal; [ring|apply IH; congruence]. }
  fold v in Q. rewrite dot_scal_r, sqn_scal in Q. rewrite (dot_comm v (w d)), dot_w in Q by auto. unfold phi in M. replace (sqn (w d)) with (sqn (t_adj D d)) in Q by (unfold w; rewrite sqn_opp; reflexivity). unfold a. rewrite (dot_comm (t_lin D v) d). nra.
Qed.
Lemma fenchel_at : forall u gu y, length u = t_out D -> length y = t_out D -> G u = Fin gu -> (forall u' gu', length u' = t_out D -> G u' = Fin gu' -> gu + dot y (vsub u' u) <= gu') -> H y = Fin (dot y u - gu).
Proof.
  intros u gu y Lu Ly Eu St. assert (Fy := F y Ly). assert (B : forall u' r, length u' = t_out D -> G u' = Fin r -> dot y u' - r <= dot y u - gu). { intros u' r Lu' Er. specialize (St u' r Lu' Er). rewrite dot_sub_r in St by vlen. lra. }
  destruct (H y) as [h|].
  - destruct Fy as [F1 F2]. f_equal. apply Rle_antisym; [|apply F1; auto]. destruct (Rle_dec h (dot y u - gu)) as [|N]; auto. exfalso. destruct (F2 (h - (dot y u - gu)) ltac:(lra)) as (u' & r & Lu' & Er & Hu). specialize (B u' r Lu' Er). lra.
  - exfalso. destruct (Fy (dot y u - gu)) as (u' & r & Lu' & Er & Hu). specialize (B u' r Lu' Er). lra.
Qed.
Lemma fenchel_young : forall u gu y h, length u = t_out D -> length y = t_out D -> G u = Fin gu -> H y = Fin h -> dot u y - gu <= h.
Proof. intros u gu y h Lu Ly Eu Eh. assert (Fy := F y Ly). rewrite Eh in Fy. rewrite dot_comm. apply Fy; auto. Qed.
(** A minimizer of the dual gives the minimizer of the primal, and the optimal values are opposite. *)
Theorem dual_recovers : forall u F0, is_argmin (t_out D) (objective phi G) u -> objective phi G u = Fin F0 ->
  is_unique_argmin n (primal_fun K D H) (g (w u)) /\ primal_fun K D H (g (w u)) = Fin (- F0).
Proof.
  intros u F0 M E0. assert (M' := M). destruct M' as (Lu & _ & _). unfold objective in E0. destruct (G u) as [gu|] eqn:Eu; [|discriminate]. cbn [ext_add] in E0. assert (E1 : F0 = phi u + gu) by congruence. clear E0.
  set (v := g (w u)). assert (Lw := w_len u Lu). destruct S as (At & _). destruct (At (w u) Lw) as ([Fk _] & Lv & Kv & Uv). fold v in Lv, Kv, Uv. assert (Lt : length (t_lin D v) = t_out D) by (apply A; congruence).
  assert (Hv : H (t_lin D v) = Fin (dot (t_lin D v) u - gu)). { apply fenchel_at; auto. intros u' gu' Lu' Eu'. apply (dual_stationary u gu u' gu'); auto. }
  assert (EV : primal_fun K D H v = Fin (- F0)). { unfold primal_fun. rewrite Kv, Hv. cbn [ext_add]. f_equal. rewrite dot_w by auto. rewrite (dot_comm (t_lin D v)). unfold phi in E1. lra. }
  assert (B : forall z kz hz, length z = n -> K z = Fin kz -> H (t_lin D z) = Fin hz -> - F0 <= kz + hz /\ (kz + hz <= - F0 -> kz = dot (w u) z - f (w u))).
  { intros z kz hz Lz Ez Eh. assert (Lz' : length (t_lin D z) = t_out D) by (apply A; congruence). assert (Y := fenchel_young u gu (t_lin D z) hz Lu Lz' Eu Eh). assert (Q := Fk z kz Lz Ez). assert (W := dot_w u z Lu Lz). unfold phi in E1. split; [lra|]. intros. lra. }
  split; [|exact EV]. split.
  - split; [exact Lv|]. split; [eexists; exact EV|]. intros z Lz. rewrite EV. unfold primal_fun. destruct (K z) as [kz|] eqn:Ez; [|exact I]. destruct (H (t_lin D z)) as [hz|] eqn:Eh; [|exact I]. cbn. apply (B z kz hz Lz Ez Eh).
  - intros z Lz Hz. rewrite EV in Hz. unfold primal_fun in Hz. destruct (K z) as [kz|] eqn:Ez; [|contradiction]. destruct (H (t_lin D z)) as [hz|] eqn:Eh; [|contradiction]. cbn in Hz. apply Uv; auto. f_equal. destruct (B z kz hz Lz Ez Eh) as [_ B2]. rewrite Ez. f_equal. lra.
Qed.
(** Whatever u is, its primal point is as close to the minimizer as the duality gap allows. *)
Theorem dual_accuracy : forall H0 Q u gu v p, convex_ext n H0 -> q_shape n Q -> 0 < coef Q -> (forall x, length x = n -> K x = plus_quad n H0 Q x) ->
  length u = t_out D -> G u = Fin gu -> length v = n -> primal_fun K D H v = Fin p -> coef Q / 2 * sqn (vsub v (g (w u))) <= p + (phi u + gu).
Proof.
  intros H0 Q u gu v p C0 SQ HQ EK Lu Eu Lv Ev. unfold primal_fun in Ev. destruct (K v) as [kv|] eqn:Ekv; [|discriminate]. destruct (H (t_lin D v)) as [hv|] eqn:Eh; [|discriminate]. cbn in Ev. assert (Ep : p = kv + hv) by congruence. clear Ev.
  assert (Lw := w_len u Lu). destruct S as (At & _). destruct (At (w u) Lw) as ([Fk Fk'] & Lg & Kg & Ug). assert (Lt : length (t_lin D v) = t_out D) by (apply A; congruence).
  assert (Y := fenchel_young u gu (t_lin D v) hv Lu Lt Eu Eh). assert (W := dot_w u v Lu Lv).
  assert (MM : is_argmin n (tilted (plus_quad n H0 Q) (w u)) (g (w u))). { split; auto. unfold tilted. rewrite <- EK, Kg by auto. split; [eexists; reflexivity|]. intros z Lz. rewrite <- EK by auto. destruct (K z) as [kz|] eqn:Ez; [|exact I]. cbn. assert (B := Fk z kz Lz Ez). lra. }
  assert (SM := strong_min n H0 Q (w u) (g (w u)) _ v kv C0 SQ HQ Lw MM ltac:(rewrite <- EK by auto; exact Kg) Lv ltac:(rewrite <- EK; auto)). unfold phi. lra.
Qed.
End Duality.

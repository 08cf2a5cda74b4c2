(** Proofs about huberized_svm: the closed form of the smoothed positive part. *)
From Coq Require Import Reals List Arith Lia Lra Bool Psatz.
From Verif Require Import Vec Spec M_quad M_prox M_semi SpecAtom M_affine SpecAffine M_loss M_smooth M_afatom M_shift M_cones M_problem M_sconj SpecProblem SpecConvex SpecSconj SpecLoss P_sconj M_hsvm SpecHsvm P_cox3.
Import ListNotations.
Local Open Scope R_scope.

(** the maximizer over [0,1] of u (t) - s/2 u^2, and its value *)
Definition clip1 (s t : R) : R := Rmin 1 (Rmax 0 (t / s)).
Definition env (s t : R) : R := smooth_hinge s (1 - t).
Lemma clip1_cases : forall s t, 0 < s -> (t <= 0 /\ clip1 s t = 0 /\ env s t = 0) \/ (s <= t /\ clip1 s t = 1 /\ env s t = t - s / 2) \/ (0 < t < s /\ clip1 s t = t / s /\ env s t = t * t / (2 * s)).
Proof.
  intros s t Hs. unfold clip1, env, smooth_hinge.
  destruct (Rle_dec t 0) as [A|A]; [left|destruct (Rle_dec s t) as [B|B]; [right; left|right; right]].
  - assert (t / s <= 0) by (apply Rmult_le_reg_r with s; auto; unfold Rdiv; rewrite Rmult_assoc, Rinv_l; lra). split; auto. split; [rewrite Rmax_left, Rmin_right by (try rewrite Rmax_left; lra); auto|]. destruct (Rle_dec 1 (1 - t)); lra.
  - assert (1 <= t / s) by (apply Rmult_le_reg_r with s; auto; unfold Rdiv; rewrite Rmult_assoc, Rinv_l; lra). split; auto. split; [rewrite Rmax_right, Rmin_left by (try rewrite Rmax_right; lra); auto|].
    destruct (Rle_dec 1 (1 - t)); [lra|]. destruct (Rle_dec (1 - t) (1 - s)); [|lra]. lra.
  - assert (t / s <= 1) by (apply Rmult_le_reg_r with s; auto; unfold Rdiv; rewrite Rmult_assoc, Rinv_l; lra). assert (0 < t / s) by (apply Rdiv_lt_0_compat; lra).
    split; [lra|]. split; [rewrite Rmax_right, Rmin_right by (try rewrite Rmax_right; lra); auto|]. destruct (Rle_dec 1 (1 - t)); [lra|]. destruct (Rle_dec (1 - t) (1 - s)); [lra|]. field. lra.
Qed.
Lemma env_dual : forall s t, 0 < s -> env s t = clip1 s t * t - s / 2 * (clip1 s t * clip1 s t).
Proof. intros s t Hs. destruct (clip1_cases s t Hs) as [(A & -> & ->)|[(A & -> & ->)|(A & -> & ->)]]; field; lra. Qed.
Lemma env_primal : forall s t, 0 < s -> env s t = pos (t - s * clip1 s t) + s / 2 * (clip1 s t * clip1 s t).
Proof.
  intros s t Hs. unfold pos. destruct (clip1_cases s t Hs) as [(A & -> & ->)|[(A & -> & ->)|(A & -> & ->)]].
  - rewrite Rmax_right by lra || rewrite Rmax_left by lra. lra.
  - rewrite Rmax_left by lra || rewrite Rmax_right by lra. lra.
  - replace (t - s * (t / s)) with 0 by (field; lra). rewrite Rmax_left by lra. field. lra.
Qed.
Lemma clip1_range : forall s t, 0 <= clip1 s t <= 1.
Proof. intros. unfold clip1, Rmin, Rmax. repeat destruct (Rle_dec _ _); lra. Qed.
Lemma pos_supports : forall c a, 0 <= c <= 1 -> c * a <= pos a.
Proof. intros c a H. unfold pos, Rmax. destruct (Rle_dec _ _); nra. Qed.

Definition ones (n : nat) : vec := const_vec n 1.
Definition cl (s : R) (z : vec) : vec := map (fun a => clip1 s (a + 1)) z.
Definition envs (s : R) (z : vec) : R := vsum (map (fun a => env s (a + 1)) z).
Lemma cl_length : forall s z, length (cl s z) = length z.
Proof. intros. apply map_length. Qed.
Lemma envs_dual : forall s z, 0 < s -> envs s z = dot z (cl s z) + vsum (cl s z) - s / 2 * sqn (cl s z).
Proof.
  intros s z Hs. unfold envs, cl. induction z as [|a z IH]; [unfold sqn, dot; cbn; ring|]. cbn [map]. rewrite vsum_cons, IH, env_dual by auto. unfold sqn. rewrite !dot_cons, vsum_cons. ring.
Qed.
Lemma envs_primal : forall s z, 0 < s -> envs s z = sum_pos (vadd (vsub z (vscal s (cl s z))) (ones (length z))) + s / 2 * sqn (cl s z).
Proof.
  intros s z Hs. unfold envs, cl, sum_pos, ones. induction z as [|a z IH]; [unfold sqn, dot; cbn; ring|]. cbn [map]. rewrite vsum_cons, IH, env_primal by auto. unfold sqn. rewrite dot_cons.
  cbn [length const_vec repeat vsub vadd vscal vzip map]. rewrite vsum_cons. replace (a - s * clip1 s (a + 1) + 1) with (a + 1 - s * clip1 s (a + 1)) by ring. fold (vscal s (map (fun a0 => clip1 s (a0 + 1)) z)). unfold vadd, vsub, const_vec. ring.
Qed.
Lemma cl_supports : forall s z x, length x = length z -> dot (cl s z) x + vsum (cl s z) <= sum_pos (vadd x (ones (length z))).
Proof.
  intros s z. unfold cl, sum_pos, ones. induction z as [|a z IH]; intros [|b x] L; try discriminate; [unfold dot; cbn; lra|]. cbn [map]. rewrite dot_cons, vsum_cons. cbn [length const_vec repeat vadd vzip map]. rewrite vsum_cons.
  assert (H := IH x ltac:(cbn in L; lia)). assert (H2 := pos_supports _ (b + 1) (clip1_range s (a + 1))). unfold vadd, const_vec in *. lra.
Qed.
Section ClosedForm.
Variables (n : nat) (s L : R) (P G : vec -> ext) (f : vec -> R) (g : vec -> vec).
Hypotheses (Hs : 0 < s) (HP : forall x, length x = n -> P x = Fin (sum_pos (vadd x (ones n)))) (HG : forall u, length u = n -> is_fenchel n P u (G u)).
Hypothesis HS : smooth_conjugate_of n (plus_quad n G (mk_iq s (FScal 0) (FScal 0) 0)) L f g.
Lemma sq_value : forall u, length u = n -> q_denot n (mk_iq s (FScal 0) (FScal 0) 0) u = s / 2 * sqn u.
Proof. intros u Lu. unfold q_denot, quad_fun. cbn [coef M_quad.center linear_term constant_term]. change (fbcast n (FScal 0)) with (zeros n). rewrite vsub_zeros_r by auto. rewrite dot_comm, dot_zeros_r. ring. Qed.
Lemma value_ge : forall z, length z = n -> envs s z <= f z.
Proof.
  intros z Lz. destruct (proj1 HS z Lz) as ((U & _) & _). set (v := cl s z). assert (Lv : length v = n) by (unfold v; rewrite cl_length; auto).
  assert (B : forall x, length x = n -> dot v x - sum_pos (vadd x (ones n)) <= - vsum v). { intros x Lx. assert (H := cl_supports s z x ltac:(congruence)). rewrite Lz in H. fold v in H. lra. }
  assert (E : exists gv, G v = Fin gv /\ gv <= - vsum v).
  { assert (H := HG v Lv). destruct (G v) as [gv|].
    - exists gv. split; auto. destruct H as [_ H]. apply Rnot_lt_le. intros C. destruct (H (gv + vsum v) ltac:(lra)) as (x & r & Lx & Er & Hx). rewrite HP in Er by auto. injection Er as <-. specialize (B x Lx). lra.
    - exfalso. destruct (H (- vsum v)) as (x & r & Lx & Er & Hx). rewrite HP in Er by auto. injection Er as <-. specialize (B x Lx). lra. }
  destruct E as (gv & Eg & Hg). assert (H := U v (gv + s / 2 * sqn v) Lv). unfold plus_quad in H. rewrite Eg, sq_value in H by auto. specialize (H eq_refl).
  rewrite envs_dual by auto. fold v. lra.
Qed.
Lemma closed_form : forall z, length z = n -> f z = envs s z /\ g z = cl s z.
Proof.
  intros z Lz. assert (Ge := value_ge z Lz). destruct (proj1 HS z Lz) as (_ & Lg & K & _). set (u := g z) in *. set (v := cl s z). assert (Lv : length v = n) by (unfold v; rewrite cl_length; auto).
  unfold plus_quad in K. destruct (G u) as [gu|] eqn:Eu; [|discriminate]. cbn [ext_add] in K. rewrite sq_value in K by auto. injection K as K.
  assert (H := HG u Lg). rewrite Eu in H. destruct H as [H _]. set (x := vsub z (vscal s v)). assert (Lx : length x = n) by (unfold x; vlen). specialize (H x _ Lx (HP x Lx)).
  assert (E := envs_primal s z Hs). rewrite Lz in E. fold v in E. fold x in E.
  assert (D : dot u x = dot z u - s * dot v u). { unfold x. rewrite dot_sub_r by vlen. rewrite dot_scal_r, (dot_comm u z), (dot_comm u v). ring. }
  assert (Q : sqn (vsub u v) = sqn u + sqn v - 2 * dot u v) by (rewrite sqn_sub by congruence; ring). rewrite (dot_comm u v) in Q.
  assert (N := sqn_nonneg (vsub u v)).
  assert (F : f z <= envs s z - s / 2 * sqn (vsub u v)) by (rewrite Q; lra).
  assert (Z : sqn (vsub u v) = 0) by nra. split; [nra|]. apply vsub_eq_zero; [congruence|]. lra.
Qed.
End ClosedForm.

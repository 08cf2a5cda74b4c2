From Coq Require Import Reals List Lra Lia Psatz Bool.
From Verif Require Import Vec Spec M_quad M_prox M_semi SpecAtom M_shift SpecBase SpecSimplex M_simplex P_quad P_pl P_prox P_feas P_semi P_conj P_shift.
Import ListNotations.
Local Open Scope R_scope.

(** ** Sums against a vector with a common bound *)
Lemma dot_le_const : forall (x v : vec) t, length x = length v -> all_nonneg v -> Forall (fun a => a <= t) x -> dot x v <= t * vsum v.
Proof.
  intros x v t H. pattern x, v. apply vec_ind2; auto.
  - intros. unfold dot. simpl. lra.
  - intros a b X Y HL IH H1 H2. rewrite dot_cons, vsum_cons. specialize (IH (Forall_inv_tail H1) (Forall_inv_tail H2)).
    pose proof (Forall_inv H1). pose proof (Forall_inv H2). simpl in *. nra.
Qed.

Definition trunc (t : R) (x : vec) : vec := map (fun a => Rmax (a - t) 0) x.
Lemma trunc_nonneg : forall t x, all_nonneg (trunc t x).
Proof. intros. apply Forall_map, Forall_forall. intros. apply Rmax_r. Qed.
Lemma trunc_resid_le : forall t x, Forall (fun a => a <= t) (vsub x (trunc t x)).
Proof. intros t x. unfold vsub, trunc. induction x; simpl; constructor; auto. unfold Rmax. destruct (Rle_dec _ _); lra. Qed.
Lemma trunc_resid_dot : forall t x, dot (vsub x (trunc t x)) (trunc t x) = t * vsum (trunc t x).
Proof.
  intros t x. unfold vsub, trunc. induction x as [|a x IH]; [unfold dot; simpl; lra|]. cbn [map vzip]. rewrite dot_cons, vsum_cons, IH.
  unfold Rmax. destruct (Rle_dec _ _); nra.
Qed.
Lemma trunc_pos : forall t x, trunc t x = map (fun a => pos (a - t)) x.
Proof. reflexivity. Qed.
Lemma trunc_length : forall t x, length (trunc t x) = length x.
Proof. intros. apply map_length. Qed.

Theorem simplex_prox_correct : forall n x, (1 <= n)%nat -> length x = n ->
  exists p, simplex_basic_prox x = Ok p /\ is_proj n in_simplex x p.
Proof.
  intros n x Hn Hx. destruct (find_uncon_spec 1 x) as (t & E & Hs & _); [intros ->; simpl in Hx; lia|lra|].
  exists (trunc t x). unfold simplex_basic_prox. rewrite E. split; auto. rewrite <- trunc_pos in Hs.
  apply proj_certificate; auto; [rewrite trunc_length; auto|split; auto using trunc_nonneg|].
  intros v Hv [Hv1 Hv2]. pose proof (trunc_length t x).
  rewrite dot_sub_r by vlen. rewrite trunc_resid_dot, Hs.
  pose proof (dot_le_const (vsub x (trunc t x)) v t ltac:(vlen) Hv1 (trunc_resid_le t x)). rewrite Hv2 in H0. lra.
Qed.

(** ** The maximum *)
Lemma vmax_ge : forall x, Forall (fun a => a <= vmax x) x.
Proof. destruct x as [|a x]; auto. constructor; [apply max_list_ge_d|apply max_list_ge]. Qed.
Lemma vmax_in : forall x, x <> [] -> In (vmax x) x.
Proof.
  intros [|a x] H; [congruence|]. clear H. simpl. revert a. induction x as [|b x IH]; intros a; simpl; auto.
  unfold Rmax. destruct (Rle_dec b (max_list a x)); auto. destruct (IH a); auto.
Qed.
Lemma vmax_le : forall x m, x <> [] -> Forall (fun a => a <= m) x -> vmax x <= m.
Proof. intros x m Hx H. rewrite Forall_forall in H. apply H, vmax_in. auto. Qed.

Theorem maximum_prox_correct : forall n x L, (1 <= n)%nat -> length x = n -> 0 < L ->
  exists p, maximum_basic_prox x L = Ok p /\ is_unique_argmin n (prox_objective L x max_fun) p.
Proof.
  intros n x L Hn Hx HL. assert (Hne : x <> []) by (intros ->; simpl in Hx; lia).
  assert (0 < 1 / L) by (apply Rmult_lt_0_compat; [lra|apply Rinv_0_lt_compat; auto]).
  destruct (find_uncon_spec (1 / L) x Hne ltac:(lra)) as (t & E & Hs & (m & Hm & Htm)).
  unfold maximum_basic_prox. rewrite E. fold (trunc t x). rewrite <- trunc_pos in Hs. cbn [rmap].
  exists (vsub x (trunc t x)). split; auto. pose proof (trunc_length t x) as Lt.
  assert (Mx : vmax (vsub x (trunc t x)) = t).
  { apply Rle_antisym.
    - apply vmax_le; [|apply trunc_resid_le]. destruct x; [congruence|discriminate].
    - pose proof (vmax_ge (vsub x (trunc t x))) as G. rewrite Forall_forall in G. apply G.
      unfold vsub, trunc. clear - Hm Htm. induction x as [|a x IH]; simpl in *; [tauto|]. destruct Hm as [->|Hm]; auto.
      left. rewrite Rmax_left; lra. }
  apply prox_certificate with (r := t); auto; [vlen|unfold max_fun; rewrite Mx; auto|].
  intros v s Hv Es. injection Es as <-.
  assert (R0 : vsub x (vsub x (trunc t x)) = trunc t x).
  { unfold vsub, trunc. clear. induction x; simpl; auto. f_equal; auto. lra. }
  rewrite R0, dot_sub_r by vlen. rewrite (dot_comm _ (vsub _ _)), trunc_resid_dot, Hs.
  pose proof (dot_le_const v (trunc t x) (vmax v) ltac:(vlen) (trunc_nonneg t x) (vmax_ge v)) as D. rewrite Hs in D. rewrite dot_comm in D.
  assert (L * dot (trunc t x) v <= vmax v). { replace (vmax v) with (L * (vmax v * (1 / L))) by (field; lra). apply Rmult_le_compat_l; lra. }
  replace (t + L * (dot (trunc t x) v - t * (1 / L))) with (L * dot (trunc t x) v) by (field; lra). auto.
Qed.

(** ** Conjugacy *)
Lemma vsum_zeros : forall n, vsum (zeros n) = 0.
Proof. intros. unfold zeros. induction n; simpl; auto. unfold vsum in *. simpl. lra. Qed.
(** the i-th unit vector *)
Definition unit_vec (n i : nat) : vec := repeat 0 i ++ 1 :: repeat 0 (n - i - 1).
Lemma unit_length : forall n i, (i < n)%nat -> length (unit_vec n i) = n.
Proof. intros. unfold unit_vec. rewrite app_length. simpl. rewrite !repeat_length. lia. Qed.
Lemma dot_repeat0 : forall k (x : vec), dot (repeat 0 k) x = 0.
Proof. intros. apply dot_zeros_l. Qed.
Lemma unit_dot : forall i n (u : vec), length u = n -> (i < n)%nat -> dot u (unit_vec n i) = nth i u 0.
Proof.
  intros i. unfold unit_vec. induction i; intros n u Hu Hi; destruct u as [|a u]; simpl in Hu; try lia.
  - simpl. rewrite dot_cons. fold (zeros (n - 0 - 1)). rewrite dot_zeros_r. lra.
  - simpl. rewrite dot_cons. rewrite <- (IHi (n - 1)%nat u) by lia. replace (n - 1 - i - 1)%nat with (n - S i - 1)%nat by lia. lra.
Qed.
Lemma unit_simplex : forall n i, (i < n)%nat -> in_simplex (unit_vec n i).
Proof.
  intros n i H. split.
  - unfold unit_vec. apply Forall_app. split; [|constructor; [lra|]]; apply Forall_forall; intros a Ha; apply repeat_spec in Ha; subst; lra.
  - unfold unit_vec. rewrite vsum_app. rewrite vsum_cons. fold (zeros i) (zeros (n - i - 1)). rewrite !vsum_zeros. lra.
Qed.
Lemma simplex_fun_in : forall x, in_simplex x -> simplex_fun x = Fin 0.
Proof. intros. unfold simplex_fun. destruct (in_simplex_dec x); tauto. Qed.
Lemma simplex_fun_out : forall x, ~ in_simplex x -> simplex_fun x = PInf.
Proof. intros. unfold simplex_fun. destruct (in_simplex_dec x); tauto. Qed.
Lemma simplex_fun_fin : forall x r, simplex_fun x = Fin r -> in_simplex x /\ r = 0.
Proof. intros x r H. unfold simplex_fun in H. destruct (in_simplex_dec x); [|discriminate]. injection H as <-. auto. Qed.

Lemma simplex_fenchel : forall n u, (1 <= n)%nat -> length u = n -> is_fenchel n simplex_fun u (max_fun u).
Proof.
  intros n u Hn Hu. assert (Hne : u <> []) by (intros ->; simpl in Hu; lia). split.
  - intros x r Hx Hr. apply simplex_fun_fin in Hr. destruct Hr as [[H1 H2] ->].
    pose proof (dot_le_const u x (vmax u) ltac:(congruence) H1 (vmax_ge u)). rewrite H2 in H. lra.
  - intros e He. destruct (In_nth u (vmax u) 0 (vmax_in u Hne)) as (i & Hi & E). rewrite Hu in Hi.
    exists (unit_vec n i), 0. split; [apply unit_length; auto|]. split; [apply simplex_fun_in, unit_simplex; auto|].
    rewrite unit_dot by auto. rewrite E. lra.
Qed.

Lemma vmax_const : forall n c, (1 <= n)%nat -> vmax (const_vec n c) = c.
Proof.
  intros n c Hn. assert (Hne : const_vec n c <> []) by (destruct n; [lia|discriminate]).
  pose proof (vmax_in _ Hne) as H. apply repeat_spec in H. auto.
Qed.
Lemma dot_const : forall n c u, length u = n -> dot u (const_vec n c) = c * vsum u.
Proof.
  intros n c u <-. unfold const_vec. induction u as [|a u IH]; [unfold dot; simpl; lra|]. cbn [repeat length]. rewrite dot_cons, vsum_cons, IH. lra.
Qed.

Lemma max_fenchel : forall n u, (1 <= n)%nat -> length u = n -> is_fenchel n max_fun u (simplex_fun u).
Proof.
  intros n u Hn Hu.
  destruct (in_simplex_dec u) as [[H1 H2]|H].
  - rewrite simplex_fun_in by (split; auto). split.
    + intros x r Hx Hr. injection Hr as <-. pose proof (dot_le_const x u (vmax x) ltac:(congruence) H1 (vmax_ge x)). rewrite H2, dot_comm in H. lra.
    + intros e He. exists (const_vec n 0), 0. split; [apply const_vec_length|]. unfold max_fun. rewrite vmax_const by auto. split; auto.
      rewrite dot_const by auto. lra.
  - rewrite simplex_fun_out by auto.
    destruct (Req_EM_T (vsum u) 1) as [S1|S1].
    + assert (exists i, (i < n)%nat /\ nth i u 0 < 0) as (i & Hi & Hneg).
      { destruct (nonneg_dec u) as [P|P]; [destruct H; split; auto|].
        unfold all_nonneg in P. apply Exists_Forall_neg in P. 2:{ intros. destruct (Rle_dec 0 x); tauto. }
        apply Exists_exists in P. destruct P as (a & Ha & Hlt). destruct (In_nth u a 0 Ha) as (i & Hi & E).
        exists i. split; [lia|]. rewrite E. lra. }
      apply ray_unbounded with (x := vscal (-1) (unit_vec n i)) (rho := 0) (slope := - nth i u 0).
      * rewrite vscal_length. apply unit_length; auto.
      * intros t Ht. unfold max_fun. eexists. split; [reflexivity|]. rewrite Rmult_0_r. apply vmax_le.
        { intros C. apply (f_equal (@length R)) in C. rewrite !vscal_length, unit_length in C by auto. simpl in C. lia. }
        unfold vscal. apply Forall_map, Forall_map. eapply Forall_impl; [|apply (unit_simplex n i Hi)]. simpl. intros a Ha. nra.
      * rewrite dot_scal_r, unit_dot by auto. lra.
      * lra.
    + set (d := if Rlt_dec 1 (vsum u) then 1 else -1).
      assert (D : 0 < d * (vsum u - 1)). { unfold d. destruct (Rlt_dec 1 (vsum u)); lra. }
      apply ray_unbounded with (x := const_vec n d) (rho := d) (slope := d * (vsum u - 1)).
      * apply const_vec_length.
      * intros t Ht. unfold max_fun. eexists. split; [reflexivity|].
        replace (vscal t (const_vec n d)) with (const_vec n (t * d)). { rewrite vmax_const by auto. lra. }
        unfold vscal, const_vec. clear. induction n; simpl; auto. f_equal; auto.
      * rewrite dot_const by auto. lra.
      * auto.
Qed.

(** ** Objects *)

Lemma simplex_proj_argmin : forall n L x p, 0 < L -> length x = n -> is_proj n in_simplex x p ->
  is_unique_argmin n (prox_objective L x simplex_fun) p.
Proof.
  intros n L x p HL Hx (Hp & HS & H). unfold prox_objective.
  split; [split; [auto|split]|].
  - rewrite simplex_fun_in by auto. simpl. eauto.
  - intros v Hv. rewrite (simplex_fun_in p) by auto. unfold simplex_fun. destruct (in_simplex_dec v) as [I|I]; simpl; auto.
    destruct (H v Hv I) as [H1 _]. nra.
  - intros v Hv. rewrite (simplex_fun_in p) by auto. unfold simplex_fun. destruct (in_simplex_dec v) as [I|I]; simpl; [|tauto].
    intros Hle. destruct (H v Hv I) as [H1 H2]. apply H2. nra.
Qed.

Theorem simplex_proximal_correct : forall c n g p, (1 <= n)%nat -> base_wf n g -> q_shape n p ->
  0 < coef (b_quadratic g) + coef p -> some_array g p ->
  exists v, simplex_proximal (mk_simplex c g) (AQuad p) = Ok v /\ prox_spec n (simplex_doc c) g p v.
Proof.
  intros c n g p Hn Hwf Hp HL Hv. apply shifted_prox_correct; auto.
  intros x Hx. destruct c; simpl.
  - destruct (simplex_prox_correct n x Hn Hx) as (e & E & He). exists e. split; auto. apply simplex_proj_argmin; auto.
  - apply maximum_prox_correct; auto.
Qed.

Theorem simplex_conjugate_correct : forall c n g, (1 <= n)%nat -> base_wf n g -> coef (b_quadratic g) = 0 ->
  exists d, simplex_conjugate (mk_simplex c g) = Ok (mk_simplex (simplex_pair c) d) /\ base_wf n d /\
    (forall u, length u = n -> is_fenchel n (base_doc n (simplex_doc c) g) u (base_doc n (simplex_doc (simplex_pair c)) d u)) /\
    exists e, simplex_conjugate (mk_simplex (simplex_pair c) d) = Ok (mk_simplex c e) /\ base_wf n e /\
    forall v, length v = n -> base_doc n (simplex_doc c) e v = base_doc n (simplex_doc c) g v.
Proof.
  intros c n g Hn Hwf Hc.
  destruct (conjugate_base_fenchel n (simplex_doc c) (simplex_doc (simplex_pair c)) g Hwf Hc) as (d & E & W & F).
  { intros u Hu. destruct c; simpl; [apply simplex_fenchel|apply max_fenchel]; auto. }
  destruct (conjugate_base_twice n (simplex_doc c) g Hwf Hc) as (d' & e & E1 & E2 & We & H).
  assert (d' = d) by congruence. subst d'.
  exists d. unfold simplex_conjugate. cbn [x_class x_base]. rewrite E. simpl. repeat (split; auto).
  exists e. rewrite E2. destruct c; auto.
Qed.

Lemma np_max_vmax : forall x, x <> [] -> np_max x = Ok (vmax x).
Proof.
  intros [|a x] H; [congruence|]. simpl. f_equal. clear H. revert a. induction x as [|b x IH]; intros a; simpl; auto.
  rewrite IH. clear. revert a b. induction x as [|c x IH]; intros; simpl; [apply Rmax_comm|]. rewrite IH. rewrite !Rmax_assoc. f_equal. apply Rmax_comm.
Qed.

Theorem maximum_objective_correct : forall n g x chk, (1 <= n)%nat -> base_wf n g -> length x = n ->
  simplex_objective (mk_simplex XMaximum g) x chk = Ok (base_doc n max_fun g x).
Proof.
  intros. unfold simplex_objective. cbn [x_class x_base]. apply shifted_objective_correct; auto.
  intros y Hy. rewrite np_max_vmax; auto. intros ->. simpl in Hy. lia.
Qed.

(** the feasibility test: distance to the simplex below tol * max(|x|,1) *)
Theorem simplex_constraint_correct : forall n x, (1 <= n)%nat -> length x = n ->
  (in_simplex x -> simplex_constraint_value x = Ok (Fin 0)) /\
  (simplex_constraint_value x = Ok (Fin 0) -> exists v, length v = n /\ in_simplex v /\ norm (vsub x v) < / 10 ^ 5 * Rmax (norm x) 1) /\
  (simplex_constraint_value x = Ok PInf -> forall v, length v = n -> in_simplex v -> / 10 ^ 5 * Rmax (norm x) 1 <= norm (vsub x v)) /\
  (simplex_constraint_value x = Ok (Fin 0) \/ simplex_constraint_value x = Ok PInf).
Proof.
  intros n x Hn Hx. destruct (simplex_prox_correct n x Hn Hx) as (p & E & (Lp & Sp & Hp)).
  unfold simplex_constraint_value. rewrite E. cbn [rmap]. fold tol.
  assert (T : 0 < tol) by (unfold tol; apply Rinv_0_lt_compat; lra).
  assert (M : 0 < Rmax (norm x) 1) by (pose proof (Rmax_r (norm x) 1); lra).
  assert (Mid : forall a, a / Rmax (norm x) 1 < tol <-> a < tol * Rmax (norm x) 1).
  { intros a. split; intros H.
    - apply Rmult_lt_compat_r with (r := Rmax (norm x) 1) in H; auto. unfold Rdiv in H. rewrite Rmult_assoc, Rinv_l in H; lra.
    - apply Rmult_lt_reg_r with (r := Rmax (norm x) 1); auto. unfold Rdiv. rewrite Rmult_assoc, Rinv_l; lra. }
  split; [|split; [|split]].
  - intros I. assert (p = x). { destruct (Hp x Hx I) as [H1 H2]. symmetry. apply H2. rewrite vsub_self, sqn_zeros in *. pose proof (sqn_nonneg (vsub x p)). lra. }
    subst p. rewrite vsub_self, norm_zeros. destruct (Rlt_dec _ tol) as [|C]; auto. destruct C. apply Mid. nra.
  - destruct (Rlt_dec _ tol) as [C|C]; [|discriminate]. intros _. exists p. apply Mid in C. auto.
  - destruct (Rlt_dec _ tol) as [C|C]; [discriminate|]. intros _ v Hv Sv. rewrite Mid in C.
    destruct (Hp v Hv Sv) as [H1 _]. apply Rle_trans with (norm (vsub x p)); [lra|]. apply sqrt_le_1; auto using sqn_nonneg.
  - destruct (Rlt_dec _ tol); auto.
Qed.

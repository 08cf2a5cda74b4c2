(** Continuity of polynomial expressions in coordinates; orthonormal families. *)
From Coq Require Import Reals List Lra Lia Psatz Arith Classical.
From Verif Require Import M_affine P_affine P_affine2 Vec Spec SpecLoss P_sep P_cv P_cox2 M_linear SpecLinear P_linear SpecBlock SpecSvd P_compact.
Import ListNotations.
Local Open Scope R_scope.

Definition cont (n : nat) (f : vec -> R) : Prop := forall x, length x = n -> forall e, 0 < e -> exists d, 0 < d /\ forall y, close d x y -> Rabs (f y - f x) < e.
Definition vcont (n m : nat) (F : vec -> vec) : Prop := (forall x, length x = n -> length (F x) = m) /\ forall i, (i < m)%nat -> cont n (fun x => nth i (F x) 0).

Lemma close_weaken : forall d d' x y, d <= d' -> close d x y -> close d' x y.
Proof. intros d d' x y H [L C]. split; auto. intros i Hi. specialize (C i Hi). lra. Qed.
Lemma cont_const : forall n c, cont n (fun _ => c).
Proof. intros n c x Lx e He. exists 1. split; [lra|]. intros y _. unfold Rminus. rewrite Rplus_opp_r, Rabs_R0. auto. Qed.
Lemma cont_coord : forall n i, (i < n)%nat -> cont n (fun x => nth i x 0).
Proof. intros n i Hi x Lx e He. exists e. split; auto. intros y [Ly C]. apply C. lia. Qed.
Lemma cont_plus : forall n f g, cont n f -> cont n g -> cont n (fun x => f x + g x).
Proof.
  intros n f g Cf Cg x Lx e He. destruct (Cf x Lx (e / 2) ltac:(lra)) as (d & Hd & H). destruct (Cg x Lx (e / 2) ltac:(lra)) as (d' & Hd' & H').
  exists (Rmin d d'). split; [apply Rmin_pos; auto|]. intros y Cy. specialize (H y (close_weaken _ _ _ _ (Rmin_l _ _) Cy)). specialize (H' y (close_weaken _ _ _ _ (Rmin_r _ _) Cy)).
  replace (f y + g y - (f x + g x)) with ((f y - f x) + (g y - g x)) by ring. pose proof (Rabs_triang (f y - f x) (g y - g x)). lra.
Qed.
Lemma cont_mult : forall n f g, cont n f -> cont n g -> cont n (fun x => f x * g x).
Proof.
  intros n f g Cf Cg x Lx e He. set (A := Rabs (f x) + Rabs (g x) + 1). pose proof (Rabs_pos (f x)). pose proof (Rabs_pos (g x)). assert (HA : 1 <= A) by (unfold A; lra).
  set (e' := Rmin 1 (e / (2 * A))). assert (0 < e / (2 * A)) by (apply Rdiv_lt_0_compat; lra). assert (He' : 0 < e') by (apply Rmin_pos; lra).
  destruct (Cf x Lx e' He') as (d & Hd & Hf). destruct (Cg x Lx e' He') as (d' & Hd' & Hg).
  exists (Rmin d d'). split; [apply Rmin_pos; auto|]. intros y Cy. specialize (Hf y (close_weaken _ _ _ _ (Rmin_l _ _) Cy)). specialize (Hg y (close_weaken _ _ _ _ (Rmin_r _ _) Cy)).
  replace (f y * g y - f x * g x) with ((f y - f x) * (g y - g x) + (f x * (g y - g x) + g x * (f y - f x))) by ring.
  eapply Rle_lt_trans; [apply Rabs_triang|]. eapply Rle_lt_trans; [apply Rplus_le_compat_l, Rabs_triang|]. rewrite !Rabs_mult.
  set (a := Rabs (f y - f x)) in *. set (b := Rabs (g y - g x)) in *. assert (0 <= a) by apply Rabs_pos. assert (0 <= b) by apply Rabs_pos. assert (E1 : e' <= 1) by apply Rmin_l.
  assert (E2 : e' * A <= e / 2). { apply Rle_trans with (e / (2 * A) * A); [apply Rmult_le_compat_r; [lra|apply Rmin_r]|right; field; lra]. }
  assert (a * b <= e' * 1) by (apply Rmult_le_compat; lra). assert (Rabs (f x) * b <= Rabs (f x) * e') by (apply Rmult_le_compat_l; lra). assert (Rabs (g x) * a <= Rabs (g x) * e') by (apply Rmult_le_compat_l; lra).
  unfold A in E2. lra.
Qed.
Lemma cont_ext : forall n f g, (forall x, length x = n -> f x = g x) -> cont n f -> cont n g.
Proof. intros n f g E C x Lx e He. destruct (C x Lx e He) as (d & Hd & H). exists d. split; auto. intros y Cy. assert (length y = n) by (destruct Cy; congruence). rewrite <- !E by auto. auto. Qed.
Lemma cont_sum : forall n m (F : nat -> vec -> R), (forall i, (i < m)%nat -> cont n (F i)) -> cont n (fun x => sum_over m (fun i => F i x)).
Proof.
  intros n m. induction m as [|m IH]; intros F H.
  - apply (cont_ext n (fun _ => 0)); [auto|apply cont_const].
  - apply (cont_ext n (fun x => sum_over m (fun i => F i x) + F m x)).
    + intros x Lx. rewrite sum_over_S. auto.
    + apply cont_plus; auto.
Qed.
Lemma cont_dot : forall n m F G, vcont n m F -> vcont n m G -> cont n (fun x => dot (F x) (G x)).
Proof.
  intros n m F G [LF CF] [LG CG]. apply (cont_ext n (fun x => sum_over m (fun i => nth i (F x) 0 * nth i (G x) 0))); [intros x Lx; rewrite (dot_index m) by auto; auto|].
  apply (cont_sum n m (fun i x => nth i (F x) 0 * nth i (G x) 0)). intros i Hi. apply cont_mult; auto.
Qed.
Lemma vcont_const : forall n (a : vec), vcont n (length a) (fun _ => a).
Proof. intros n a. split; auto. intros i Hi. apply cont_const. Qed.
Lemma vcont_first : forall r c, vcont (r + c) r (firstn r).
Proof.
  intros r c. split; [intros x Lx; rewrite firstn_length; lia|]. intros i Hi. apply (cont_ext _ (fun x => nth i x 0)); [|apply cont_coord; lia].
  intros x Lx. rewrite <- (firstn_skipn r x) at 1. rewrite app_nth1; auto. rewrite firstn_length. lia.
Qed.
Lemma vcont_skip : forall r c, vcont (r + c) c (skipn r).
Proof.
  intros r c. split; [intros x Lx; rewrite skipn_length; lia|]. intros i Hi. apply (cont_ext _ (fun x => nth (r + i) x 0)); [|apply cont_coord; lia].
  intros x Lx. rewrite <- (firstn_skipn r x) at 1. rewrite app_nth2; rewrite firstn_length; [f_equal; lia|lia].
Qed.
Lemma vcont_mat : forall n c D F, Forall (fun row => length row = c) D -> vcont n c F -> vcont n (length D) (fun x => mat_vec D (F x)).
Proof.
  intros n c D F HD CF. split; [intros; apply map_length|]. intros i Hi. apply (cont_ext n (fun x => dot (nth i D []) (F x))).
  - intros x Lx. unfold mat_vec. rewrite (nth_indep _ 0 ((fun r => dot r (F x)) [])) by (rewrite map_length; auto). rewrite (map_nth (fun r => dot r (F x))). auto.
  - assert (L : length (nth i D []) = c) by (apply (proj1 (Forall_forall _ _) HD), nth_In; auto). apply (cont_dot n c); auto. rewrite <- L. apply vcont_const.
Qed.
(** closed conditions *)
Lemma closed_le : forall n f b, cont n f -> forall x, length x = n -> ~ f x <= b -> exists d, 0 < d /\ forall y, close d x y -> ~ f y <= b.
Proof. intros n f b C x Lx H. destruct (C x Lx (f x - b) ltac:(lra)) as (d & Hd & K). exists d. split; auto. intros y Cy. specialize (K y Cy). apply Rabs_def2 in K. lra. Qed.
Lemma closed_eq : forall n f b, cont n f -> forall x, length x = n -> f x <> b -> exists d, 0 < d /\ forall y, close d x y -> f y <> b.
Proof.
  intros n f b C x Lx H. assert (P : 0 < Rabs (f x - b)) by (apply Rabs_pos_lt; lra). destruct (C x Lx _ P) as (d & Hd & K). exists d. split; auto. intros y Cy E. specialize (K y Cy). rewrite E, Rabs_minus_sym in K. lra.
Qed.

(** ** Orthonormal families *)
Lemma sqn_index : forall n (x : vec), length x = n -> sqn x = sum_over n (fun i => nth i x 0 * nth i x 0).
Proof. intros. unfold sqn. apply dot_index; auto. Qed.
Section Family.
Variables (n : nat) (B : list vec).
Hypothesis O : orthonormal n B.
Lemma onto_sqn : forall x, length x = n -> sqn (mat_vec B x) + sqn (vsub x (onto_rows B x)) = sqn x.
Proof.
  intros x Lx. assert (Lo := onto_length n B O x Lx). assert (T := orth n B O _ _ (onto_in n B O x Lx) (residual_off n B O x Lx)). rewrite dot_sub_r in T by congruence.
  assert (E : dot x (onto_rows B x) = sqn (mat_vec B x)). { unfold onto_rows. rewrite Lx. rewrite <- mat_adjoint by (auto; try apply (rows_length n B O); unfold mat_vec; apply map_length). auto. }
  rewrite sqn_sub by congruence. rewrite dot_comm in E. unfold sqn in *. rewrite (dot_comm x (onto_rows B x)). lra.
Qed.
Lemma bessel : forall x, length x = n -> sqn (mat_vec B x) <= sqn x.
Proof. intros x Lx. pose proof (onto_sqn x Lx). pose proof (sqn_nonneg (vsub x (onto_rows B x))). lra. Qed.
Lemma unit_sqn : forall i, (i < n)%nat -> sqn (unit_vec n i) = 1.
Proof.
  intros i Hi. unfold sqn. rewrite dot_unit by (auto; apply unit_vec_length). unfold unit_vec. rewrite (nth_indep _ 0 ((fun k => if Nat.eqb k i then 1 else 0) 0%nat)) by (rewrite map_length, seq_length; auto).
  rewrite (map_nth (fun k => if Nat.eqb k i then 1 else 0)), seq_nth by auto. cbn. rewrite Nat.eqb_refl. auto.
Qed.
Lemma family_count : sum_over n (fun i => sqn (mat_vec B (unit_vec n i))) = INR (length B).
Proof.
  rewrite (sum_over_ext _ _ (fun i => sum_over (length B) (fun l => nth i (row B l) 0 * nth i (row B l) 0))).
  - rewrite sum_over_swap. rewrite (sum_over_ext _ _ (fun _ => 1)); [|intros l Hl; rewrite <- sqn_index by (apply O; auto); unfold sqn; rewrite (proj2 O l l Hl Hl); destruct (Nat.eq_dec l l); congruence].
    generalize (length B) as m. induction m as [|m IH]; [reflexivity|]. rewrite sum_over_S, IH, S_INR. ring.
  - intros i Hi. rewrite (sqn_index (length B)) by apply map_length. apply sum_over_ext. intros l Hl. rewrite nth_mat_vec by auto. rewrite dot_unit by (auto; apply O; auto). auto.
Qed.
Lemma family_le : (length B <= n)%nat.
Proof.
  apply INR_le. rewrite <- family_count. apply Rle_trans with (sum_over n (fun _ => 1)).
  - apply sum_over_le. intros i Hi. rewrite <- (unit_sqn i Hi). apply bessel, unit_vec_length.
  - right. generalize n as m. induction m as [|m IH]; [reflexivity|]. rewrite sum_over_S, IH, S_INR. ring.
Qed.
(** there is room for one more *)
Lemma room : (length B < n)%nat -> exists u, off_rows n B u /\ norm u = 1.
Proof.
  intros H. assert (exists i, (i < n)%nat /\ sqn (vsub (unit_vec n i) (onto_rows B (unit_vec n i))) <> 0) as (i & Hi & N).
  { apply NNPP. intros N. assert (E : sum_over n (fun i => sqn (mat_vec B (unit_vec n i))) = sum_over n (fun _ => 1)).
    { apply sum_over_ext. intros i Hi. rewrite <- (unit_sqn i Hi), <- (onto_sqn (unit_vec n i)) by apply unit_vec_length.
      destruct (Req_EM_T (sqn (vsub (unit_vec n i) (onto_rows B (unit_vec n i)))) 0) as [Z|Z]; [rewrite Z; ring|]. elim N. exists i. auto. }
    rewrite family_count in E. assert (E2 : sum_over n (fun _ => 1) = INR n) by (generalize n as m; induction m as [|m IH]; [reflexivity|]; rewrite sum_over_S, IH, S_INR; ring).
    rewrite E2 in E. apply INR_eq in E. lia. }
  set (w := vsub (unit_vec n i) (onto_rows B (unit_vec n i))) in *. assert (Ow : off_rows n B w) by (apply (residual_off n B O), unit_vec_length).
  assert (Pw : 0 < norm w). { unfold norm. apply sqrt_lt_R0. pose proof (sqn_nonneg w). lra. }
  exists (vscal (/ norm w) w). split.
  - destruct Ow as [Lw Hw]. split; [rewrite vscal_length; auto|]. intros l Hl. rewrite dot_scal_r, Hw by auto. ring.
  - rewrite norm_scal, Rabs_inv, Rabs_right by lra. field. lra.
Qed.
Lemma family_add : forall u, off_rows n B u -> norm u = 1 -> orthonormal n (B ++ [u]).
Proof.
  intros u [Lu Hu] Nu. assert (Ro : forall i, row (B ++ [u]) i = if Nat.ltb i (length B) then row B i else if Nat.eqb i (length B) then u else []).
  { intros i. unfold row. destruct (Nat.ltb_spec i (length B)); [apply app_nth1; auto|]. rewrite app_nth2 by auto. destruct (Nat.eqb_spec i (length B)) as [->|]; [rewrite Nat.sub_diag; auto|]. destruct (i - length B)%nat as [|[|k]] eqn:E; auto; lia. }
  assert (S1 : dot u u = 1) by (fold (sqn u); rewrite <- norm_sq, Nu; ring).
  split; intros i; rewrite app_length; cbn [length].
  - intros Hi. rewrite Ro. destruct (Nat.ltb_spec i (length B)); [apply O; auto|]. destruct (Nat.eqb_spec i (length B)); [auto|lia].
  - intros j Hi Hj. rewrite !Ro. destruct (Nat.ltb_spec i (length B)), (Nat.ltb_spec j (length B)); [apply O; auto| | |].
    + destruct (Nat.eqb_spec j (length B)); [|lia]. rewrite Hu by auto. destruct (Nat.eq_dec i j); [lia|auto].
    + destruct (Nat.eqb_spec i (length B)); [|lia]. rewrite dot_comm, Hu by auto. destruct (Nat.eq_dec i j); [lia|auto].
    + destruct (Nat.eqb_spec i (length B)), (Nat.eqb_spec j (length B)); try lia. destruct (Nat.eq_dec i j); [auto|lia].
Qed.
End Family.
(** a full family spans *)
Lemma family_full : forall n B, orthonormal n B -> length B = n -> forall x, off_rows n B x -> x = zeros n.
Proof.
  intros n B O L x Ox. apply NNPP. intros N. assert (Lx := proj1 Ox). assert (P : 0 < norm x).
  { pose proof (norm_nonneg x). destruct (Req_EM_T (norm x) 0) as [Z|Z]; [|lra]. apply norm_eq_zero in Z. rewrite Lx in Z. contradiction. }
  assert (Ox' : off_rows n B (vscal (/ norm x) x)) by (destruct Ox as [_ H]; split; [rewrite vscal_length; auto|]; intros l Hl; rewrite dot_scal_r, H by auto; ring).
  assert (N1 : norm (vscal (/ norm x) x) = 1) by (rewrite norm_scal, Rabs_inv, Rabs_right by lra; field; lra).
  pose proof (family_le _ _ (family_add n B O _ Ox' N1)) as H. rewrite app_length in H. cbn in H. lia.
Qed.

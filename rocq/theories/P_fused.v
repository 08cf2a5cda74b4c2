(** Proofs about difference operators. *)
From Coq Require Import Reals List Lra Lia Psatz Arith Permutation.
From Verif Require Import Vec Spec SpecIso M_affine SpecAffine M_slope M_fused SpecFused P_quad P_affine P_affine2 P_slope.
Import ListNotations.
Local Open Scope R_scope.

(** ** Matrix products *)
Lemma mat_mul_vec : forall A B p x, Forall (fun r => length r = p) B -> Forall (fun r => length r = length B) A -> length x = p ->
  mat_vec (mat_mul A B p) x = mat_vec A (mat_vec B x).
Proof.
  intros A B p x HB HA Lx. unfold mat_vec at 1 2, mat_mul. rewrite map_map. apply map_ext_in. intros r Hr. rewrite Forall_forall in HA.
  rewrite dot_comm, <- mat_adjoint by auto. apply dot_comm.
Qed.
Lemma mat_mul_cols : forall A B p, Forall (fun r => length r = p) B -> Forall (fun r => length r = p) (mat_mul A B p).
Proof. intros A B p HB. apply Forall_forall. intros r Hr. apply in_map_iff in Hr. destruct Hr as (a & <- & _). apply mat_tvec_length. auto. Qed.
Lemma diff_step_rows : forall X j, length (diff_step X j) = (length X - j)%nat /\ Forall (fun r => length r = (length X - j + 1)%nat) (diff_step X j).
Proof.
  intros. unfold diff_step. rewrite map_length, seq_length. split; auto. apply Forall_forall. intros r Hr. apply in_map_iff in Hr. destruct Hr as (i & <- & _). rewrite vscal_length, vsub_length; rewrite !unit_vec_length; auto.
Qed.
Lemma diff_matrix_shape : forall X k, (k <= length X)%nat -> length (diff_matrix X k) = (length X - k)%nat /\ Forall (fun r => length r = length X) (diff_matrix X k).
Proof.
  intros X. induction k as [|k IH]; intros Hk; cbn [diff_matrix].
  - rewrite map_length, seq_length. split; [lia|]. apply Forall_forall. intros r Hr. apply in_map_iff in Hr. destruct Hr as (i & <- & _). apply unit_vec_length.
  - destruct (IH ltac:(lia)) as [L1 L2]. split; [unfold mat_mul; rewrite map_length; apply diff_step_rows|apply mat_mul_cols; auto].
Qed.
Lemma mat_vec_length : forall D x, length (mat_vec D x) = length D. Proof. intros. apply map_length. Qed.
Lemma identity_rows : forall (x : vec), mat_vec (map (unit_vec (length x)) (seq 0 (length x))) x = x.
Proof.
  intros x. apply (nth_ext _ _ 0 0); [rewrite mat_vec_length, map_length, seq_length; auto|]. intros i Hi. rewrite mat_vec_length, map_length, seq_length in Hi.
  unfold mat_vec. rewrite map_map. rewrite (nth_indep _ 0 (dot (unit_vec (length x) 0%nat) x)) by (rewrite map_length, seq_length; auto). rewrite (map_nth (fun j => dot (unit_vec (length x) j) x)), seq_nth by auto. rewrite dot_comm. apply dot_unit; auto.
Qed.
Lemma diff_step_nth : forall X j (y : vec) i, length y = (length X - j + 1)%nat -> (i < length X - j)%nat ->
  nth i (mat_vec (diff_step X j) y) 0 = inv_step (nth (i + j) X 0 - nth i X 0) * (nth (S i) y 0 - nth i y 0).
Proof.
  intros X j y i Ly Hi. unfold mat_vec, diff_step. rewrite map_map. set (F := fun i => _). rewrite (nth_indep _ 0 (F 0%nat)) by (rewrite map_length, seq_length; auto). rewrite (map_nth F), seq_nth by auto. unfold F. cbn [Nat.add].
  rewrite dot_scal_l, dot_sub_l, !(dot_comm (unit_vec _ _)), !dot_unit; rewrite ?unit_vec_length; auto; lia.
Qed.
Lemma diff_matrix_nth : forall f X k i, NoDup X -> (i + k < length X)%nat -> nth i (mat_vec (diff_matrix X k) (map f X)) 0 = divided f X k i.
Proof.
  intros f X. induction k as [|k IH]; intros i Hd Hi; cbn [diff_matrix divided].
  - replace (length X) with (length (map f X)) by apply map_length. rewrite identity_rows. rewrite (nth_indep _ 0 (f 0)) by (rewrite map_length; lia). apply map_nth.
  - destruct (diff_matrix_shape X k ltac:(lia)) as [L1 L2]. destruct (diff_step_rows X (S k)) as [S1 S2].
    rewrite mat_mul_vec; auto; [| |apply map_length].
    2: { eapply Forall_impl; [|exact S2]. cbn beta. intros r Hr. etransitivity; [exact Hr|]. etransitivity; [|symmetry; exact L1]. lia. }
    rewrite diff_step_nth; [|rewrite mat_vec_length, L1; lia|lia]. rewrite !IH by (auto; lia).
    unfold inv_step. destruct (Req_EM_T _ 0) as [E|E]; [|unfold Rdiv; ring]. exfalso. apply Rminus_diag_uniq in E. apply (NoDup_nth X 0) in E; auto; lia.
Qed.

(** ** Complete homogeneous polynomials *)
Fixpoint hc (l : list R) : nat -> R :=
  match l with
  | [] => fun d => match d with O => 1 | S _ => 0 end
  | x :: l' => fix g d := match d with O => 1 | S d' => hc l' (S d') + x * g d' end
  end.
Lemma hc_0 : forall l, hc l 0 = 1. Proof. intros [|x l]; auto. Qed.
Lemma hc_S : forall x l d, hc (x :: l) (S d) = hc l (S d) + x * hc (x :: l) d. Proof. reflexivity. Qed.
Lemma hc_snoc : forall l y d, hc (l ++ [y]) (S d) = hc l (S d) + y * hc (l ++ [y]) d.
Proof.
  induction l as [|x l IH]; intros y d; [reflexivity|]. cbn [app]. induction d as [|d IHd].
  - rewrite !hc_S, !hc_0. rewrite IH, !hc_0. ring.
  - rewrite (hc_S x (l ++ [y]) (S d)), (hc_S x l (S d)), (IH y (S d)). pose proof (hc_S x (l ++ [y]) d) as E.
    replace (hc (x :: l) (S d)) with (hc (x :: l ++ [y]) (S d) - y * hc (x :: l ++ [y]) d) by lra. replace (hc (l ++ [y]) (S d)) with (hc (x :: l ++ [y]) (S d) - x * hc (x :: l ++ [y]) d) by lra. ring.
Qed.
Lemma hc_diff : forall x M y d, hc (M ++ [y]) (S d) - hc (x :: M) (S d) = (y - x) * hc (x :: M ++ [y]) d.
Proof.
  intros x M y d. pose proof (hc_S x (M ++ [y]) d) as E1. pose proof (hc_snoc (x :: M) y d) as E2. cbn [app] in E2. rewrite E1 in E2. lra.
Qed.
Lemma hc_single : forall x d, hc [x] d = x ^ d.
Proof. intros x. induction d as [|d IH]; auto. rewrite hc_S, IH. cbn. ring. Qed.
Definition seg (X : vec) (i k : nat) : list R := map (fun j => nth j X 0) (seq i k).
Lemma divided_monomial : forall m X k i, NoDup X -> (i + k < length X)%nat ->
  divided (fun x => x ^ m) X k i = if Nat.leb k m then hc (seg X i (S k)) (m - k) else 0.
Proof.
  intros m X. induction k as [|k IH]; intros i Hd Hi.
  - cbn [divided]. rewrite Nat.sub_0_r. unfold seg. cbn [seq map]. rewrite hc_single. auto.
  - cbn [divided]. rewrite !IH by (auto; lia). assert (Ne : nth (i + S k) X 0 - nth i X 0 <> 0) by (intros E; apply Rminus_diag_uniq in E; apply (NoDup_nth X 0) in E; auto; lia).
    assert (S1 : seg X (S i) (S k) = seg X (S i) k ++ [nth (i + S k) X 0]) by (unfold seg; rewrite seq_S, map_app; cbn [map]; replace (S i + k)%nat with (i + S k)%nat by lia; auto).
    assert (S2 : seg X i (S k) = nth i X 0 :: seg X (S i) k) by reflexivity.
    assert (S3 : seg X i (S (S k)) = nth i X 0 :: seg X (S i) k ++ [nth (i + S k) X 0]) by (rewrite <- S1; reflexivity).
    destruct (Nat.leb_spec k m) as [Hkm|Hkm]; destruct (Nat.leb_spec (S k) m) as [Hkm'|Hkm']; try lia.
    + replace (m - k)%nat with (S (m - S k)) by lia. rewrite S1, S2, S3, hc_diff. field. auto.
    + replace (m - k)%nat with 0%nat by lia. rewrite !hc_0. field. auto.
    + field. auto.
Qed.
Lemma divided_lin : forall a f g X k i, divided (fun x => a * f x + g x) X k i = a * divided f X k i + divided g X k i.
Proof. intros a f g X. induction k as [|k IH]; intros i; cbn [divided]; auto. rewrite !IH. unfold Rdiv. ring. Qed.
Lemma divided_zero : forall X k i, divided (fun _ => 0) X k i = 0.
Proof. intros X. induction k as [|k IH]; intros i; cbn [divided]; auto. rewrite !IH. unfold Rdiv. ring. Qed.
Lemma divided_poly_from : forall c m X k i, NoDup X -> (i + k < length X)%nat -> (m + length c <= S k)%nat ->
  divided (poly_from m c) X k i = if Nat.eqb (m + length c) (S k) then last c 0 else 0.
Proof.
  induction c as [|a c IH]; intros m X k i Hd Hi Hm; cbn [poly_from length] in *.
  - change (poly_from m []) with (fun _ : R => 0). rewrite divided_zero. cbn [last]. destruct (Nat.eqb _ _); auto.
  - change (poly_from m (a :: c)) with (fun x => a * x ^ m + poly_from (S m) c x). rewrite (divided_lin a (fun x => x ^ m)), divided_monomial by auto.
    destruct c as [|b c].
    + change (poly_from (S m) []) with (fun _ : R => 0). rewrite divided_zero. cbn [length last] in *. destruct (Nat.leb_spec k m), (Nat.eqb_spec (m + 1) (S k)); try lia; [|ring]. replace (m - k)%nat with 0%nat by lia. rewrite hc_0. ring.
    + rewrite IH by (auto; cbn in *; lia). cbn [length] in *. destruct (Nat.leb_spec k m); [lia|]. replace (m + S (S (length c)))%nat with (S m + S (length c))%nat by lia. change (last (a :: b :: c) 0) with (last (b :: c) 0). destruct (Nat.eqb _ _); ring.
Qed.

(** ** The transform *)
Lemma difference_form : forall (X : vec) order sorted T, difference_transform X order sorted = Ok T ->
  let Y := if sorted then X else np_sort X in (order <= length Y)%nat /\ T = matrix (diff_matrix Y order) (length Y) None.
Proof. intros X order sorted T E. cbv zeta. unfold difference_transform in E. cbv zeta in E. destruct (Nat.leb _ _) eqn:El; [|discriminate]. apply Ok_inj in E. apply Nat.leb_le in El. auto. Qed.
Theorem difference_built : forall (X : vec) order sorted T, difference_transform X order sorted = Ok T -> built T.
Proof. intros X order sorted T E. apply difference_form in E. cbv zeta in E. destruct E as [H ->]. apply b_matrix; [apply diff_matrix_shape; auto|discriminate]. Qed.
Theorem difference_values : forall f (X : vec) order sorted, NoDup X -> (order <= length X)%nat ->
  exists T, difference_transform X order sorted = Ok T /\ let Y := if sorted then X else np_sort X in
    t_in T = length X /\ t_out T = (length X - order)%nat /\
    t_lin T (map f Y) = map (divided f Y order) (seq 0 (length X - order)).
Proof.
  intros f X order sorted Hd Ho. set (Y := if sorted then X else np_sort X). assert (LY : length Y = length X) by (unfold Y; destruct sorted; auto; apply np_sort_length).
  assert (DY : NoDup Y) by (unfold Y; destruct sorted; auto; eapply Permutation_NoDup; [apply np_sort_perm|auto]).
  exists (matrix (diff_matrix Y order) (length Y) None). unfold difference_transform. cbv zeta. assert (El : Nat.leb order (length Y) = true) by (apply Nat.leb_le; lia). unfold Y in El at 1. rewrite El. split; auto. cbv zeta. tc.
  destruct (diff_matrix_shape Y order ltac:(lia)) as [L1 L2]. split; auto. split; [lia|].
  apply (nth_ext _ _ 0 0); [rewrite mat_vec_length, map_length, seq_length; lia|]. intros i Hi. rewrite mat_vec_length in Hi. rewrite diff_matrix_nth by (auto; lia).
  rewrite (nth_indep _ 0 (divided f Y order 0%nat)) by (rewrite map_length, seq_length; lia). rewrite map_nth, seq_nth by lia. auto.
Qed.
Lemma map_const_seq : forall (f : nat -> R) c s n, (forall i, (s <= i < s + n)%nat -> f i = c) -> map f (seq s n) = const_vec n c.
Proof. intros f c s n. revert s. induction n as [|n IH]; intros s H; auto. cbn [seq map]. rewrite H by lia. rewrite IH by (intros; apply H; lia). reflexivity. Qed.
Theorem difference_polynomial : forall c (X : vec) order sorted, NoDup X -> (order <= length X)%nat -> (length c <= S order)%nat ->
  exists T, difference_transform X order sorted = Ok T /\
    t_lin T (map (poly c) (if sorted then X else np_sort X)) = const_vec (length X - order) (if Nat.eqb (length c) (S order) then last c 0 else 0).
Proof.
  intros c X order sorted Hd Ho Hc. destruct (difference_values (poly c) X order sorted Hd Ho) as (T & E & H). cbv zeta in H. destruct H as (_ & _ & H). exists T. split; auto. etransitivity; [exact H|]. set (Y := if sorted then X else np_sort X).
  assert (LY : length Y = length X) by (unfold Y; destruct sorted; auto; apply np_sort_length). assert (DY : NoDup Y) by (unfold Y; destruct sorted; auto; eapply Permutation_NoDup; [apply np_sort_perm|auto]).
  apply map_const_seq. intros i Hi. unfold poly. rewrite divided_poly_from by (auto; cbn; lia). auto.
Qed.
Theorem difference_too_high : forall (X : vec) order sorted, (length X < order)%nat -> difference_transform X order sorted = Err ValueError.
Proof. intros X order sorted H. unfold difference_transform. cbv zeta. destruct (Nat.leb _ _) eqn:El; auto. apply Nat.leb_le in El. exfalso. pose proof (np_sort_length X). destruct sorted; unfold vec in *; lia. Qed.

(** ** The inverse *)
Fixpoint suf (w : vec) : vec := match w with [] => [] | a :: w' => vsum w :: suf w' end.
Lemma cumsum_snoc : forall l s a, cumsum_from s (l ++ [a]) = cumsum_from s l ++ [s + vsum l + a].
Proof. induction l as [|b l IH]; intros s a; cbn [app cumsum_from]; [cbn; f_equal; ring|]. rewrite IH. cbn [app]. rewrite vsum_cons. do 3 f_equal. ring. Qed.
Lemma vsum_rev : forall x, vsum (rev x) = vsum x. Proof. intros. symmetry. apply vsum_perm. apply Permutation_rev. Qed.
Lemma rev_cumsum_rev : forall w, rev (cumsum (rev w)) = suf w.
Proof. induction w as [|a w IH]; auto. cbn [rev suf]. unfold cumsum in *. rewrite cumsum_snoc, rev_app_distr. cbn [rev app]. rewrite IH, vsum_rev, vsum_cons. f_equal. ring. Qed.
Lemma suf_length : forall w, length (suf w) = length w. Proof. induction w; cbn; auto. Qed.
Lemma dot_cumsum : forall z w s, length z = length w -> dot (cumsum_from s z) w = s * vsum w + dot z (suf w).
Proof. induction z as [|a z IH]; intros [|b w] s L; try discriminate; cbn [cumsum_from suf]; [cbn; unfold dot; cbn; ring|]. rewrite !dot_cons, IH by (cbn in L; lia). rewrite !vsum_cons. ring. Qed.
Lemma tfi_linear_length : forall s x, length x = length s -> length (tfi_linear s x) = S (length s).
Proof. intros s x L. unfold tfi_linear. rewrite center_length. cbn [length]. rewrite cumsum_length. vlen. Qed.
Lemma tfi_adjoint_length : forall s u, length u = S (length s) -> length (tfi_adjoint s u) = length s.
Proof. intros s u L. unfold tfi_adjoint. rewrite rev_cumsum_rev. rewrite vmul_length; rewrite suf_length; [|]; pose proof (center_length u) as C; destruct (center u); cbn in *; lia. Qed.
Lemma dot_center_sym : forall x u, length x = length u -> dot (center x) u = dot x (center u).
Proof. intros x u L. rewrite dot_center by auto. rewrite (dot_comm x (center u)), dot_center by auto. rewrite (dot_comm u x), L. unfold Rdiv. ring. Qed.
Lemma tfi_adjoint_spec : forall s x u, length x = length s -> length u = S (length s) -> dot (tfi_linear s x) u = dot x (tfi_adjoint s u).
Proof.
  intros s x u Lx Lu. unfold tfi_linear, tfi_adjoint. assert (Lc : length (cumsum (vmul x s)) = length s) by (rewrite cumsum_length; vlen).
  rewrite dot_center_sym by (cbn [length]; lia). rewrite rev_cumsum_rev. pose proof (center_length u) as C. destruct (center u) as [|a w]; [cbn in C; lia|]. cbn [tl]. cbn [length] in C. rewrite dot_cons. unfold cumsum. rewrite dot_cumsum by vlen.
  rewrite (dot_comm x (vmul _ _)), (dot_comm _ x). rewrite (dot_comm (vmul x s)). clear Lc.
  assert (G : forall w x s : vec, dot w (vmul x s) = dot x (vmul w s)). { clear. induction w as [|a w IH]; intros [|b x] [|c s]; rewrite ?dot_nil_l, ?dot_nil_r; auto. change (vmul (b :: x) (c :: s)) with (b * c :: vmul x s). change (vmul (a :: w) (c :: s)) with (a * c :: vmul w s). rewrite !dot_cons, IH. ring. }
  rewrite G. ring.
Qed.
Lemma nth_center : forall x i, (i < length x)%nat -> nth i (center x) 0 = nth i x 0 - vsum x / INR (length x).
Proof. intros x i H. unfold center. set (F := fun a => a - _). rewrite (nth_indep _ 0 (F 0)) by (rewrite map_length; auto). rewrite map_nth. auto. Qed.
Lemma cumsum_step : forall z s i, (i < length z)%nat -> nth (S i) (s :: cumsum_from s z) 0 - nth i (s :: cumsum_from s z) 0 = nth i z 0.
Proof. induction z as [|a z IH]; intros s i H; [cbn in H; lia|]. destruct i as [|i]; cbn [cumsum_from nth]; [ring|]. specialize (IH (s + a) i ltac:(cbn in H; lia)). cbn [nth] in IH. exact IH. Qed.
Lemma increasing_steps : forall X i, increasing X -> (S i < length X)%nat -> nth i X 0 < nth (S i) X 0.
Proof. induction X as [|a X IH]; intros i H Hi; [cbn in Hi; lia|]. destruct X as [|b X]; [cbn in Hi; lia|]. destruct H as [H1 H2]. destruct i as [|i]; [exact H1|]. apply (IH i H2). cbn in *. lia. Qed.
Lemma increasing_nondecreasing : forall X, increasing X -> nondecreasing X.
Proof. induction X as [|a [|b X] IH]; intros H; try exact I. destruct H as [H1 H2]. split; [lra|apply IH; auto]. Qed.
Lemma removelast_length : forall (X : vec), length (removelast X) = (length X - 1)%nat.
Proof. induction X as [|a [|b X] IH]; auto. change (removelast (a :: b :: X)) with (a :: removelast (b :: X)). cbn [length] in *. rewrite IH. lia. Qed.
Lemma nth_removelast : forall (X : vec) i, (S i < length X)%nat -> nth i (removelast X) 0 = nth i X 0.
Proof. induction X as [|a [|b X] IH]; intros i H; cbn in H; try lia. change (removelast (a :: b :: X)) with (a :: removelast (b :: X)). destruct i as [|i]; auto. cbn [nth]. apply IH. cbn. lia. Qed.
Lemma steps_length : forall X, length (steps_of X) = (length X - 1)%nat.
Proof. intros X. unfold steps_of. rewrite vsub_length; destruct X; cbn [tl length]; rewrite ?removelast_length; cbn; lia. Qed.
Lemma nth_steps : forall X i, (S i < length X)%nat -> nth i (steps_of X) 0 = nth (S i) X 0 - nth i X 0.
Proof.
  intros X i H. unfold steps_of, vsub. assert (LT : length (tl X) = (length X - 1)%nat) by (destruct X; cbn; lia). rewrite (Vec.nth_vzip Rminus _ _ i 0 0 0); [|lia|rewrite removelast_length; lia]. rewrite nth_removelast by auto. destruct X as [|a X]; [cbn in H; lia|]. reflexivity.
Qed.
Lemma increasing_all : forall X i j, increasing X -> (i < j < length X)%nat -> nth i X 0 < nth j X 0.
Proof. intros X i j H [Hij Hj]. induction j as [|j IH]; [lia|]. pose proof (increasing_steps X j H Hj). destruct (Nat.eq_dec i j) as [->|]; auto. specialize (IH ltac:(lia) ltac:(lia)). lra. Qed.
Lemma increasing_NoDup : forall X, increasing X -> NoDup X.
Proof.
  intros X H. apply (NoDup_nth X 0). intros i j Hi Hj E. destruct (Nat.lt_trichotomy i j) as [L|[L|L]]; auto; exfalso; [pose proof (increasing_all X i j H ltac:(lia))|pose proof (increasing_all X j i H ltac:(lia))]; lra.
Qed.
Theorem inverse_spec : forall X, increasing X -> (1 <= length X)%nat -> exists D V, trend_filter X 1 = Ok D /\ trend_filter_inverse X 1 = Ok V /\
  true_adjoint V /\ t_in V = t_out D /\ t_out V = t_in D /\
  (forall x, length x = t_in V -> t_lin D (t_lin V x) = x /\ mean (t_lin V x) = 0) /\
  (forall v, length v = t_in D -> t_lin V (t_lin D v) = map (fun a => a - mean v) v).
Proof.
  intros X H Hn. assert (Hd := increasing_NoDup X H). assert (ES : np_sort X = X) by (apply np_sort_unique; [apply increasing_nondecreasing; auto|auto]).
  unfold trend_filter, trend_filter_inverse, difference_transform. destruct (Nat.leb_spec 1 (length X)); [|lia]. cbn [rbind Nat.eqb negb]. eexists. eexists. split; [reflexivity|]. split; [reflexivity|]. rewrite ES. set (s := steps_of X). assert (Ls : length s = (length X - 1)%nat) by apply steps_length.
  destruct (diff_matrix_shape X 1 Hn) as [L1 L2]. destruct (diff_step_rows X 1) as [S1 S2]. unfold matrix. cbn [t_lin t_adj t_in t_out]. rewrite L1.
  assert (Dx : forall v : vec, length v = length X -> mat_vec (diff_matrix X 1) v = mat_vec (diff_step X 1) v).
  { intros v Lv. cbn [diff_matrix]. rewrite mat_mul_vec; auto. - f_equal. rewrite <- Lv. apply identity_rows. - apply Forall_forall. intros r Hr. apply in_map_iff in Hr. destruct Hr as (i & <- & _). apply unit_vec_length. - eapply Forall_impl; [|exact S2]. cbn beta. intros r Hr. rewrite map_length, seq_length. rewrite Hr. lia. }
  assert (Dn : forall v i, length v = length X -> (S i < length X)%nat -> nth i (mat_vec (diff_step X 1) v) 0 = (nth (S i) v 0 - nth i v 0) / (nth (S i) X 0 - nth i X 0)).
  { intros v i Lv Hi. rewrite diff_step_nth by lia. pose proof (increasing_steps X i H Hi). replace (i + 1)%nat with (S i) by lia. unfold inv_step. destruct (Req_EM_T _ 0); [exfalso; lra|]. field. lra. }
  split; [|split; [|split; [|split]]]; auto.
  - split; [|split]; cbn [t_lin t_adj t_in t_out].
    + intros x Lx. rewrite tfi_linear_length; lia.
    + intros u Lu. rewrite tfi_adjoint_length; lia.
    + intros x u Lx Lu. apply tfi_adjoint_spec; lia.
  - intros x Lx. assert (Lt : length (tfi_linear s x) = length X) by (rewrite tfi_linear_length; lia). split.
    + rewrite Dx by auto. apply (nth_ext _ _ 0 0); [rewrite mat_vec_length; lia|]. intros i Hi. rewrite mat_vec_length, S1 in Hi. rewrite Dn by (auto; lia). unfold tfi_linear. assert (Lc : length (cumsum (vmul x s)) = length s) by (rewrite cumsum_length; vlen).
      rewrite !nth_center by (cbn [length]; lia). replace (nth (S i) (0 :: cumsum (vmul x s)) 0 - vsum (0 :: cumsum (vmul x s)) / INR (length (0 :: cumsum (vmul x s))) - (nth i (0 :: cumsum (vmul x s)) 0 - vsum (0 :: cumsum (vmul x s)) / INR (length (0 :: cumsum (vmul x s))))) with (nth (S i) (0 :: cumsum (vmul x s)) 0 - nth i (0 :: cumsum (vmul x s)) 0) by ring.
      unfold cumsum. rewrite cumsum_step by (rewrite vmul_length; lia). unfold vmul. rewrite (Vec.nth_vzip Rmult x s i 0 0 0) by lia. unfold s. rewrite nth_steps by lia. pose proof (increasing_steps X i H ltac:(lia)). field. lra.
    + unfold mean, tfi_linear. rewrite vsum_center by discriminate. unfold Rdiv. ring.
  - intros v Lv. rewrite Dx by auto. unfold tfi_linear. set (z := vmul (mat_vec (diff_step X 1) v) s). assert (Lz : length z = (length X - 1)%nat) by (unfold z; rewrite vmul_length; rewrite mat_vec_length; lia).
    assert (E : 0 :: cumsum z = map (fun a => a - nth 0 v 0) v).
    { apply (nth_ext _ _ 0 0); [cbn [length]; rewrite cumsum_length, map_length; lia|]. intros i Hi. cbn [length] in Hi. rewrite cumsum_length in Hi. set (F := fun a => a - nth 0 v 0). rewrite (nth_indep (map F v) 0 (F 0)) by (rewrite map_length; lia). rewrite map_nth. unfold F.
      induction i as [|i IHi]; [cbn [nth]; ring|]. pose proof (cumsum_step z 0 i ltac:(lia)) as C. fold (cumsum z) in C. rewrite IHi in C by lia.
      assert (Z : nth i z 0 = nth (S i) v 0 - nth i v 0). { unfold z, vmul. rewrite (Vec.nth_vzip Rmult _ s i 0 0 0) by (rewrite mat_vec_length; lia). rewrite Dn by (auto; lia). unfold s. rewrite nth_steps by lia. pose proof (increasing_steps X i H ltac:(lia)). field. lra. }
      rewrite Z in C. lra. }
    rewrite E. unfold center, mean. rewrite map_length, map_map. assert (V : vsum (map (fun a => a - nth 0 v 0) v) = vsum v - INR (length v) * nth 0 v 0).
    { replace (map (fun a => a - nth 0 v 0) v) with (map (fun a => a + - nth 0 v 0) v) by (apply map_ext; intros; ring). rewrite vsum_map_const. ring. }
    rewrite V. apply map_ext. intros a. field. apply not_0_INR. lia.
Qed.
Theorem inverse_order : forall X order, order <> 1%nat -> trend_filter_inverse X order = Err ValueError.
Proof. intros X order H. unfold trend_filter_inverse. destruct (Nat.eqb_spec order 1); [contradiction|]. auto. Qed.
Lemma np_sort_021 : np_sort [0; 2; 1] = [0; 1; 2].
Proof. apply np_sort_unique; [cbn; lra|]. constructor. apply perm_swap. Qed.
(** Unsorted knots: trend_filter differences the knots as given, the inverse uses the sorted ones. *)
Theorem inverse_unsorted : exists D V, trend_filter [0; 2; 1] 1 = Ok D /\ trend_filter_inverse [0; 2; 1] 1 = Ok V /\ t_lin D (t_lin V [0; 1]) = [0; - 1].
Proof.
  unfold trend_filter, trend_filter_inverse, difference_transform. cbn [length Nat.leb rbind Nat.eqb negb]. rewrite np_sort_021. eexists. eexists. split; [reflexivity|]. split; [reflexivity|].
  unfold matrix. cbn [t_lin]. set (v := tfi_linear (steps_of [0; 1; 2]) [0; 1]).
  assert (Ev : v = [- / 3; - / 3; 2 * / 3]). { unfold v, tfi_linear, center, steps_of, cumsum, vmul, vsub. cbn. f_equal; [field|]. f_equal; [field|]. f_equal. field. }
  destruct (diff_step_rows [0; 2; 1] 1) as [S1 S2]. cbn [diff_matrix]. rewrite mat_mul_vec; [| | |rewrite Ev; auto].
  - replace (mat_vec (map (unit_vec (length [0; 2; 1])) (seq 0 (length [0; 2; 1]))) v) with v by (rewrite Ev; symmetry; apply (identity_rows [- / 3; - / 3; 2 * / 3])).
    apply (nth_ext _ _ 0 0); [reflexivity|]. intros i Hi. rewrite mat_vec_length, S1 in Hi. cbn [length] in Hi. rewrite diff_step_nth by (rewrite ?Ev; cbn; lia). rewrite Ev. destruct i as [|[|i]]; [| |lia]; cbn [Nat.add nth]; unfold inv_step; destruct (Req_EM_T _ 0); try (exfalso; lra); field.
  - apply Forall_forall. intros r Hr. apply in_map_iff in Hr. destruct Hr as (i & <- & _). apply unit_vec_length.
  - exact S2.
Qed.
(** Two-dimensional arguments: adjoint_map is not the adjoint. *)
Theorem inverse_adjoint_2d : let s := steps_of [0; 1; 2] in
  dot (concat (tfi_linear2 s [[1; 0]])) [0; 0; 1] = / 3 /\ dot [1; 0] (concat (tfi_adjoint2 s [[0; 0; 1]])) = - / 3.
Proof. cbv zeta. unfold tfi_linear2, tfi_adjoint2, tfi_linear, center, steps_of, cumsum, dot, vsum, vmul, vsub. cbn. split; field. Qed.

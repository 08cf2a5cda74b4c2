(** Calculus of separable functions. *)
From Coq Require Import Reals List Lra Lia Arith.
From Verif Require Import Vec Spec SpecConvex SpecLoss P_quad P_calc.
Import ListNotations.
Local Open Scope R_scope.

Lemma sum_over_S : forall n F, sum_over (S n) F = sum_over n F + F n.
Proof. intros. unfold sum_over. rewrite seq_S, map_app, vsum_app. cbn. ring. Qed.
Lemma sum_over_ext : forall n F G, (forall i, (i < n)%nat -> F i = G i) -> sum_over n F = sum_over n G.
Proof. induction n as [|n IH]; intros F G H; auto. rewrite !sum_over_S, (IH F G), H; auto. Qed.
Lemma sum_over_plus : forall n F G, sum_over n (fun i => F i + G i) = sum_over n F + sum_over n G.
Proof. induction n as [|n IH]; intros; [unfold sum_over; cbn; ring|]. rewrite !sum_over_S, IH. ring. Qed.
Lemma sum_over_scal : forall n c F, sum_over n (fun i => c * F i) = c * sum_over n F.
Proof. induction n as [|n IH]; intros; [unfold sum_over; cbn; ring|]. rewrite !sum_over_S, IH. ring. Qed.
Lemma sum_over_le : forall n F G, (forall i, (i < n)%nat -> F i <= G i) -> sum_over n F <= sum_over n G.
Proof. induction n as [|n IH]; intros F G H; [unfold sum_over; cbn; lra|]. rewrite !sum_over_S. assert (A := IH F G ltac:(auto)). assert (B := H n ltac:(lia)). lra. Qed.
Lemma map_nth_seq : forall (x : vec), map (fun i => nth i x 0) (seq 0 (length x)) = x.
Proof.
  intros x. apply (nth_ext _ _ 0 0); [rewrite map_length, seq_length; auto|]. intros i Hi. rewrite map_length, seq_length in Hi.
  rewrite (nth_indep _ 0 (nth 0%nat x 0)) by (rewrite map_length, seq_length; auto). rewrite (map_nth (fun i => nth i x 0)), seq_nth by auto. auto.
Qed.
Lemma vsum_index : forall n (x : vec), length x = n -> vsum x = sum_over n (fun i => nth i x 0).
Proof. intros n x <-. unfold sum_over. rewrite map_nth_seq. auto. Qed.
Lemma nth_map0 : forall (f : R -> R) x i, (i < length x)%nat -> nth i (map f x) 0 = f (nth i x 0).
Proof. intros f x i H. rewrite (nth_indep _ 0 (f 0)) by (rewrite map_length; auto). apply map_nth. Qed.
Lemma vzip_length2 : forall f (x y : vec) n, length x = n -> length y = n -> length (vzip f x y) = n.
Proof. intros. rewrite vzip_length by congruence. auto. Qed.
Lemma nth_zip0 : forall f (x y : vec) n i, length x = n -> length y = n -> (i < n)%nat -> nth i (vzip f x y) 0 = f (nth i x 0) (nth i y 0).
Proof. intros. apply Vec.nth_vzip; congruence. Qed.
Lemma dot_index : forall n (x y : vec), length x = n -> length y = n -> dot x y = sum_over n (fun i => nth i x 0 * nth i y 0).
Proof. intros n x y Lx Ly. unfold dot, vmul. rewrite (vsum_index n) by (apply vzip_length2; auto). apply sum_over_ext. intros i Hi. apply (nth_zip0 _ _ _ n); auto. Qed.

Lemma derive_line : forall phi a d l, derivable_pt_lim phi a l -> derivable_pt_lim (fun t => phi (a + t * d)) 0 (l * d).
Proof.
  intros phi a d l H. apply (derivable_pt_lim_comp (fun t => a + t * d) phi 0 d l).
  - intros e He. exists (mkposreal e He). intros h Hh _. replace ((a + (0 + h) * d - (a + 0 * d)) / h - d) with 0 by (field; auto). rewrite Rabs_R0. auto.
  - replace (a + 0 * d) with a by ring. auto.
Qed.
Theorem sep_gradient : forall n (phi : nat -> R -> R) (g x : vec), length x = n -> length g = n ->
  (forall i, (i < n)%nat -> derivable_pt_lim (phi i) (nth i x 0) (nth i g 0)) -> is_gradient n (fun z => sum_over n (fun i => phi i (nth i z 0))) x g.
Proof.
  intros n phi g x Lx Lg H. split; auto. intros d Ld. rewrite (dot_index n) by auto.
  assert (E : forall m, (m <= n)%nat -> derivable_pt_lim (fun t => sum_over m (fun i => phi i (nth i (vadd x (vscal t d)) 0))) 0 (sum_over m (fun i => nth i g 0 * nth i d 0))); [|apply E; lia].
  induction m as [|m IH]; intros Hm.
  - apply (derive_ext (fun _ => 0)); [intros; reflexivity|]. apply derivable_pt_lim_const.
  - rewrite sum_over_S. apply (derive_ext (fun t => sum_over m (fun i => phi i (nth i (vadd x (vscal t d)) 0)) + phi m (nth m x 0 + t * nth m d 0))).
    + intros t. rewrite sum_over_S. f_equal. f_equal. unfold vadd. rewrite (nth_zip0 _ x (vscal t d) n) by (rewrite ?vscal_length; auto; lia). unfold vscal. rewrite nth_map0 by lia. auto.
    + apply derivable_pt_lim_plus; [apply IH; lia|]. apply derive_line. apply H. lia.
Qed.
Lemma gradient_ext : forall n f f' x g, (forall z, length z = n -> f z = f' z) -> length x = n -> is_gradient n f x g -> is_gradient n f' x g.
Proof. intros n f f' x g H Lx (L & G). split; auto. intros d Ld. apply (derive_ext (fun t => f (vadd x (vscal t d)))); auto. intros t. apply H. rewrite vadd_length; rewrite ?vscal_length; congruence. Qed.
(** One variable *)
Lemma derive_sandwich : forall F a l K, 0 <= K -> (forall b, Rabs (F b - F a - l * (b - a)) <= K * ((b - a) * (b - a))) -> derivable_pt_lim F a l.
Proof.
  intros F a l K HK H eps He. assert (Hd : 0 < eps / (K + 1)) by (apply Rdiv_lt_0_compat; lra). exists (mkposreal _ Hd). cbn. intros h Hh Hd'. specialize (H (a + h)). replace (a + h - a) with h in H by ring.
  assert (P : 0 < Rabs h) by (apply Rabs_pos_lt; auto). replace ((F (a + h) - F a) / h - l) with ((F (a + h) - F a - l * h) / h) by (field; auto). unfold Rdiv. rewrite Rabs_mult, Rabs_inv.
  apply Rle_lt_trans with (K * (h * h) * / Rabs h); [apply Rmult_le_compat_r; auto; left; apply Rinv_0_lt_compat; auto|].
  assert (Q : h * h = Rabs h * Rabs h). { rewrite <- Rabs_mult. symmetry. apply Rabs_pos_eq. nra. }
  rewrite Q. replace (K * (Rabs h * Rabs h) * / Rabs h) with (K * Rabs h) by (field; lra). apply Rle_lt_trans with (K * (eps / (K + 1))); [apply Rmult_le_compat_l; lra|].
  apply Rmult_lt_reg_r with (K + 1); [lra|]. replace (K * (eps / (K + 1)) * (K + 1)) with (K * eps) by (field; lra). nra.
Qed.
Lemma tangent_1d : forall phi g, (forall a, derivable_pt_lim phi a (g a)) -> (forall a b, a <= b -> g a <= g b) -> forall a b, phi a + g a * (b - a) <= phi b.
Proof.
  intros phi g D M a b. destruct (Rtotal_order a b) as [H|[->|H]]; [|lra|].
  - destruct (MVT_cor2 phi g a b H (fun c _ => D c)) as (c & E & Hc). assert (A := M a c ltac:(lra)). nra.
  - destruct (MVT_cor2 phi g b a H (fun c _ => D c)) as (c & E & Hc). assert (A := M c a ltac:(lra)). nra.
Qed.
(** Tangents everywhere give convexity. *)
Lemma tangent_convex : forall n f g, (forall x, length x = n -> length (g x) = n) -> (forall x y, length x = n -> length y = n -> f x + dot (g x) (vsub y x) <= f y) -> convex_on n f.
Proof.
  intros n f g Lg H x y t Lx Ly Ht. set (z := between x y t). assert (Lz : length z = n) by (apply between_length; auto).
  assert (A := H z x Lz Lx). assert (B := H z y Lz Ly). specialize (Lg z Lz).
  assert (E1 : vsub x z = vscal (- t) (vsub y x)). { unfold z, between. clear -Lx Ly. revert n y Lx Ly. induction x as [|a x IH]; intros n [|b y] Lx Ly; cbn in *; try congruence; auto. destruct n; [discriminate|]. unfold vsub, vadd, vscal in *. cbn. f_equal; [ring|]. apply (IH n); congruence. }
  assert (E2 : vsub y z = vscal (1 - t) (vsub y x)). { unfold z, between. clear -Lx Ly. revert n y Lx Ly. induction x as [|a x IH]; intros n [|b y] Lx Ly; cbn in *; try congruence; auto. destruct n; [discriminate|]. unfold vsub, vadd, vscal in *. cbn. f_equal; [ring|]. apply (IH n); congruence. }
  rewrite E1 in A. rewrite E2 in B. rewrite !dot_scal_r in *. nra.
Qed.

(** Exact rounds: fixed points and decrease of the distance to any solution. *)
From Coq Require Import Reals List Lra Lia Arith Bool.
From Verif Require Import M_affine SpecAffine P_affine M_loss SpecLoss M_smooth SpecSmooth P_smooth Vec Spec SpecConvex P_calc SpecFista SpecAdmm P_sep.
Import ListNotations.
Local Open Scope R_scope.

Ltac lc := unfold vec in *; first [congruence | lia].
Lemma len_sub : forall n (x y : vec), length x = n -> length y = n -> length (vsub x y) = n.
Proof. intros n x y A B. rewrite vsub_length; lc. Qed.
Lemma len_add : forall n (x y : vec), length x = n -> length y = n -> length (vadd x y) = n.
Proof. intros n x y A B. rewrite vadd_length; lc. Qed.
Lemma len_scal : forall n a (x : vec), length x = n -> length (vscal a x) = n.
Proof. intros n a x A. rewrite vscal_length; lc. Qed.
Lemma len_opp : forall n (x : vec), length x = n -> length (vopp x) = n.
Proof. intros n x A. rewrite vopp_length; lc. Qed.
Lemma len_between : forall n x y t, length x = n -> length y = n -> length (between x y t) = n.
Proof. intros. apply between_length; auto. Qed.
Lemma len_zeros : forall n, length (zeros n) = n.
Proof. apply zeros_length. Qed.
Create HintDb vl.
#[export] Hint Resolve len_sub len_add len_scal len_opp len_between len_zeros : vl.
(** lengths, all equal to m *)
Ltac vl m := match goal with |- @length _ ?a = @length _ ?b => transitivity m; [auto 8 with vl|symmetry; auto 8 with vl] | |- _ => auto 8 with vl end.
Lemma slope_nonneg : forall A B, 0 <= B -> (forall t, 0 < t <= 1 -> 0 <= t * A + t * t * B) -> 0 <= A.
Proof.
  intros A B HB Q. destruct (Rle_dec 0 A) as [H|H]; [auto|]. exfalso.
  set (t := Rmin 1 (- A / (2 * (B + 1)))). assert (P : 0 < - A / (2 * (B + 1))) by (apply Rdiv_lt_0_compat; lra).
  assert (T : 0 < t <= 1) by (unfold t; split; [apply Rmin_pos; lra|apply Rmin_l]). specialize (Q t T).
  assert (T2 : t <= - A / (2 * (B + 1))) by apply Rmin_r.
  assert (T3 : t * (2 * (B + 1)) <= - A). { apply Rmult_le_compat_r with (r := 2 * (B + 1)) in T2; [|lra]. unfold Rdiv in T2. rewrite Rmult_assoc, Rinv_l in T2 by lra. lra. }
  assert (t * (A + t * B) < 0); [|lra]. assert (A + t * B < 0) by nra. nra.
Qed.
Section Rounds.
Variables (n m : nat) (f : vec -> R) (h : vec -> ext) (T : transform) (rho : R).
Hypothesis CF : convex_on n f.
Hypothesis CH : convex_ext m h.
Hypothesis GD : good_design T n m.
Hypothesis HR : 0 < rho.

Lemma aff_len : forall x, length x = n -> length (t_aff T x) = m.
Proof. intros x L. apply (aff_length T n m); auto. Qed.
Lemma aff_between : forall x u t, length x = n -> length u = n -> t_aff T (between x u t) = between (t_aff T x) (t_aff T u) t.
Proof.
  intros x u t Lx Lu. unfold between. rewrite (aff_line T n m) by (auto with vl). f_equal. f_equal.
  assert (E : t_aff T (vadd x (vscal 1 (vsub u x))) = vadd (t_aff T x) (vscal 1 (t_lin T (vsub u x)))) by (apply (aff_line T n m); auto with vl).
  rewrite !vscal_1 in E. rewrite (vadd_comm x), vadd_vsub in E by lc. rewrite E. rewrite vadd_comm, vsub_vadd; auto.
  assert (La := aff_len x Lx). destruct GD as ((A & _) & _ & En & Em). rewrite A; [lc|]. rewrite En. auto with vl.
Qed.
(** first-order condition of the x update *)
Lemma x_first : forall x z y u, length z = m -> length y = m -> length u = n -> is_argmin n (fun u => lagrangian f (fun _ => Fin 0) T rho u z y) x ->
  f x <= f u + dot (vadd y (vscal rho (vsub (t_aff T x) z))) (vsub (t_aff T u) (t_aff T x)).
Proof.
  intros x z y u Lz Ly Lu (Lx & (r & Er) & M). unfold lagrangian in *. clear Er r.
  assert (La := aff_len x Lx). assert (Lb := aff_len u Lu).
  assert (Q : 0 <= f u - f x + dot (vadd y (vscal rho (vsub (t_aff T x) z))) (vsub (t_aff T u) (t_aff T x))); [|lra].
  apply slope_nonneg with (B := rho / 2 * sqn (vsub (t_aff T u) (t_aff T x))); [apply Rmult_le_pos; [lra|apply sqn_nonneg]|]. intros t Ht.
  specialize (M (between x u t) (between_length n x u t Lx Lu)). cbn [ext_add ext_le] in M. rewrite aff_between in M by auto. revert M La Lb. generalize (t_aff T x), (t_aff T u). intros a b M La Lb.
  specialize (CF x u t Lx Lu ltac:(lra)). rewrite sqn_between_diff in M by lc. rewrite !dot_sub_r in M by vl m. rewrite dot_between in M by vl m.
  rewrite dot_add_l by vl m. rewrite dot_scal_l. rewrite !dot_sub_r by vl m. rewrite ?dot_sub_r in M by vl m. nra.
Qed.
Lemma z_first : forall x z y w hz hw, length x = n -> length y = m -> length w = m -> is_argmin m (fun w => lagrangian f h T rho x w y) z -> h z = Fin hz -> h w = Fin hw ->
  hz <= hw - dot (vadd y (vscal rho (vsub (t_aff T x) z))) (vsub w z).
Proof.
  intros x z y w hz hw Lx Ly Lw M Ez Ew. assert (La := aff_len x Lx). set (a := t_aff T x) in *.
  assert (M' : is_argmin m (fun z => ext_add (h z) (Fin (rho / 2 * sqn (vsub z a) + dot (vopp y) z))) z).
  { assert (R : forall v, length v = m -> lagrangian f h T rho x v y = ext_add (ext_add (h v) (Fin (rho / 2 * sqn (vsub v a) + dot (vopp y) v))) (Fin (f x + dot y a))).
    { intros v Lv. unfold lagrangian. fold a. destruct (h v); cbn; auto. f_equal. rewrite dot_sub_r, dot_opp_l, (sqn_vsub_sym a v) by vl m. ring. }
    destruct M as (A & (r & Er) & B). split; auto. rewrite R in Er by auto. split; [destruct (h z); [cbn; eauto|discriminate]|]. intros v Lv. specialize (B v Lv). rewrite !R in B by auto. cbv beta. destruct (h z), (h v); cbn in *; auto; lra. }
  assert (Lz : length z = m) by apply M. assert (P := prox_variational m h rho a (vopp y) z hz w hw CH HR La ltac:(auto with vl) Lw M' Ez Ew).
  rewrite !dot_opp_l in P. rewrite dot_add_l, dot_scal_l, !dot_sub_r by vl m. rewrite !dot_sub_l in * by vl m. lra.
Qed.
(** A round that changes nothing has found a minimizer. *)
Theorem round_fixed : forall x z y, length z = m -> length y = m -> admm_round n m f h T rho (x, z, y) (x, z, y) -> is_argmin n (split_objective f h T) x.
Proof.
  intros x z y Lz Ly (Mx & Mz & Ey). assert (Lx : length x = n) by apply Mx. assert (La := aff_len x Lx).
  assert (Ez : t_aff T x = z).
  { apply vsub_eq_zero; [lc|]. assert (S : sqn (vscal rho (vsub (t_aff T x) z)) = 0).
    { assert (E : vscal rho (vsub (t_aff T x) z) = vsub (vadd y (vscal rho (vsub (t_aff T x) z))) y) by (rewrite vadd_comm, vsub_vadd; [auto|vl m]). rewrite E, <- Ey, vsub_self. apply sqn_zeros. }
    rewrite sqn_scal in S. assert (0 <= sqn (vsub (t_aff T x) z)) by apply sqn_nonneg. assert (0 < rho * rho) by nra. nra. }
  assert (Mz' := Mz). destruct Mz as (A & (r & Er) & B). unfold lagrangian in Er. destruct (h z) as [hz|] eqn:Eh; [|discriminate]. clear Er r. split; [auto|]. unfold split_objective. split; [exists (f x + hz); rewrite Ez, Eh; auto|]. intros u Lu. rewrite Ez, Eh.
  destruct (h (t_aff T u)) as [hu|] eqn:Eu; [|cbn; auto]. cbn. assert (X := x_first x z y u Lz Ly Lu Mx). assert (Z := z_first x z y (t_aff T u) hz hu Lx Ly (aff_len u Lu) Mz' Eh Eu). rewrite Ez in X, Z. lra.
Qed.
Lemma saddle_minimizes : forall s, saddle n m f h T s -> is_argmin n (split_objective f h T) (fst (fst s)).
Proof.
  intros [[x z] y] (Ez & Ly & (Lx & _ & Mx) & (Lz & (r & Er) & Mz)). cbn [fst]. unfold split_objective. destruct (h z) as [hz|] eqn:Eh; [|discriminate]. split; [auto|]. split; [rewrite <- Ez, Eh; cbn; eauto|].
  intros u Lu. rewrite <- Ez, Eh. specialize (Mz (t_aff T u) (aff_len u Lu)). specialize (Mx u Lu). cbn beta in *. rewrite ?Eh in Mz. destruct (h (t_aff T u)) as [hu|]; cbn [ext_add ext_le] in *; auto.
  destruct GD as ((A1 & _) & (F1 & F2) & En & Em). rewrite Ez, (F2 x), (F2 u) in Mz by lc. rewrite !dot_add_r in Mz by (rewrite ?A1; lc). lra.
Qed.
(** Each round brings (z, y) closer to every solution. *)
Theorem round_closer : forall s x z y x' z' y', saddle n m f h T s -> length z = m -> length y = m -> admm_round n m f h T rho (x, z, y) (x', z', y') ->
  length z' = m /\ length y' = m /\ distance rho s (x', z', y') + rho * sqn (vsub (t_aff T x') z) <= distance rho s (x, z, y).
Proof.
  intros [[xs zs] ys] x z y x' z' y' (Ezs & Lys & (Lxs & _ & Mxs) & (Lzs & (rs & Ers) & Mzs)) Lz Ly (Mx & Mz & Ey).
  assert (Lx' : length x' = n) by apply Mx. assert (Lz' : length z' = m) by apply Mz. assert (La := aff_len x' Lx'). assert (Ls := aff_len xs Lxs). split; [auto|]. split; [rewrite Ey; auto with vl|].
  destruct (h zs) as [hs|] eqn:Eh; [|discriminate]. assert (Ez' : exists hz, h z' = Fin hz). { destruct Mz as (_ & (r & Er) & _). unfold lagrangian in Er. destruct (h z') as [hz|]; [eauto|discriminate]. } destruct Ez' as (hz & Ez').
  assert (X1 := x_first x' z y xs Lz Ly Lxs Mx). assert (Z1 := z_first x' z' y zs hz hs Lx' Ly Lzs Mz Ez' Eh).
  specialize (Mxs x' Lx'). specialize (Mzs z' Lz'). cbn beta in *. rewrite ?Eh, ?Ez' in Mzs. cbn [ext_add ext_le] in Mxs, Mzs.
  assert (D : dot ys (t_lin T x') - dot ys (t_lin T xs) = dot ys (t_aff T x') - dot ys (t_aff T xs)). { destruct GD as ((A1 & _) & (F1 & F2) & En & Em). rewrite (F2 x'), (F2 xs) by lc. rewrite !dot_add_r by (rewrite ?A1; lc). ring. }
  rewrite <- Ezs in *. clear Ezs Mx Mz Ers Eh Ez' CF CH. unfold distance. subst y'. revert La X1 Z1 Mxs Mzs D. generalize (t_aff T x'). intros a La X1 Z1 Mxs Mzs D.
  rewrite ?dot_add_l, ?dot_scal_l, ?dot_sub_r in X1, Z1 by vl m. rewrite ?dot_sub_l in X1, Z1 by vl m.
  assert (S1 : sqn (vsub (vadd y (vscal rho (vsub a z'))) ys) = sqn (vsub y ys) + 2 * rho * dot (vsub y ys) (vsub a z') + rho * rho * sqn (vsub a z')).
  { replace (vsub (vadd y (vscal rho (vsub a z'))) ys) with (vadd (vsub y ys) (vscal rho (vsub a z'))). - rewrite sqn_add by vl m. rewrite sqn_scal, dot_scal_r. ring. - clear - Ly Lys Lz' La. assert (Lr : length (vscal rho (vsub a z')) = m) by auto with vl. revert Lr. generalize (vscal rho (vsub a z')). intros r Lr. revert y ys r Ly Lys Lr. clear. unfold vsub, vadd. induction m as [|k IH]; intros [|p y] [|q ys] [|e r] A B C; cbn in *; try discriminate; auto. f_equal; [ring|]. apply IH; congruence. }
  rewrite S1. replace ((sqn (vsub y ys) + 2 * rho * dot (vsub y ys) (vsub a z') + rho * rho * sqn (vsub a z')) / rho) with (sqn (vsub y ys) / rho + 2 * dot (vsub y ys) (vsub a z') + rho * sqn (vsub a z')) by (field; lra).
  rewrite ?sqn_sub by vl m. rewrite ?dot_sub_r by vl m. rewrite ?dot_sub_l by vl m. unfold sqn in *. fold (sqn a) in *.
  rewrite (dot_comm z a) in X1. nra.
Qed.
(** Two rounds: the residual of the second. *)
Lemma two_rounds : forall x0 z0 y0 x1 z1 y1 x2 z2 y2, length z0 = m -> length y0 = m -> admm_round n m f h T rho (x0, z0, y0) (x1, z1, y1) -> admm_round n m f h T rho (x1, z1, y1) (x2, z2, y2) ->
  sqn (vsub (t_aff T x2) z2) + sqn (vsub z2 z1) <= sqn (vsub (t_aff T x2) z1).
Proof.
  intros x0 z0 y0 x1 z1 y1 x2 z2 y2 Lz0 Ly0 (Mx1 & Mz1 & Ey1) (Mx2 & Mz2 & Ey2).
  assert (Lx1 : length x1 = n) by apply Mx1. assert (Lx2 : length x2 = n) by apply Mx2. assert (Lz1 : length z1 = m) by apply Mz1. assert (Lz2 : length z2 = m) by apply Mz2. assert (La1 := aff_len x1 Lx1). assert (La2 := aff_len x2 Lx2).
  assert (Ly1 : length y1 = m) by (rewrite Ey1; auto with vl).
  assert (E : forall x z y, is_argmin m (fun w => lagrangian f h T rho x w y) z -> exists r, h z = Fin r). { intros x z y (_ & (r & Er) & _). unfold lagrangian in Er. destruct (h z); [eauto|discriminate]. }
  destruct (E _ _ _ Mz1) as (h1 & E1). destruct (E _ _ _ Mz2) as (h2 & E2).
  assert (A := z_first x1 z1 y0 z2 h1 h2 Lx1 Ly0 Lz2 Mz1 E1 E2). assert (B := z_first x2 z2 y1 z1 h2 h1 Lx2 Ly1 Lz1 Mz2 E2 E1). rewrite <- Ey1 in A.
  revert La2 B. generalize (t_aff T x2). intros a La2 B. rewrite dot_add_l, dot_scal_l, ?dot_sub_r in B by vl m. rewrite ?dot_sub_r in A by vl m. rewrite ?dot_sub_l in B by vl m.
  rewrite ?sqn_sub by vl m. unfold sqn in *. rewrite (dot_comm z2 z1) in *. assert (0 <= rho * (dot a z2 - dot z2 z2 - (dot a z1 - dot z1 z2))) by lra. assert (0 <= dot a z2 - dot z2 z2 - (dot a z1 - dot z1 z2)) by nra. lra.
Qed.
Lemma sum_over_S : forall N F, sum_over (S N) F = sum_over N F + F N.
Proof. intros N F. unfold sum_over. rewrite seq_S, map_app, vsum_app. cbn [map plus]. change (vsum [F N]) with (F N + 0). ring. Qed.
Lemma sum_over_le : forall N F G, (forall k, (k < N)%nat -> F k <= G k) -> sum_over N F <= sum_over N G.
Proof. induction N as [|N IH]; intros F G H; [apply Rle_refl|]. rewrite !sum_over_S. specialize (IH F G ltac:(intros; apply H; lia)). specialize (H N ltac:(lia)). lra. Qed.
Lemma sum_over_shift : forall N F, sum_over (S N) F = F 0%nat + sum_over N (fun k => F (S k)).
Proof. intros N F. unfold sum_over. cbn [seq map]. rewrite <- seq_shift, map_map. reflexivity. Qed.
Theorem run_closer : forall N (s : nat -> vec * vec * vec) sol, saddle n m f h T sol -> length (snd (fst (s 0%nat))) = m -> length (snd (s 0%nat)) = m -> (forall k, (k < N)%nat -> admm_round n m f h T rho (s k) (s (S k))) ->
  distance rho sol (s N) + rho * sum_over N (fun k => sqn (vsub (t_aff T (fst (fst (s (S k))))) (snd (fst (s k))))) <= distance rho sol (s 0%nat) /\ length (snd (fst (s N))) = m /\ length (snd (s N)) = m.
Proof.
  induction N as [|N IH]; intros s sol Sd Lz Ly HS.
  - unfold sum_over. cbn [seq map]. change (vsum []) with 0. split; [lra|auto].
  - destruct (IH s sol Sd Lz Ly) as (D & L1 & L2); [intros; apply HS; lia|]. specialize (HS N (Nat.lt_succ_diag_r N)). rewrite sum_over_S.
    destruct (s N) as [[x z] y] eqn:E1. destruct (s (S N)) as [[x' z'] y'] eqn:E2. cbn [fst snd] in *. destruct (round_closer sol x z y x' z' y' Sd L1 L2 HS) as (A & B & C). split; [|auto]. refine (Rle_trans _ _ _ _ D). match goal with |- ?a + rho * (?X + ?b) <= _ => replace (a + rho * (X + b)) with (a + rho * b + rho * X) by ring end. apply Rplus_le_compat_r. exact C.
Qed.
(** From the second round on the sum of all squared residuals is bounded. *)
Theorem run_residuals : forall N (s : nat -> vec * vec * vec) sol, saddle n m f h T sol -> length (snd (fst (s 0%nat))) = m -> length (snd (s 0%nat)) = m -> (forall k, (k < S N)%nat -> admm_round n m f h T rho (s k) (s (S k))) ->
  rho * sum_over N (fun k => let '(x, z, _) := s (S (S k)) in sqn (vsub (t_aff T x) z) + sqn (vsub z (snd (fst (s (S k)))))) <= distance rho sol (s 0%nat).
Proof.
  intros N s sol Sd Lz Ly HS. destruct (run_closer (S N) s sol Sd Lz Ly HS) as (D & _ & _). rewrite sum_over_shift in D.
  assert (P0 : 0 <= sqn (vsub (t_aff T (fst (fst (s 1%nat)))) (snd (fst (s 0%nat))))) by apply sqn_nonneg.
  assert (PD : 0 <= distance rho sol (s (S N))). { destruct sol as [[a b] c], (s (S N)) as [[x z] y]. cbn. assert (H1 := sqn_nonneg (vsub z b)). assert (H2 := sqn_nonneg (vsub y c)). assert (0 <= sqn (vsub y c) / rho) by (apply Rmult_le_pos; [auto|left; apply Rinv_0_lt_compat; auto]). nra. }
  apply Rle_trans with (rho * sum_over N (fun k => sqn (vsub (t_aff T (fst (fst (s (S (S k)))))) (snd (fst (s (S k))))))); [|nra].
  apply Rmult_le_compat_l; [lra|]. apply sum_over_le. intros k Hk.
  destruct (run_closer k s sol Sd Lz Ly ltac:(intros; apply HS; lia)) as (_ & L1 & L2). assert (R1 := HS k ltac:(lia)). assert (R2 := HS (S k) ltac:(lia)).
  destruct (s k) as [[x0 z0] y0]. destruct (s (S k)) as [[x1 z1] y1]. destruct (s (S (S k))) as [[x2 z2] y2]. cbn [fst snd] in *. apply (two_rounds x0 z0 y0 x1 z1 y1 x2 z2 y2); auto.
Qed.
End Rounds.

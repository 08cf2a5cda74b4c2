(** Elementary convex analysis on R^n. *)
From Coq Require Import Reals List Lra Lia Psatz.
From Verif Require Import Vec Spec SpecConvex P_quad.
Import ListNotations.
Local Open Scope R_scope.

Lemma between_length : forall n x y t, length x = n -> length y = n -> length (between x y t) = n.
Proof. intros n x y t Hx Hy. unfold between. vlen. Qed.
Lemma line_shift : forall x d a b, length x = length d -> vadd (vadd x (vscal a d)) (vscal b d) = vadd x (vscal (a + b) d).
Proof.
  intros x d a b H. pattern x, d. apply vec_ind2; auto. intros u v X Y HL IH. unfold vadd, vscal in *. cbn [vzip map]. rewrite IH. f_equal. ring.
Qed.
Lemma line_zero : forall x d, length x = length d -> vadd x (vscal 0 d) = x.
Proof. intros x d H. rewrite vscal_0. apply vadd_zeros_r. auto. Qed.
Lemma derive_shift : forall F a l, derivable_pt_lim (fun t => F (a + t)) 0 l -> derivable_pt_lim F a l.
Proof.
  intros F a l H eps He. destruct (H eps He) as [d Hd]. exists d. intros h Hh Hb. specialize (Hd h Hh Hb). rewrite Rplus_0_l, Rplus_0_r in Hd. auto.
Qed.
Lemma derive_ext : forall F G a l, (forall t, F t = G t) -> derivable_pt_lim F a l -> derivable_pt_lim G a l.
Proof. intros F G a l E H eps He. destruct (H eps He) as [d Hd]. exists d. intros h Hh Hb. rewrite <- !E. auto. Qed.
Lemma gradient_line : forall n f g x d t, gradient_of n f g -> length x = n -> length d = n ->
  derivable_pt_lim (fun s => f (vadd x (vscal s d))) t (dot (g (vadd x (vscal t d))) d).
Proof.
  intros n f g x d t G Hx Hd. apply derive_shift. assert (L : length (vadd x (vscal t d)) = n) by vlen. destruct (G _ L) as [_ H]. specialize (H d Hd).
  eapply derive_ext; [|exact H]. intros s. cbn beta. rewrite line_shift by congruence. auto.
Qed.
Theorem convex_tangent : forall n f x g y, convex_on n f -> is_gradient n f x g -> length x = n -> length y = n -> f x + dot g (vsub y x) <= f y.
Proof.
  intros n f x g y C [Lg G] Hx Hy. assert (Ld : length (vsub y x) = n) by vlen. specialize (G _ Ld).
  destruct (Rle_dec (f x + dot g (vsub y x)) (f y)) as [|N]; auto. exfalso.
  set (l := dot g (vsub y x)) in *. assert (Hl : 0 < l - (f y - f x)) by lra. destruct (G _ Hl) as [[del Hdel] Hd]. cbn [pos] in Hd.
  set (t := Rmin (del / 2) 1). assert (Ht : 0 < t <= 1) by (unfold t; split; [apply Rmin_pos; lra|apply Rmin_r]).
  assert (Htd : t < del) by (unfold t; apply Rle_lt_trans with (del / 2); [apply Rmin_l|lra]).
  specialize (Hd t ltac:(lra)). cbn [Spec.pos pos] in Hd. assert (Q : Rabs t < del) by (rewrite Rabs_pos_eq; lra). specialize (Hd Q). clear Q.
  rewrite Rplus_0_l in Hd. rewrite line_zero in Hd by congruence. specialize (C x y t Hx Hy ltac:(lra)). unfold between in C.
  assert (K : (f (vadd x (vscal t (vsub y x))) - f x) / t <= f y - f x).
  { apply Rmult_le_reg_r with t; [lra|]. unfold Rdiv. rewrite Rmult_assoc, Rinv_l by lra. lra. }
  apply Rabs_def2 in Hd. lra.
Qed.
Lemma derive_quad : forall a b c, derivable_pt_lim (fun t => t * a + t * t * b) c (a + 2 * c * b).
Proof.
  intros a b c eps He. assert (P : 0 < eps / (Rabs b + 1)) by (apply Rdiv_lt_0_compat; [auto|pose proof (Rabs_pos b); lra]).
  exists (mkposreal _ P). intros h Hh Hb. simpl in Hb. replace (((c + h) * a + (c + h) * (c + h) * b - (c * a + c * c * b)) / h - (a + 2 * c * b)) with (h * b) by (field; auto).
  rewrite Rabs_mult. pose proof (Rabs_pos b). pose proof (Rabs_pos h). apply Rle_lt_trans with (Rabs h * (Rabs b + 1)); [nra|].
  apply Rmult_lt_compat_r with (r := Rabs b + 1) in Hb; [|lra]. unfold Rdiv in Hb. rewrite Rmult_assoc, Rinv_l in Hb by lra. lra.
Qed.
Theorem descent_lemma : forall n f g L x y, gradient_of n f g -> lipschitz_map n g L -> length x = n -> length y = n ->
  f y <= f x + dot (g x) (vsub y x) + L / 2 * sqn (vsub y x).
Proof.
  intros n f g L x y G Lip Hx Hy. set (d := vsub y x). assert (Ld : length d = n) by (unfold d; vlen).
  set (F := fun t => f (vadd x (vscal t d)) - (t * dot (g x) d + t * t * (L / 2 * sqn d))).
  set (F' := fun t => dot (g (vadd x (vscal t d))) d - (dot (g x) d + 2 * t * (L / 2 * sqn d))).
  destruct (MVT_cor2 F F' 0 1) as (c & E & Hc); [lra| |].
  - intros c _. unfold F, F'. apply derivable_pt_lim_minus; [apply (gradient_line n); auto|].
    apply derive_quad.
  - assert (N : F' c <= 0).
    { unfold F'. assert (Lc : length (vadd x (vscal c d)) = n) by vlen. destruct (G _ Lc) as [L1 _]. destruct (G _ Hx) as [L2 _].
      assert (A : dot (vsub (g (vadd x (vscal c d))) (g x)) d <= c * L * sqn d).
      { apply Rle_trans with (norm (vsub (g (vadd x (vscal c d))) (g x)) * norm d); [apply cauchy_schwarz; vlen|].
        apply Rle_trans with (L * norm (vsub (vadd x (vscal c d)) x) * norm d).
        - apply Rmult_le_compat_r; [apply norm_nonneg|]. apply Lip; auto.
        - rewrite vadd_comm, vsub_vadd by vlen. rewrite norm_scal, Rabs_pos_eq by lra. rewrite <- norm_sq. right. ring. }
      rewrite dot_sub_l in A by congruence. lra. }
    unfold F in E at 1 2. rewrite vscal_1 in E. rewrite line_zero in E by congruence. replace (vadd x d) with y in E by (unfold d; rewrite vadd_comm, vadd_vsub; [auto|congruence]). lra.
Qed.
(** Prox steps *)
Definition convex_lower := convex_tangent.
Lemma between_0 : forall x y, length x = length y -> between x y 0 = x.
Proof. intros x y H. unfold between. apply line_zero. vlen. Qed.
Lemma sqn_between_diff : forall c x y t, length c = length x -> length c = length y ->
  sqn (vsub (between x y t) c) = sqn (vsub x c) + 2 * t * dot (vsub x c) (vsub y x) + t * t * sqn (vsub y x).
Proof.
  intros c x y t H1 H2. unfold between. revert x y H1 H2. induction c as [|a c IH]; intros [|b x] [|e y] H1 H2; try discriminate; [unfold sqn; simpl; unfold dot, vsum; simpl; lra|].
  simpl in H1, H2. injection H1 as H1. injection H2 as H2. specialize (IH x y H1 H2). unfold vsub, vadd, vscal in *. cbn [vzip map]. rewrite !sqn_cons, dot_cons, IH. ring.
Qed.
Lemma dot_between : forall g x y t, length g = length x -> length g = length y -> dot g (between x y t) = dot g x + t * dot g (vsub y x).
Proof. intros g x y t H1 H2. unfold between. rewrite dot_add_r by vlen. rewrite dot_scal_r. auto. Qed.
(** The variational inequality of a proximal-gradient step p = argmin_y <g,y> + L/2|y-w|^2 + h(y). *)
Theorem prox_variational : forall n h L w g p hp y hy, convex_ext n h -> 0 < L -> length w = n -> length g = n -> length y = n ->
  is_argmin n (fun z => ext_add (h z) (Fin (L / 2 * sqn (vsub z w) + dot g z))) p -> h p = Fin hp -> h y = Fin hy ->
  hp + dot g p + L * dot (vsub p w) p <= hy + dot g y + L * dot (vsub p w) y.
Proof.
  intros n h L w g p hp y hy C HL Hw Hg Hy (Lp & _ & M) Ep Ey.
  assert (Q : forall t, 0 < t <= 1 -> 0 <= t * (hy - hp + dot g (vsub y p) + L * dot (vsub p w) (vsub y p)) + t * t * (L / 2 * sqn (vsub y p))).
  { intros t Ht. specialize (C p y t hp hy Lp Hy ltac:(lra) Ep Ey). specialize (M (between p y t) (between_length n p y t Lp Hy)). cbn beta in M. rewrite Ep in M.
    destruct (h (between p y t)) as [r|]; simpl in C; [|contradiction]. simpl in M.
    rewrite sqn_between_diff in M by congruence. rewrite dot_between in M by congruence. nra. }
  rewrite !dot_sub_r in Q by vlen.
  set (A := hy - hp + (dot g y - dot g p) + L * (dot (vsub p w) y - dot (vsub p w) p)) in *. set (B := L / 2 * sqn (vsub y p)) in *.
  assert (HB : 0 <= B) by (unfold B; pose proof (sqn_nonneg (vsub y p)); nra).
  destruct (Rle_dec 0 A) as [H|H]; [unfold A in H; lra|]. exfalso.
  set (t := Rmin 1 (- A / (2 * (B + 1)))). assert (P : 0 < - A / (2 * (B + 1))) by (apply Rdiv_lt_0_compat; lra).
  assert (T : 0 < t <= 1) by (unfold t; split; [apply Rmin_pos; lra|apply Rmin_l]). specialize (Q t T).
  assert (T2 : t <= - A / (2 * (B + 1))) by apply Rmin_r.
  assert (T3 : t * (2 * (B + 1)) <= - A). { apply Rmult_le_compat_r with (r := 2 * (B + 1)) in T2; [|lra]. unfold Rdiv in T2. rewrite Rmult_assoc, Rinv_l in T2 by lra. lra. }
  assert (t * (A + t * B) < 0); [|lra]. assert (A + t * B < 0) by nra. nra.
Qed.

(** Proofs about affine transforms. *)
From Coq Require Import Reals List Lra Lia Psatz Arith Bool.
From Verif Require Import Vec Spec M_affine SpecAffine P_quad P_cones.
Import ListNotations.
Local Open Scope R_scope.

Ltac tc := unfold add_intercept, centering, identity, adjoint, matrix, diagonal, aslinear, scalar_multiply, posneg in *; cbn [t_lin t_aff t_adj t_off t_in t_out] in *.
(** ** Vectors determined by inner products *)
Lemma dot_separates : forall n (x y : vec), length x = n -> length y = n -> (forall u, length u = n -> dot x u = dot y u) -> x = y.
Proof.
  intros n x y Lx Ly H. apply vsub_eq_zero; [congruence|]. assert (E := H (vsub x y) ltac:(vlen)). unfold sqn. rewrite dot_sub_l by vlen. lra.
Qed.
Lemma adjoint_linear : forall t, true_adjoint t -> linear t.
Proof.
  intros t (L1 & L2 & A). split.
  - intros x y Lx Ly. assert (Lz : length (vadd x y) = t_in t) by vlen. apply (dot_separates (t_out t)); [auto|rewrite vadd_length; rewrite !L1; auto|]. intros u Lu.
    rewrite A by auto. rewrite !dot_add_l by (rewrite ?L1, ?L2; auto; congruence). rewrite !A by auto. auto.
  - intros c x Lx. apply (dot_separates (t_out t)); [apply L1; vlen|vlen; rewrite L1; auto|]. intros u Lu. rewrite A by vlen. rewrite !dot_scal_l, A by auto. auto.
Qed.
Definition off_len (t : transform) : Prop := forall a, t_off t = Some (Some a) -> length a = t_out t.
Record good (t : transform) : Prop := { g_adj : true_adjoint t; g_aff : affine t; g_off : off_len t }.
Lemma lin_zero : forall t, true_adjoint t -> t_lin t (zeros (t_in t)) = zeros (t_out t).
Proof.
  intros t (L1 & L2 & A). assert (Lz : length (zeros (t_in t)) = t_in t) by vlen. apply (dot_separates (t_out t)); [auto|vlen|]. intros u Lu. rewrite A by auto. rewrite !dot_zeros_l. auto.
Qed.
Lemma linear_affine : forall t, true_adjoint t -> (forall x, length x = t_in t -> t_aff t x = t_lin t x) -> affine t.
Proof.
  intros t A H. assert (Z := lin_zero t A). assert (Lz : length (zeros (t_in t)) = t_in t) by vlen. split; rewrite H by auto; [rewrite Z; vlen|]. intros x Lx. rewrite H by auto. rewrite Z, vadd_zeros_r; auto. apply A. auto.
Qed.
Lemma offset_affine : forall t o, true_adjoint t -> (forall a, o = Some a -> length a = t_out t) -> (forall x, t_aff t x = with_offset o (t_lin t x)) -> affine t.
Proof.
  intros t o A Lo H. assert (Z := lin_zero t A). assert (Lz : length (zeros (t_in t)) = t_in t) by vlen. destruct o as [a|].
  - specialize (Lo a eq_refl). split; rewrite H, Z; cbn; [vlen|]. intros x Lx. rewrite H. cbn. rewrite vadd_zeros_r by auto. apply vadd_comm.
  - apply linear_affine; auto. intros x Lx. apply H.
Qed.

(** ** Blocks *)
Lemma firstn_skipn_len : forall (x : vec) a b, length x = (a + b)%nat -> length (firstn a x) = a /\ length (skipn a x) = b.
Proof. intros x a b H. rewrite firstn_length, skipn_length. lia. Qed.
Lemma dot_firstn : forall a (x u : vec), length x = length u -> dot x u = dot (firstn a x) (firstn a u) + dot (skipn a x) (skipn a u).
Proof. intros a x u H. rewrite <- (firstn_skipn a x) at 1. rewrite <- (firstn_skipn a u) at 1. apply dot_app. rewrite !firstn_length. congruence. Qed.
Lemma concat_len : forall ts (F : transform -> vec) (sz : transform -> nat), (forall t, In t ts -> length (F t) = sz t) -> length (concat (map F ts)) = list_sum (map sz ts).
Proof. induction ts as [|t ts IH]; intros F sz H; auto. cbn. rewrite app_length, (IH F sz), (H t); auto; [left; auto|]. intros; apply H; right; auto. Qed.
Lemma blocks_len : forall F si so ts x, (forall t y, In t ts -> length y = si t -> length (F t y) = so t) -> length x = list_sum (map si ts) -> length (blocks F si ts x) = list_sum (map so ts).
Proof.
  induction ts as [|t ts IH]; intros x H L; auto. cbn [blocks map list_sum fold_right] in *. simpl in L. destruct (firstn_skipn_len _ _ _ L) as [L1 L2].
  rewrite app_length, H, IH; auto; [intros; apply H; auto; right; auto|left; auto].
Qed.
Lemma blocks_adjoint : forall ts x u, (forall t, In t ts -> true_adjoint t) -> length x = list_sum (map t_in ts) -> length u = list_sum (map t_out ts) ->
  dot (blocks t_lin t_in ts x) u = dot x (blocks t_adj t_out ts u).
Proof.
  induction ts as [|t ts IH]; intros x u H Lx Lu; cbn [blocks]; [rewrite dot_nil_l, dot_nil_r; auto|]. simpl in Lx, Lu. destruct (firstn_skipn_len _ _ _ Lx) as [X1 X2]. destruct (firstn_skipn_len _ _ _ Lu) as [U1 U2].
  destruct (H t (or_introl eq_refl)) as (A1 & A2 & A3). assert (E : dot x (t_adj t (firstn (t_out t) u) ++ blocks t_adj t_out ts (skipn (t_out t) u)) = dot (firstn (t_in t) x) (t_adj t (firstn (t_out t) u)) + dot (skipn (t_in t) x) (blocks t_adj t_out ts (skipn (t_out t) u))).
  { rewrite <- (firstn_skipn (t_in t) x) at 1. apply dot_app. rewrite A2; auto. }
  rewrite E. rewrite <- (firstn_skipn (t_out t) u) at 1. rewrite dot_app by (rewrite A1; auto). rewrite A3, IH; auto. intros; apply H; right; auto.
Qed.
Lemma blocks_good : forall ts, (forall t, In t ts -> true_adjoint t) -> forall f o a n, n = list_sum (map t_in ts) -> true_adjoint (mk_transform (blocks t_lin t_in ts) f (blocks t_adj t_out ts) o n a) \/ a <> list_sum (map t_out ts).
Proof.
  intros ts H f o a n ->. destruct (Nat.eq_dec a (list_sum (map t_out ts))) as [->|]; auto. left. split; [|split]; tc.
  - intros x Lx. apply blocks_len; auto. intros t y Ht Ly. apply (H t Ht); auto.
  - intros x Lx. apply blocks_len; auto. intros t y Ht Ly. apply (H t Ht); auto.
  - intros x u Lx Lu. apply blocks_adjoint; auto.
Qed.
Lemma blocks_zeros : forall F sz ts, blocks F sz ts (zeros (list_sum (map sz ts))) = concat (map (fun t => F t (zeros (sz t))) ts).
Proof.
  intros F sz. induction ts as [|t ts IH]; auto. cbn [blocks map concat list_sum fold_right]. f_equal; [|rewrite <- IH]; f_equal.
  - unfold zeros. simpl. rewrite repeat_app, firstn_app, repeat_length, Nat.sub_diag. simpl. rewrite app_nil_r. rewrite firstn_all2 by (rewrite repeat_length; lia). auto.
  - unfold zeros. simpl. rewrite repeat_app, skipn_app, repeat_length, Nat.sub_diag. simpl. rewrite skipn_all2 by (rewrite repeat_length; lia). auto.
Qed.
Lemma vadd_app : forall (a b c d : vec), length a = length c -> vadd (a ++ b) (c ++ d) = vadd a c ++ vadd b d.
Proof. unfold vadd. induction a as [|p a IH]; intros b [|q c] d H; try discriminate; auto. cbn. rewrite IH; auto. Qed.
Lemma blocks_affine : forall ts x, (forall t, In t ts -> true_adjoint t /\ affine t) -> length x = list_sum (map t_in ts) ->
  blocks t_aff t_in ts x = vadd (blocks t_lin t_in ts x) (concat (map (fun t => t_aff t (zeros (t_in t))) ts)).
Proof.
  induction ts as [|t ts IH]; intros x H L; auto. cbn [blocks map concat]. simpl in L. destruct (firstn_skipn_len _ _ _ L) as [L1 L2]. destruct (H t (or_introl eq_refl)) as [(A1 & A2 & A3) [B1 B2]].
  rewrite vadd_app by (rewrite A1, B1; auto). rewrite <- B2, IH; auto. intros; apply H; right; auto.
Qed.
Lemma all_zero_spec : forall v, all_zero v = true -> v = zeros (length v).
Proof. induction v as [|a v IH]; intros H; auto. cbn in H. apply andb_prop in H. destruct H as [H1 H2]. destruct (Req_EM_T a 0) as [->|]; [|discriminate]. cbn. f_equal. apply IH. auto. Qed.

(** ** Classes *)
Lemma mat_tvec_length : forall n D u, Forall (fun r => length r = n) D -> length (mat_tvec n D u) = n.
Proof. intros n. induction D as [|r D IH]; intros [|a u] H; cbn; try apply repeat_length. inversion H; subst. rewrite vadd_length; rewrite vscal_length; auto. rewrite IH; auto. Qed.
Lemma mat_adjoint : forall n D x u, Forall (fun r => length r = n) D -> length x = n -> length u = length D -> dot (mat_vec D x) u = dot x (mat_tvec n D u).
Proof.
  intros n. induction D as [|r D IH]; intros x [|a u] H Lx Lu; try discriminate; cbn [mat_vec map mat_tvec]; [rewrite dot_nil_l, dot_zeros_r; auto|].
  inversion H; subst. rewrite dot_cons, dot_add_r by (vlen; rewrite mat_tvec_length; auto). rewrite dot_scal_r. fold (mat_vec D x). rewrite (IH x u) by auto. rewrite (dot_comm r x). ring.
Qed.
Lemma dot_vmul_move : forall d x u, dot (vmul d x) u = dot x (vmul d u).
Proof.
  unfold vmul. induction d as [|a d IH]; intros [|b x] [|c u]; cbn [vzip]; rewrite ?dot_nil_l, ?dot_nil_r; auto. rewrite !dot_cons, IH. ring.
Qed.
Lemma good_matrix : forall D n o, Forall (fun r => length r = n) D -> (forall a, o = Some a -> length a = length D) -> good (matrix D n o).
Proof.
  intros D n o H Ho. assert (A : true_adjoint (matrix D n o)). { split; [|split]; tc; [intros; apply map_length|intros; apply mat_tvec_length; auto|intros; apply mat_adjoint; auto]. }
  split; auto; [eapply offset_affine; eauto|]. intros a E. cbn in *. apply Ho. injection E as E. exact E.
Qed.
Lemma good_diagonal : forall d o, (forall a, o = Some a -> length a = length d) -> good (diagonal d o).
Proof.
  intros d o Ho. assert (A : true_adjoint (diagonal d o)). { split; [|split]; tc; [intros; vlen|intros; vlen|intros; apply dot_vmul_move]. }
  split; auto; [eapply offset_affine; eauto|]. intros a E. cbn in *. apply Ho. injection E as E. exact E.
Qed.
Lemma good_id : forall n f o, (forall x, f x = with_offset o x) -> (forall a, o = Some a -> length a = n) -> good (mk_transform (fun x => x) f (fun u => u) (Some o) n n).
Proof.
  intros n f o Hf Ho. assert (A : true_adjoint (mk_transform (fun x => x) f (fun u => u) (Some o) n n)) by (split; [|split]; tc; auto).
  split; auto; [eapply offset_affine; eauto|]. intros a E. cbn in *. apply Ho. injection E as E. exact E.
Qed.
Lemma good_wrap : forall t o, good t -> (forall a, o = Some a -> length a = t_out t) -> good (wrap t o).
Proof.
  intros t o G Ho. destruct G as [(A1 & A2 & A3) [B1 B2] _]. split; [split; [|split]; auto| |].
  - split; unfold wrap; cbn [t_aff t_in t_out t_lin]; [destruct o as [a|]; cbn [with_offset]; auto; rewrite vadd_length; [auto|rewrite (Ho a eq_refl); auto]|]. intros x Lx. rewrite B2 by auto. destruct o as [a|]; cbn; auto. specialize (Ho a eq_refl).
    assert (La : length (t_lin t x) = t_out t) by auto. rewrite (vadd_comm a (vadd _ _)), vadd_assoc by vlen. rewrite (vadd_comm a). auto.
  - intros a E. cbn in *. apply Ho. injection E as E. exact E.
Qed.

(** Selection *)
Lemma set_at_length : forall x i a, length (set_at i a x) = length x.
Proof. induction x as [|b x IH]; intros [|i] a; cbn; auto. Qed.
Lemma scatter_length : forall idx v x, length (scatter idx v x) = length x.
Proof. induction idx as [|i idx IH]; intros [|a v] x; cbn; auto. rewrite IH. apply set_at_length. Qed.
Lemma dot_set_at : forall x i a y, length x = length y -> (i < length x)%nat -> dot y (set_at i a x) = dot y x + nth i y 0 * (a - nth i x 0).
Proof.
  induction x as [|b x IH]; intros [|i] a [|c y] H Hi; cbn [length set_at nth] in *; try lia; try discriminate; rewrite !dot_cons; [ring|]. rewrite IH by lia. ring.
Qed.
Lemma nth_set_at_other : forall x i j a, i <> j -> nth j (set_at i a x) 0 = nth j x 0.
Proof. induction x as [|b x IH]; intros [|i] [|j] a H; cbn; auto; try congruence. Qed.
Lemma nth_set_at_same : forall x i a, (i < length x)%nat -> nth i (set_at i a x) 0 = a.
Proof. induction x as [|b x IH]; intros [|i] a H; cbn in *; try lia; auto. apply IH. lia. Qed.
Lemma dot_scatter : forall idx v x y, NoDup idx -> Forall (fun i => (i < length x)%nat) idx -> length v = length idx -> length y = length x -> (forall i, In i idx -> nth i x 0 = 0) ->
  dot y (scatter idx v x) = dot y x + dot (gather idx y) v.
Proof.
  induction idx as [|i idx IH]; intros [|a v] x y N F L Ly Z; try discriminate; cbn [scatter gather map]; [rewrite dot_nil_l; ring|].
  inversion N; subst. inversion F; subst. rewrite IH; auto.
  - rewrite dot_cons, dot_set_at, (Z i) by (auto; left; auto). fold (gather idx y). ring.
  - eapply Forall_impl; [|eauto]. intros k. rewrite set_at_length. auto.
  - rewrite set_at_length. auto.
  - intros k Hk. rewrite nth_set_at_other; [apply Z; right; auto|]. intros ->. contradiction.
Qed.
Lemma nth_zeros : forall n i, nth i (zeros n) 0 = 0.
Proof. intros. unfold zeros. apply nth_repeat. Qed.
Lemma good_selector : forall idx n t T, good t -> NoDup idx -> Forall (fun i => (i < n)%nat) idx -> t_in t = length idx -> selector idx n t = Ok T -> good T.
Proof.
  intros idx n t T [(A1 & A2 & A3) [B1 B2] O] N F Li E. unfold selector in E. destruct (t_off t) as [o|] eqn:Eo; [|discriminate]. injection E as <-.
  assert (Lg : forall x, length (gather idx x) = t_in t) by (intros; unfold gather; rewrite map_length; auto).
  assert (Gz : gather idx (zeros n) = zeros (t_in t)). { rewrite Li. unfold gather. clear. induction idx as [|i idx IH]; auto. cbn. rewrite nth_zeros, IH. auto. }
  split; [split; [|split]| |]; tc.
  - intros x _. auto.
  - intros u _. rewrite scatter_length. vlen.
  - intros x u Lx Lu. rewrite A3 by auto. rewrite dot_scatter; auto; [rewrite dot_zeros_r; ring| | | |].
    + eapply Forall_impl; [|eauto]. intros k. rewrite zeros_length. auto.
    + rewrite A2; auto.
    + vlen.
    + intros. apply nth_zeros.
  - split; tc; rewrite Gz; auto.
  - intros a Ha. cbn in Ha. cbn. apply O. rewrite Eo. exact Ha.
Qed.
Lemma vsum_map_const : forall c (x : vec), vsum (map (fun v => v + c) x) = vsum x + INR (length x) * c.
Proof. intros c x. induction x as [|a x IH]; [cbn; lra|]. cbn [map length]. rewrite !vsum_cons, IH, S_INR. ring. Qed.
Lemma dot_map_const : forall c (x u : vec), length x = length u -> dot (map (fun v => v + c) x) u = dot x u + c * vsum u.
Proof. intros c x u H. pattern x, u. apply vec_ind2; [cbn; unfold dot; cbn; lra| |auto]. intros a b X Y HL IH. cbn [map]. rewrite !dot_cons, IH, vsum_cons. ring. Qed.
Lemma map_plus_vadd : forall c (x y : vec), length x = length y -> map (fun v => v + c) (vadd x y) = vadd (map (fun v => v + c) x) y.
Proof. intros c x y H. pattern x, y. apply vec_ind2; auto. intros a b X Y HL IH. unfold vadd in *. cbn. rewrite IH. f_equal. ring. Qed.
Lemma good_add_intercept : forall t, good t -> good (add_intercept t).
Proof.
  intros t [(A1 & A2 & A3) [B1 B2] O]. assert (Lt : forall x : vec, length x = (t_in t + 1)%nat -> length (tl x) = t_in t) by (intros [|a x] H; cbn in *; lia).
  split; [split; [|split]| |]; tc.
  - intros x Lx. rewrite map_length. auto.
  - intros u Lu. cbn [length]. rewrite A2; auto. lia.
  - intros x u Lx Lu. rewrite dot_map_const by (rewrite A1; auto). rewrite A3; auto. destruct x as [|a x]; [cbn in Lx; lia|]. cbn [hd tl]. rewrite dot_cons. ring.
  - split; tc.
    + rewrite map_length. rewrite Nat.add_1_r. cbn [zeros repeat tl]. fold (zeros (t_in t)). auto.
    + intros x Lx. rewrite B2 by auto. rewrite map_plus_vadd by (rewrite A1, B1; auto). f_equal. rewrite Nat.add_1_r. cbn [zeros repeat tl hd]. fold (zeros (t_in t)). rewrite <- (map_id (t_aff t (zeros (t_in t)))) at 1. apply map_ext. intros. lra.
  - intros a H. discriminate.
Qed.
Lemma center_length : forall x, length (center x) = length x. Proof. intros. apply map_length. Qed.
Lemma dot_center : forall x u, length x = length u -> dot (center x) u = dot x u - vsum x / INR (length x) * vsum u.
Proof.
  intros x u H. unfold center. rewrite (map_ext (fun a => a - vsum x / INR (length x)) (fun v => v + - (vsum x / INR (length x)))) by (intros; ring). rewrite dot_map_const by auto. ring.
Qed.
Lemma adj_centering : forall n, true_adjoint (centering n).
Proof.
  intros n. split; [|split]; tc; [intros; rewrite center_length; auto|intros; rewrite center_length; auto|]. intros x u Lx Lu. rewrite (dot_comm x (center u)), !dot_center by congruence. rewrite (dot_comm u x), Lx, Lu. unfold Rdiv. ring.
Qed.
Lemma good_linear : forall t, true_adjoint t -> (forall x, length x = t_in t -> t_aff t x = t_lin t x) -> (t_off t = None \/ t_off t = Some None) -> good t.
Proof. intros t A H O. split; auto; [apply linear_affine; auto|]. intros a E. destruct O; congruence. Qed.

(** Stacking *)
Lemma vstack_form : forall ts T, vstack ts = Ok T -> exists n off, (forall t, In t ts -> t_in t = n) /\ off = concat (map (fun t => t_aff t (zeros n)) ts) /\
  let o := if all_zero off then None else Some off in let lin x := concat (map (fun t => t_lin t x) ts) in
  T = mk_transform lin (fun x => with_offset o (lin x)) (vstack_adj n ts) (Some o) n (list_sum (map t_out ts)).
Proof.
  intros [|t0 ts] T E; [discriminate|]. unfold vstack in E. destruct (forallb _ _) eqn:Ef; [|discriminate]. apply Ok_inj in E. rewrite <- E. exists (t_in t0). eexists. split; [|split; [reflexivity|reflexivity]].
  intros t Ht. rewrite forallb_forall in Ef. apply Nat.eqb_eq. auto.
Qed.
Lemma vstack_adj_length : forall n ts u, (forall t, In t ts -> true_adjoint t /\ t_in t = n) -> length u = list_sum (map t_out ts) -> length (vstack_adj n ts u) = n.
Proof.
  intros n. induction ts as [|t ts IH]; intros u H L; cbn [vstack_adj]; [vlen|]. simpl in L. destruct (firstn_skipn_len _ _ _ L) as [L1 L2]. destruct (H t (or_introl eq_refl)) as [(A1 & A2 & A3) E].
  rewrite vadd_length; rewrite A2 by auto; auto. rewrite IH; auto. intros; apply H; right; auto.
Qed.
Lemma vstack_adjoint : forall n ts x u, (forall t, In t ts -> true_adjoint t /\ t_in t = n) -> length x = n -> length u = list_sum (map t_out ts) ->
  dot (concat (map (fun t => t_lin t x) ts)) u = dot x (vstack_adj n ts u).
Proof.
  intros n. induction ts as [|t ts IH]; intros x u H Lx Lu; cbn [vstack_adj map concat]; [rewrite dot_nil_l, dot_zeros_r; auto|]. simpl in Lu. destruct (firstn_skipn_len _ _ _ Lu) as [L1 L2]. destruct (H t (or_introl eq_refl)) as [(A1 & A2 & A3) E].
  assert (H' : forall t0, In t0 ts -> true_adjoint t0 /\ t_in t0 = n) by (intros; apply H; right; auto).
  rewrite <- (firstn_skipn (t_out t) u) at 1. rewrite dot_app by (rewrite A1; congruence). rewrite A3 by congruence. rewrite IH by auto. rewrite dot_add_r; auto; rewrite A2 by auto; [rewrite vstack_adj_length; auto|congruence].
Qed.
Lemma good_offset : forall t o, true_adjoint t -> t_off t = Some o -> (forall a, o = Some a -> length a = t_out t) -> (forall x, t_aff t x = with_offset o (t_lin t x)) -> good t.
Proof. intros t o A E L H. split; auto; [eapply offset_affine; eauto|]. intros a Ea. apply L. rewrite E in Ea. injection Ea as Ea. exact Ea. Qed.
Lemma good_vstack : forall ts T, (forall t, In t ts -> good t) -> vstack ts = Ok T -> good T.
Proof.
  intros ts T G E. destruct (vstack_form ts T E) as (n & off & Hn & Eoff & ET). cbv zeta in ET. assert (H : forall t, In t ts -> true_adjoint t /\ t_in t = n) by (intros; split; [apply G; auto|auto]).
  assert (A : true_adjoint T).
  { rewrite ET. split; [|split]; tc.
    - intros x Lx. apply concat_len. intros t Ht. destruct (H t Ht) as [(A1 & _) En]. apply A1. congruence.
    - intros u Lu. apply vstack_adj_length; auto.
    - intros x u Lx Lu. apply vstack_adjoint; auto. }
  apply (good_offset T (if all_zero off then None else Some off)); auto; rewrite ET; auto. cbn. intros a Ha. destruct (all_zero off); [discriminate|]. injection Ha as <-. rewrite Eoff. apply concat_len. intros t Ht. rewrite <- (Hn t Ht). apply (G t Ht).
Qed.
Lemma hstack_form : forall ts T, hstack ts = Ok T -> exists m off, (forall t, In t ts -> t_out t = m) /\ off = fold_right (fun t acc => vadd (t_aff t (zeros (t_in t))) acc) (zeros m) ts /\
  let o := if all_zero off then None else Some off in
  T = mk_transform (hstack_lin m ts) (fun x => with_offset o (hstack_lin m ts x)) (fun u => concat (map (fun t => t_adj t u) ts)) (Some o) (list_sum (map t_in ts)) m.
Proof.
  intros [|t0 ts] T E; [discriminate|]. unfold hstack in E. destruct (forallb _ _) eqn:Ef; [|discriminate]. apply Ok_inj in E. rewrite <- E. exists (t_out t0). eexists. split; [|split; [reflexivity|reflexivity]].
  intros t Ht. rewrite forallb_forall in Ef. apply Nat.eqb_eq. auto.
Qed.
Lemma adjoint_swap : forall t, true_adjoint t -> true_adjoint (adjoint t).
Proof. intros t (A1 & A2 & A3). split; [|split]; tc; auto. intros x u Lx Lu. rewrite dot_comm, <- A3 by auto. apply dot_comm. Qed.
Lemma hstack_vstack : forall m ts x, hstack_lin m ts x = vstack_adj m (map adjoint ts) x.
Proof. intros m. induction ts as [|t ts IH]; intros x; cbn; auto. rewrite IH. auto. Qed.
Lemma good_hstack : forall ts T, (forall t, In t ts -> good t) -> hstack ts = Ok T -> good T.
Proof.
  intros ts T G E. destruct (hstack_form ts T E) as (m & off & Hm & Eoff & ET). cbv zeta in ET.
  assert (H : forall t, In t (map adjoint ts) -> true_adjoint t /\ t_in t = m). { intros t' Ht. apply in_map_iff in Ht. destruct Ht as (t & <- & Ht). split; [apply adjoint_swap, G; auto|cbn; auto]. }
  assert (Ls : list_sum (map t_out (map adjoint ts)) = list_sum (map t_in ts)) by (rewrite map_map; auto).
  assert (A : true_adjoint T).
  { rewrite ET. split; [|split]; cbn [t_lin t_aff t_adj t_off t_in t_out].
    - intros x Lx. rewrite hstack_vstack. apply vstack_adj_length; auto. rewrite Ls. exact Lx.
    - intros u Lu. apply concat_len. intros t Ht. apply (G t Ht). rewrite (Hm t Ht). auto.
    - intros x u Lx Lu. rewrite hstack_vstack, dot_comm, <- vstack_adjoint; auto; [|rewrite Ls; exact Lx]. rewrite dot_comm, map_map. auto. }
  apply (good_offset T (if all_zero off then None else Some off)); auto; rewrite ET; auto. cbn. intros a Ha. destruct (all_zero off); [discriminate|]. injection Ha as <-. rewrite Eoff. clear - G Hm.
  induction ts as [|t ts IH]; cbn; [vlen|]. assert (La : length (t_aff t (zeros (t_in t))) = m) by (rewrite <- (Hm t (or_introl eq_refl)); apply (G t (or_introl eq_refl))). rewrite vadd_length; auto. rewrite IH; auto; intros; [apply G|apply Hm]; right; auto.
Qed.
Lemma good_product : forall ts, (forall t, In t ts -> good t) -> good (product ts).
Proof.
  intros ts G. unfold product. match goal with |- good ?T => assert (A : true_adjoint T) end.
  { destruct (blocks_good ts (fun t Ht => g_adj t (G t Ht)) (fun x => with_offset (if all_zero (concat (map (fun t => t_aff t (zeros (t_in t))) ts)) then None else Some (concat (map (fun t => t_aff t (zeros (t_in t))) ts))) (blocks t_lin t_in ts x))
      (Some (if all_zero (concat (map (fun t => t_aff t (zeros (t_in t))) ts)) then None else Some (concat (map (fun t => t_aff t (zeros (t_in t))) ts)))) (list_sum (map t_out ts)) _ eq_refl); [auto|congruence]. }
  eapply good_offset; [exact A|reflexivity| |reflexivity]. cbn. intros a Ha. destruct (all_zero _); [discriminate|]. injection Ha as <-. apply concat_len. intros t Ht. apply (G t Ht).
Qed.

Lemma good_aslinear : forall t, good t -> t_in t = t_out t -> good (aslinear t).
Proof.
  intros t [(A1 & A2 & A3) _ _] E. apply good_linear; auto. split; [|split]; tc; rewrite E in *; auto.
Qed.
Lemma good_adjoint : forall t, good t -> good (adjoint t).
Proof. intros t [A _ _]. apply good_linear; auto. apply adjoint_swap. auto. Qed.
(** columns *)
Lemma columns_product : forall (t : transform) q x, concat (map (t_lin t) (columns q (t_in t) x)) = blocks t_lin t_in (repeat t q) x.
Proof. intros t. induction q as [|q IH]; intros x; cbn [columns map concat repeat blocks]; auto. rewrite IH. auto. Qed.
Lemma columns_product_adj : forall (t : transform) q x, concat (map (t_adj t) (columns q (t_out t) x)) = blocks t_adj t_out (repeat t q) x.
Proof. intros t. induction q as [|q IH]; intros x; cbn [columns map concat repeat blocks]; auto. rewrite IH. auto. Qed.
Lemma sum_repeat : forall (t : transform) (F : transform -> nat) q, list_sum (map F (repeat t q)) = (F t * q)%nat.
Proof. intros t F. induction q as [|q IH]; cbn; [lia|]. unfold list_sum in IH. rewrite IH. lia. Qed.
Lemma good_tensorize : forall t q T, good t -> (forall o x, t_off t = Some o -> t_aff t x = with_offset o (t_lin t x)) -> tensorize t q = Ok T -> good T /\ reports_offset T.
Proof.
  intros t q T G H E. unfold tensorize in E. destruct (t_off t) as [o|] eqn:Eo; [|discriminate]. apply Ok_inj in E.
  assert (Gr : forall t', In t' (repeat t q) -> true_adjoint t') by (intros t' Ht; apply repeat_spec in Ht; subst; apply G).
  assert (Lo : forall a, o = Some a -> length a = t_out t) by (intros a Ha; apply (g_off t G); congruence).
  assert (Af : forall x, length x = (t_in t * q)%nat -> concat (map (fun c => with_offset o (t_lin t c)) (columns q (t_in t) x)) = with_offset (option_map (fun a => concat (repeat a q)) o) (concat (map (t_lin t) (columns q (t_in t) x)))).
  { destruct o as [a|]; cbn [option_map with_offset]; [|auto]. specialize (Lo a eq_refl). clear - G Lo. induction q as [|q IH]; intros x Lx; auto. cbn [columns map concat repeat]. 
    assert (Lx' : length x = (t_in t + t_in t * q)%nat) by lia. destruct (firstn_skipn_len _ _ _ Lx') as [L1 L2]. destruct (g_adj t G) as (A1 & _). rewrite IH by auto. rewrite vadd_app; auto. rewrite A1; auto. }
  assert (A : true_adjoint T).
  { rewrite <- E. destruct (blocks_good (repeat t q) Gr (t_aff T) (t_off T) (t_out t * q)%nat (t_in t * q)%nat) as [(A1 & A2 & A3)|A]; [rewrite sum_repeat; auto| |rewrite sum_repeat in A; congruence].
    split; [|split]; tc; intros; rewrite ?columns_product, ?columns_product_adj; auto. }
  assert (Rp : reports_offset T).
  { rewrite <- E. unfold reports_offset. tc. destruct o as [a|]; cbn [option_map]; intros x Lx; rewrite Af by auto; cbn [option_map with_offset]; auto. apply vadd_comm. }
  split; auto. split; auto.
  - assert (Z := lin_zero T A). rewrite <- E in *. tc. split; tc; [rewrite Af by vlen; rewrite Z|].
    + destruct o as [a|]; cbn [option_map with_offset]; [|vlen]. specialize (Lo a eq_refl). rewrite vadd_length; [|vlen]; clear - Lo; induction q as [|q IH]; cbn [repeat concat]; rewrite ?app_length, ?IH; cbn; lia.
    + intros x Lx. rewrite !Af by vlen. rewrite Z. destruct A as (A1 & _). destruct o as [a|]; cbn [option_map with_offset].
      * specialize (Lo a eq_refl). rewrite (vadd_zeros_r (concat (repeat a q))); [apply vadd_comm|]. clear - Lo; induction q as [|q IH]; cbn [repeat concat]; rewrite ?app_length, ?IH; cbn; lia.
      * symmetry. apply vadd_zeros_r. apply A1. auto.
  - intros a Ha. rewrite <- E in *. tc. destruct o as [b|]; cbn in Ha; [|discriminate]. injection Ha as <-. specialize (Lo b eq_refl). clear - Lo; induction q as [|q IH]; cbn [repeat concat]; rewrite ?app_length, ?IH; cbn; lia.
Qed.
Lemma vsub_vadd_r : forall (x a b : vec), length x = length a -> length a = length b -> vsub x (vadd a b) = vsub (vsub x a) b.
Proof. intros x a b H1 H2. pattern x, a, b. apply vec_ind3; auto; [|congruence]. intros p q r X Y Z _ _ IH. unfold vsub, vadd in *. cbn. rewrite IH. f_equal. ring. Qed.
Lemma vadd_vsub_zeros : forall n (x a : vec), length x = n -> length a = n -> vadd x (vsub (zeros n) a) = vsub x a.
Proof. intros n x a H1 H2. rewrite (vsub_zeros_l n) by auto. subst n. pattern x, a. apply vec_ind2; auto. intros p q X Y _ IH. unfold vsub, vadd, vscal in *. cbn. rewrite IH. f_equal. ring. Qed.
Lemma good_residual : forall t T, good t -> residual t = Ok T -> good T.
Proof.
  intros t T [(A1 & A2 & A3) [B1 B2] _] E. unfold residual in E. destruct (Nat.eqb_spec (t_in t) (t_out t)) as [En|]; [|discriminate]. apply Ok_inj in E. subst T. split; [split; [|split]| |]; tc.
  - intros x Lx. rewrite vsub_length; rewrite ?A1; congruence.
  - intros u Lu. rewrite vsub_length; rewrite ?A2; congruence.
  - intros x u Lx Lu. assert (L1 := A1 x Lx). assert (L2 := A2 u Lu). rewrite dot_sub_l, dot_sub_r, A3 by congruence. auto.
  - split; tc; [rewrite vsub_length; vlen|]. intros x Lx. rewrite B2 by auto. assert (L1 := A1 x Lx). rewrite vsub_vadd_r by congruence. rewrite vadd_vsub_zeros; auto; [vlen|congruence].
  - intros a H. discriminate.
Qed.
(** composition *)
Lemma run_left_adj_cons : forall t ts u, run_left t_adj (t :: ts) u = run_left t_adj ts (t_adj t u). Proof. reflexivity. Qed.
Lemma chained_tail : forall t ts, chained (t :: ts) -> chained ts.
Proof. intros t [|t' ts] H; cbn in *; tauto. Qed.
Lemma last_cons2 : forall (a b d : transform) l, last (a :: b :: l) d = last (b :: l) d. Proof. reflexivity. Qed.
Lemma compose_props : forall ts t0 d, (forall t, In t (t0 :: ts) -> true_adjoint t /\ affine t) -> chained (t0 :: ts) ->
  let n := t_in (last (t0 :: ts) d) in let off := run_right t_aff (t0 :: ts) (zeros n) in
  (forall x, length x = n -> length (run_right t_lin (t0 :: ts) x) = t_out t0) /\
  (forall u, length u = t_out t0 -> length (run_left t_adj (t0 :: ts) u) = n) /\
  (forall x u, length x = n -> length u = t_out t0 -> dot (run_right t_lin (t0 :: ts) x) u = dot x (run_left t_adj (t0 :: ts) u)) /\
  length off = t_out t0 /\ forall x, length x = n -> run_right t_aff (t0 :: ts) x = vadd (run_right t_lin (t0 :: ts) x) off.
Proof.
  induction ts as [|t1 ts IH]; intros t0 d H Ch; cbv zeta.
  - destruct (H t0 (or_introl eq_refl)) as [(A1 & A2 & A3) [B1 B2]]. cbn. auto.
  - rewrite last_cons2. destruct (H t0 (or_introl eq_refl)) as [A [B1 B2]]. assert (Li := adjoint_linear t0 A). destruct A as (A1 & A2 & A3). destruct Ch as [Ch1 Ch2].
    destruct (IH t1 d (fun t Ht => H t (or_intror Ht)) Ch2) as (I1 & I2 & I3 & I4 & I5). set (n := t_in (last (t1 :: ts) d)) in *.
    assert (Aff : forall v, length v = n -> run_right t_aff (t0 :: t1 :: ts) v = vadd (t_lin t0 (run_right t_lin (t1 :: ts) v)) (vadd (t_lin t0 (run_right t_aff (t1 :: ts) (zeros n))) (t_aff t0 (zeros (t_in t0))))).
    { intros v Lv. change (run_right t_aff (t0 :: t1 :: ts) v) with (t_aff t0 (run_right t_aff (t1 :: ts) v)). assert (L1 := I1 v Lv). rewrite (I5 v Lv), B2 by (rewrite vadd_length; congruence). rewrite (proj1 Li) by congruence.
      assert (length (t_lin t0 (run_right t_lin (t1 :: ts) v)) = t_out t0) by (apply A1; congruence). assert (length (t_lin t0 (run_right t_aff (t1 :: ts) (zeros n))) = t_out t0) by (apply A1; congruence).
      rewrite vadd_assoc by congruence. auto. }
    assert (Lz : length (zeros n) = n) by vlen.
    assert (Z1 : t_lin t0 (run_right t_lin (t1 :: ts) (zeros n)) = zeros (t_out t0)).
    { apply (dot_separates (t_out t0)); [apply A1; rewrite I1; auto|vlen|]. intros u Lu. rewrite A3 by (auto; rewrite I1; auto). rewrite I3 by (auto; rewrite A2; auto). rewrite !dot_zeros_l. auto. }
    assert (Loff : length (vadd (t_lin t0 (run_right t_aff (t1 :: ts) (zeros n))) (t_aff t0 (zeros (t_in t0)))) = t_out t0).
    { rewrite vadd_length; rewrite A1; congruence. }
    assert (Eoff : run_right t_aff (t0 :: t1 :: ts) (zeros n) = vadd (t_lin t0 (run_right t_aff (t1 :: ts) (zeros n))) (t_aff t0 (zeros (t_in t0)))).
    { rewrite (Aff _ Lz), Z1, vadd_comm, vadd_zeros_r; auto. }
    split; [|split; [|split; [|split]]].
    + intros x Lx. change (run_right t_lin (t0 :: t1 :: ts) x) with (t_lin t0 (run_right t_lin (t1 :: ts) x)). apply A1. rewrite I1; auto.
    + intros u Lu. rewrite run_left_adj_cons. apply I2. rewrite A2; auto.
    + intros x u Lx Lu. change (run_right t_lin (t0 :: t1 :: ts) x) with (t_lin t0 (run_right t_lin (t1 :: ts) x)). rewrite run_left_adj_cons, A3 by (auto; rewrite I1; auto). apply I3; auto. rewrite A2; auto.
    + rewrite Eoff. auto.
    + intros x Lx. rewrite Eoff. apply Aff. auto.
Qed.
Lemma good_composition : forall ts T, (forall t, In t ts -> good t) -> chained ts -> composition ts = Ok T -> good T.
Proof.
  intros [|t0 ts] T G Ch E; [discriminate|]. unfold composition in E. apply Ok_inj in E. destruct (compose_props ts t0 t0 (fun t Ht => conj (g_adj t (G t Ht)) (g_aff t (G t Ht))) Ch) as (I1 & I2 & I3 & I4 & I5).
  subst T. split; [split; [|split]| |]; tc; auto; [split; tc; auto|]. intros a Ha. tc. injection Ha as Ha. destruct (negb _); [discriminate|]. injection Ha as <-. auto.
Qed.
(** weighted sums *)
Fixpoint wsum (F : transform -> vec -> vec) (n : nat) (l : list (transform * R)) (x : vec) : vec :=
  match l with [] => zeros n | p :: l' => vadd (wsum F n l' x) (vscal (snd p) (F (fst p) x)) end.
Lemma weighted_wsum : forall F n l x, weighted F n l x = wsum F n l x.
Proof. intros F n l x. unfold weighted. rewrite <- fold_left_rev_right, rev_involutive. induction l as [|p l IH]; cbn; auto. rewrite IH. auto. Qed.
Lemma wsum_length : forall F n l x, (forall p, In p l -> length (F (fst p) x) = n) -> length (wsum F n l x) = n.
Proof. intros F n l x. induction l as [|p l IH]; intros H; cbn [wsum]; [vlen|]. rewrite vadd_length; rewrite IH; auto; try (intros; apply H; right; auto). rewrite vscal_length, H; auto. left; auto. Qed.
Lemma wsum_adjoint : forall n m l x u, (forall p, In p l -> true_adjoint (fst p) /\ t_in (fst p) = n /\ t_out (fst p) = m) -> length x = n -> length u = m ->
  dot (wsum t_lin m l x) u = dot x (wsum t_adj n l u).
Proof.
  intros n m l x u. induction l as [|p l IH]; intros H Lx Lu; cbn [wsum]; [rewrite dot_zeros_l, dot_zeros_r; auto|].
  assert (H' : forall q, In q l -> true_adjoint (fst q) /\ t_in (fst q) = n /\ t_out (fst q) = m) by (intros; apply H; right; auto).
  destruct (H p (or_introl eq_refl)) as ((A1 & A2 & A3) & E1 & E2).
  assert (LL : length (wsum t_lin m l x) = m). { apply wsum_length. intros q Hq. destruct (H' q Hq) as ((B1 & _) & F1 & F2). rewrite B1; congruence. }
  assert (LA : length (wsum t_adj n l u) = n). { apply wsum_length. intros q Hq. destruct (H' q Hq) as ((_ & B2 & _) & F1 & F2). rewrite B2; congruence. }
  assert (L1 : length (t_lin (fst p) x) = m) by (rewrite A1; congruence). assert (L2 : length (t_adj (fst p) u) = n) by (rewrite A2; congruence).
  rewrite dot_add_l, dot_add_r by vlen. rewrite dot_scal_l, dot_scal_r, IH, A3 by (auto; congruence). auto.
Qed.
Lemma vadd_swap4 : forall (a b c d : vec), length a = length b -> length a = length c -> length a = length d -> vadd (vadd a b) (vadd c d) = vadd (vadd a c) (vadd b d).
Proof. induction a as [|p a IH]; intros [|q b] [|r c] [|s d] H1 H2 H3; try discriminate; auto. unfold vadd in *. cbn in *. f_equal; [ring|apply IH; lia]. Qed.
Lemma wsum_affine : forall n m l x, (forall p, In p l -> true_adjoint (fst p) /\ affine (fst p) /\ t_in (fst p) = n /\ t_out (fst p) = m) -> length x = n ->
  length (wsum t_aff m l (zeros n)) = m /\ wsum t_aff m l x = vadd (wsum t_lin m l x) (wsum t_aff m l (zeros n)).
Proof.
  intros n m l x. induction l as [|p l IH]; intros H Lx; cbn [wsum]; [split; [vlen|rewrite vadd_zeros_r; vlen]|].
  assert (H' : forall q, In q l -> true_adjoint (fst q) /\ affine (fst q) /\ t_in (fst q) = n /\ t_out (fst q) = m) by (intros; apply H; right; auto).
  destruct (IH H' Lx) as [I1 I2]. destruct (H p (or_introl eq_refl)) as ((A1 & A2 & A3) & [B1 B2] & E1 & E2). rewrite E1 in *. rewrite E2 in *.
  assert (L1 : length (t_lin (fst p) x) = m) by auto. split; [rewrite vadd_length; vlen|]. rewrite I2, B2 by auto.
  assert (LL : length (wsum t_lin m l x) = m). { apply wsum_length. intros q Hq. destruct (H' q Hq) as ((C1 & _) & _ & F1 & F2). rewrite C1; congruence. }
  rewrite vscal_vadd. set (a := wsum t_lin m l x) in *. set (b := wsum t_aff m l (zeros n)) in *. set (c := vscal (snd p) (t_lin (fst p) x)). set (d := vscal (snd p) (t_aff (fst p) (zeros n))).
  assert (Lc : length c = m) by (unfold c; vlen). assert (Ld : length d = m) by (unfold d; vlen). clearbody a b c d. apply vadd_swap4; congruence.
Qed.
Lemma good_affine_sum : forall ts w T, (forall t, In t ts -> good t) -> (forall t t', In t ts -> In t' ts -> t_in t = t_in t' /\ t_out t = t_out t') -> affine_sum ts w = Ok T -> good T.
Proof.
  intros ts w T G Sh E. unfold affine_sum in E. destruct (negb _) eqn:Eb; [discriminate|]. destruct ts as [|t0 ts]; [discriminate|]. apply Ok_inj in E. set (l := combine _ _) in E.
  assert (H : forall p, In p l -> good (fst p) /\ t_in (fst p) = t_in t0 /\ t_out (fst p) = t_out t0).
  { intros [t r] Hp. apply in_combine_l in Hp. cbn [fst]. split; auto. apply Sh; auto. left; auto. }
  assert (Al : forall x u, length x = t_in t0 -> length u = t_out t0 -> dot (wsum t_lin (t_out t0) l x) u = dot x (wsum t_adj (t_in t0) l u)).
  { intros x u Lx Lu. apply wsum_adjoint; auto. intros p Hp. destruct (H p Hp) as (Gp & E1 & E2). split; auto. apply Gp. }
  assert (Wa : forall x, length x = t_in t0 -> length (wsum t_aff (t_out t0) l (zeros (t_in t0))) = t_out t0 /\ wsum t_aff (t_out t0) l x = vadd (wsum t_lin (t_out t0) l x) (wsum t_aff (t_out t0) l (zeros (t_in t0)))).
  { intros x Lx. apply wsum_affine; auto. intros p Hp. destruct (H p Hp) as (Gp & E1 & E2). split; [apply Gp|]. split; [apply Gp|]. auto. }
  assert (Lz : length (zeros (t_in t0)) = t_in t0) by vlen.
  subst T. split; [split; [|split]| |]; tc.
  - intros x Lx. rewrite weighted_wsum. apply wsum_length. intros p Hp. destruct (H p Hp) as ([(A1 & _) _ _] & E1 & E2). rewrite A1; congruence.
  - intros u Lu. rewrite weighted_wsum. apply wsum_length. intros p Hp. destruct (H p Hp) as ([(_ & A2 & _) _ _] & E1 & E2). rewrite A2; congruence.
  - intros x u Lx Lu. rewrite !weighted_wsum. auto.
  - split; tc; [rewrite weighted_wsum; apply (Wa _ Lz)|]. intros x Lx. rewrite !weighted_wsum. apply (Wa x Lx).
  - intros a Ha. tc. injection Ha as Ha. destruct (allclose0 _); [discriminate|]. injection Ha as <-. rewrite weighted_wsum. apply (Wa _ Lz).
Qed.
Lemma times_vscal : forall c v, times c v = vscal c v.
Proof. intros c v. unfold times. destruct (Req_EM_T c 1) as [->|]; auto. rewrite vscal_1. auto. Qed.
Lemma good_scalar_multiply : forall t c, good t -> good (scalar_multiply t c).
Proof.
  intros t c [(A1 & A2 & A3) [B1 B2] _]. split; [split; [|split]| |]; tc.
  - intros x Lx. rewrite times_vscal, vscal_length; auto.
  - intros x Lx. rewrite times_vscal, vscal_length; auto.
  - intros x u Lx Lu. rewrite !times_vscal, dot_scal_l, dot_scal_r, A3; auto.
  - split; tc; [rewrite times_vscal, vscal_length; auto|]. intros x Lx. rewrite !times_vscal, B2 by auto. apply vscal_vadd.
  - intros a H. discriminate.
Qed.
Lemma good_posneg : forall t, good t -> good (posneg t).
Proof.
  intros t [(A1 & A2 & A3) _ _]. apply good_linear; auto. 
  assert (Sp : forall x : vec, length x = (2 * t_in t)%nat -> length (firstn (t_in t) x) = t_in t /\ length (skipn (t_in t) x) = t_in t) by (intros; apply firstn_skipn_len; lia).
  split; [|split]; tc.
  - intros x Lx. destruct (Sp x Lx). rewrite vsub_length; rewrite !A1; auto.
  - intros u Lu. rewrite app_length, vopp_length, A2; auto. lia.
  - intros x u Lx Lu. destruct (Sp x Lx) as [L1 L2]. assert (LA := A2 u Lu). rewrite dot_sub_l, !A3 by (rewrite ?A1; auto). rewrite <- (firstn_skipn (t_in t) x) at 3. rewrite dot_app by congruence.
    rewrite (dot_comm (skipn _ _) (vopp _)), dot_opp_l, (dot_comm (t_adj t u) (skipn _ _)). ring.
Qed.
Lemma block_columns_form : forall ts T, block_columns ts = Ok T -> (forall t, In t ts -> t_in t = t_in (hd T ts)) /\ T = mk_transform (blocks t_lin t_in ts) (blocks t_aff t_in ts) (blocks t_adj t_out ts) None (list_sum (map t_in ts)) (list_sum (map t_out ts)).
Proof.
  intros [|t0 ts] T E; [discriminate|]. unfold block_columns in E. destruct (forallb _ _) eqn:Ef; [|discriminate]. apply Ok_inj in E. subst T.
  assert (H : forall t, In t (t0 :: ts) -> t_in t = t_in t0) by (intros t Ht; rewrite forallb_forall in Ef; apply Nat.eqb_eq; auto). split; auto. f_equal.
  clear Ef. revert H. generalize (t0 :: ts). induction l as [|t l IH]; intros H; auto. cbn [length map list_sum fold_right]. simpl. rewrite (H t (or_introl eq_refl)). f_equal. apply IH. intros; apply H; right; auto.
Qed.
Lemma good_blocks : forall ts o, (forall t, In t ts -> good t) -> o = None \/ o = Some None -> good (mk_transform (blocks t_lin t_in ts) (blocks t_aff t_in ts) (blocks t_adj t_out ts) o (list_sum (map t_in ts)) (list_sum (map t_out ts))).
Proof.
  intros ts o G Ho. split.
  - destruct (blocks_good ts (fun t Ht => g_adj t (G t Ht)) (blocks t_aff t_in ts) o (list_sum (map t_out ts)) _ eq_refl); auto. congruence.
  - assert (H : forall t, In t ts -> true_adjoint t /\ affine t) by (intros t Ht; split; apply (G t Ht)). split; tc; rewrite blocks_zeros; [apply concat_len; intros t Ht; apply (H t Ht)|]. intros x Lx. apply blocks_affine; auto.
  - intros a Ha. tc. destruct Ho; congruence.
Qed.
Lemma good_block_columns : forall ts T, (forall t, In t ts -> good t) -> block_columns ts = Ok T -> good T.
Proof. intros ts T G E. apply block_columns_form in E. destruct E as [_ ->]. apply good_blocks; auto. Qed.
Lemma blocks_adj_adjoint : forall ts x, blocks t_adj t_out (map adjoint ts) x = blocks t_lin t_in ts x.
Proof. induction ts as [|t ts IH]; intros x; cbn; auto. rewrite IH. auto. Qed.
Lemma blocks_lin_adjoint : forall ts x, blocks t_lin t_in (map adjoint ts) x = blocks t_adj t_out ts x.
Proof. induction ts as [|t ts IH]; intros x; cbn; auto. rewrite IH. auto. Qed.
Lemma good_block_rows : forall ts T, (forall t, In t ts -> good t) -> block_rows ts = Ok T -> good T.
Proof.
  intros ts T G E. unfold block_rows in E. destruct (block_columns (map adjoint ts)) as [b|e] eqn:Eb; [|discriminate]. cbn [rbind] in E. apply block_columns_form in Eb. destruct Eb as [_ Eb].
  destruct ts as [|t0 ts]; [discriminate|]. destruct (forallb _ _) eqn:Ef; [|discriminate]. apply Ok_inj in E. set (l := t0 :: ts) in *.
  assert (Lo : (length l * t_out t0)%nat = list_sum (map t_out l)).
  { assert (H : forall t, In t l -> t_out t = t_out t0) by (intros t Ht; rewrite forallb_forall in Ef; apply Nat.eqb_eq; auto). clear - H. clearbody l. induction l as [|t l IH]; auto. simpl. rewrite (H t (or_introl eq_refl)). f_equal. apply IH. intros; apply H; right; auto. }
  assert (A : true_adjoint T).
  { rewrite <- E, Lo, Eb. tc. destruct (blocks_good l (fun t Ht => g_adj t (G t Ht)) (t_aff T) None (list_sum (map t_out l)) _ eq_refl) as [(A1 & A2 & A3)|A]; [|congruence].
    split; [|split]; tc; intros; rewrite ?blocks_adj_adjoint, ?blocks_lin_adjoint; auto. }
  assert (Z := lin_zero T A). split; auto.
  - rewrite <- E in *. tc. assert (Lf : length (concat (map (fun t => t_aff t (zeros (t_in t))) l)) = (length l * t_out t0)%nat) by (rewrite Lo; apply concat_len; intros t Ht; apply (G t Ht)).
    split; tc; rewrite Z; [rewrite vadd_length; vlen|]. intros x Lx. rewrite (vadd_comm (zeros _)), (vadd_zeros_r (concat _)); auto.
  - intros a Ha. rewrite <- E in Ha. discriminate.
Qed.

(** ** Everything that can be built *)
Theorem built_good : forall t, built t -> good t.
Proof.
  induction 1.
  - apply good_matrix; auto.
  - apply good_diagonal; auto.
  - apply (good_id (length a) _ (Some a)); auto. intros b Hb. injection Hb as <-. auto.
  - apply good_wrap; auto.
  - eapply good_selector; eauto.
  - apply good_linear; auto. split; [|split]; unfold scaler; tc; [intros; vlen|intros; vlen|intros; apply dot_vmul_move].
  - apply good_linear; auto. split; [|split]; unfold reshape; tc; auto.
  - apply good_add_intercept; auto.
  - apply good_linear; auto. apply adj_centering.
  - apply (good_id n _ None); auto. discriminate.
  - eapply good_vstack; eauto.
  - eapply good_hstack; eauto.
  - apply good_product; auto.
  - apply good_aslinear; auto.
  - apply good_adjoint; auto.
  - eapply good_tensorize; eauto. intros o' x E. tc. injection E as <-. auto.
  - eapply good_tensorize; eauto. intros o' x E. tc. injection E as <-. auto.
  - eapply good_residual; eauto.
  - eapply good_composition; eauto.
  - eapply good_affine_sum; eauto.
  - apply good_scalar_multiply; auto.
  - apply good_posneg; auto.
  - eapply good_block_columns; eauto.
  - eapply good_block_rows; eauto.
Qed.

(** Fenchel conjugacy of the paired seminorm classes, and atom.conjugate. *)
From Coq Require Import Reals List Lra Lia Psatz Bool.
From Verif Require Import Vec Spec M_quad M_prox M_semi SpecAtom P_quad P_pl P_prox P_feas P_semi.
Import ListNotations.
Local Open Scope R_scope.

(** ** Basic facts of the documented functions *)

Lemma doc_nonneg : forall c x r, doc_seminorm c x = Fin r -> 0 <= r.
Proof.
  intros c x r H. destruct c; simpl in H; try (destruct (nonneg_dec x); [|discriminate]); injection H as <-;
   auto using ell1_nonneg, ellinf_nonneg, sum_pos_nonneg, max_pos_nonneg.
  rewrite ell2_norm. apply norm_nonneg.
Qed.

Lemma ell1_scal : forall t x, ell1 (vscal t x) = Rabs t * ell1 x.
Proof.
  intros t. induction x as [|a x IH]; [unfold ell1; simpl; lra|]. unfold vscal in *. cbn [map]. rewrite !ell1_cons, IH, Rabs_mult. lra.
Qed.
Lemma sum_pos_scal : forall t x, 0 <= t -> sum_pos (vscal t x) = t * sum_pos x.
Proof.
  intros t x Ht. induction x as [|a x IH]; [unfold sum_pos; simpl; lra|]. unfold vscal in *. cbn [map]. rewrite !sum_pos_cons, IH.
  assert (pos (t * a) = t * pos a). { scal. } lra.
Qed.
Lemma max_pos_scal : forall t x, 0 <= t -> max_pos (vscal t x) = t * max_pos x.
Proof.
  intros t x Ht. unfold max_pos. induction x as [|a x IH]; [simpl; lra|]. simpl. fold (vscal t x). rewrite IH.
  unfold Rmax. destruct (Rle_dec a (max_list 0 x)), (Rle_dec (t * a) (t * max_list 0 x)); auto; nra.
Qed.
Lemma ellinf_max_pos : forall x, ellinf x = max_pos (vabs x).
Proof. reflexivity. Qed.
Lemma ellinf_scal : forall t x, 0 <= t -> ellinf (vscal t x) = t * ellinf x.
Proof.
  intros t x Ht. rewrite !ellinf_max_pos, <- max_pos_scal by auto. f_equal. unfold vabs, vscal. rewrite !map_map.
  apply map_ext. intros. rewrite Rabs_mult, (Rabs_right t); lra.
Qed.
Lemma all_nonneg_scal : forall t x, 0 <= t -> all_nonneg x -> all_nonneg (vscal t x).
Proof. intros t x Ht H. apply Forall_map. eapply Forall_impl; [|exact H]. simpl. intros. nra. Qed.

Lemma doc_scal : forall c t x r, 0 <= t -> doc_seminorm c x = Fin r -> doc_seminorm c (vscal t x) = Fin (t * r).
Proof.
  intros c t x r Ht H. destruct c; simpl in *.
  - injection H as <-. rewrite ell1_scal, Rabs_right; auto; lra.
  - injection H as <-. rewrite ellinf_scal; auto.
  - injection H as <-. rewrite !ell2_norm, norm_scal, Rabs_right; auto; lra.
  - injection H as <-. rewrite sum_pos_scal; auto.
  - destruct (nonneg_dec x); [|discriminate]. injection H as <-.
    destruct (nonneg_dec (vscal t x)) as [|C]; [rewrite ellinf_scal; auto|destruct C; apply all_nonneg_scal; auto].
  - destruct (nonneg_dec x); [|discriminate]. injection H as <-.
    destruct (nonneg_dec (vscal t x)) as [|C]; [rewrite ell1_scal, Rabs_right; auto; lra|destruct C; apply all_nonneg_scal; auto].
  - injection H as <-. rewrite max_pos_scal; auto.
Qed.

Lemma zeros_nonneg : forall n, all_nonneg (zeros n).
Proof. intros. unfold zeros. induction n; simpl; constructor; auto; lra. Qed.
Lemma doc_zero : forall c n, doc_seminorm c (zeros n) = Fin 0.
Proof.
  intros c n.
  assert (H1 : ell1 (zeros n) = 0). { rewrite <- (vscal_zeros 0), ell1_scal, Rabs_R0. lra. }
  assert (H2 : ellinf (zeros n) = 0). { rewrite <- (vscal_zeros 0), ellinf_scal; lra. }
  assert (H3 : sum_pos (zeros n) = 0). { rewrite <- (vscal_zeros 0), sum_pos_scal; lra. }
  assert (H4 : max_pos (zeros n) = 0). { rewrite <- (vscal_zeros 0), max_pos_scal; lra. }
  destruct c; simpl; rewrite ?ell2_norm, ?norm_zeros, ?H1, ?H2, ?H3, ?H4; auto;
  destruct (nonneg_dec (zeros n)) as [|C]; auto; destruct C; apply zeros_nonneg.
Qed.

(** ** Hoelder-type inequalities *)

Lemma dot_le_sum : forall (P Q : R -> Prop) (k : R -> R) x v, length x = length v ->
  Forall P x -> Forall Q v -> (forall a b, P a -> Q b -> a * b <= k a) -> dot x v <= vsum (map k x).
Proof.
  intros P Q k x v H HP HQ Hk. revert HP HQ. pattern x, v. apply vec_ind2; auto.
  - intros. unfold dot. simpl. lra.
  - intros a b x' v' _ IH HP HQ. pose proof (Forall_inv HP). pose proof (Forall_inv HQ). rewrite dot_cons. cbn [map]. rewrite vsum_cons.
    specialize (IH (Forall_inv_tail HP) (Forall_inv_tail HQ)). specialize (Hk a b H0 H1). lra.
Qed.

Lemma holder : forall c x v r s, length x = length v -> doc_seminorm c x = Fin r ->
  doc_seminorm (pair_class c) v = Fin s -> dot x v <= r * s.
Proof.
  assert (A : forall x v, length x = length v -> dot x v <= ell1 x * ellinf v).
  { intros x v H. rewrite Rmult_comm. unfold ell1. rewrite <- vsum_map_scale.
    apply dot_le_sum with (P := fun _ => True) (Q := fun b => Rabs b <= ellinf v); auto using Forall_True, ellinf_ge.
    intros a b _ Hb. eapply Rle_trans; [apply Rle_abs|]. rewrite Rabs_mult, Rmult_comm. apply Rmult_le_compat_r; auto. apply Rabs_pos. }
  assert (B : forall x v, length x = length v -> all_nonneg v -> dot x v <= sum_pos x * ellinf v).
  { intros x v H Hv. rewrite Rmult_comm. unfold sum_pos. rewrite <- vsum_map_scale.
    apply dot_le_sum with (P := fun _ => True) (Q := fun b => 0 <= b <= ellinf v); auto using Forall_True.
    - pose proof (ellinf_ge v) as G. unfold all_nonneg in Hv. rewrite Forall_forall in *. intros b Hb. specialize (Hv b Hb). specialize (G b Hb).
      simpl in G. pose proof (Rle_abs b). lra.
    - intros a b _ Hb. scal. }
  assert (C : forall x v, length x = length v -> all_nonneg x -> dot x v <= ell1 x * max_pos v).
  { intros x v H Hx. rewrite Rmult_comm. unfold ell1. rewrite <- vsum_map_scale.
    apply dot_le_sum with (P := fun a => 0 <= a) (Q := fun b => b <= max_pos v); auto using max_pos_ge.
    intros a b Ha Hb. rewrite Rabs_right by lra. rewrite Rmult_comm. apply Rmult_le_compat_r; auto. }
  intros c x v r s H Hx Hv. destruct c; simpl in Hx, Hv.
  - injection Hx as <-. injection Hv as <-. auto.
  - injection Hx as <-. injection Hv as <-. rewrite dot_comm, Rmult_comm. auto.
  - injection Hx as <-. injection Hv as <-. rewrite !ell2_norm. apply cauchy_schwarz. auto.
  - destruct (nonneg_dec v); [|discriminate]. injection Hx as <-. injection Hv as <-. auto.
  - destruct (nonneg_dec x); [|discriminate]. injection Hx as <-. injection Hv as <-. rewrite dot_comm, Rmult_comm. auto.
  - destruct (nonneg_dec x); [|discriminate]. injection Hx as <-. injection Hv as <-. auto.
  - destruct (nonneg_dec v); [|discriminate]. injection Hx as <-. injection Hv as <-. rewrite dot_comm, Rmult_comm. auto.
Qed.

(** ** Attainment *)

Lemma spike : forall x a k, In a x -> exists v, length v = length x /\ dot x v = a * k /\ ell1 v = Rabs k /\
  sum_pos v = pos k /\ max_pos v = pos k /\ (0 <= k -> all_nonneg v) /\ ellinf v = Rabs k.
Proof.
  induction x as [|b x IH]; intros a k Ha; [destruct Ha|]. destruct Ha as [-> |Ha].
  - exists (k :: zeros (length x)). pose proof (doc_zero CL1 (length x)) as D1. pose proof (doc_zero CPosPart (length x)) as D2.
    pose proof (doc_zero CMaxPos (length x)) as D3. pose proof (doc_zero CSup (length x)) as D4. simpl in D1, D2, D3, D4.
    injection D1 as D1. injection D2 as D2. injection D3 as D3. injection D4 as D4.
    split; [simpl; vlen|]. split; [rewrite dot_cons, dot_zeros_r; lra|].
    split; [rewrite ell1_cons, D1; lra|]. split; [rewrite sum_pos_cons, D2; lra|].
    split. { unfold max_pos in *. simpl. rewrite D3. auto. }
    split. { intros. constructor; auto. apply zeros_nonneg. }
    unfold ellinf in *. simpl. rewrite D4. apply Rmax_left. apply Rabs_pos.
  - destruct (IH a k Ha) as (v & H1 & H2 & H3 & H4 & H5 & H6 & H7). exists (0 :: v).
    split; [simpl; auto|]. split; [rewrite dot_cons; lra|].
    split; [rewrite ell1_cons, Rabs_R0; lra|]. split; [rewrite sum_pos_cons, (pos_of_nonpos 0); lra|].
    split. { unfold max_pos in *. simpl. rewrite H5. apply Rmax_right. apply pos_nonneg. }
    split. { intros. constructor; [lra|apply H6; auto]. }
    unfold ellinf in *. simpl. rewrite H7, Rabs_R0. apply Rmax_right. apply Rabs_pos.
Qed.

Lemma max_list_in : forall x d, max_list d x = d \/ In (max_list d x) x.
Proof.
  induction x as [|a x IH]; intros d; simpl; auto. unfold Rmax. destruct (Rle_dec a (max_list d x)); auto.
  destruct (IH d); auto.
Qed.

Lemma neg_entry : forall x, ~ all_nonneg x -> exists a, In a x /\ a < 0.
Proof.
  intros x H. induction x as [|a x IH]; [destruct H; constructor|].
  destruct (Rlt_dec a 0); [exists a; simpl; auto|]. destruct IH as (b & Hb & Hn).
  { intros C. apply H. constructor; auto; lra. } exists b. simpl. auto.
Qed.

(** a vector built coordinatewise that attains a sum *)
Lemma dot_map_r : forall (f : R -> R) x, dot x (map f x) = vsum (map (fun a => a * f a) x).
Proof. intros f. induction x as [|a x IH]; auto. cbn [map]. rewrite dot_cons, vsum_cons, IH. auto. Qed.

Lemma attain : forall c x, match doc_seminorm c x with
  | Fin r => exists v s, length v = length x /\ doc_seminorm (pair_class c) v = Fin s /\ s <= 1 /\ dot x v = r
  | PInf => exists v, length v = length x /\ doc_seminorm (pair_class c) v = Fin 0 /\ 0 < dot x v
  end.
Proof.
  intros c x. destruct c; cbn [doc_seminorm pair_class].
  - exists (map sgn x). eexists. split; [vlen|]. split; [reflexivity|]. split.
    + apply ellinf_le; [lra|]. apply Forall_map, Forall_forall. intros. scal.
    + rewrite dot_map_r. unfold ell1. f_equal. apply map_ext. intros. scal.
  - unfold ellinf. destruct (max_list_in (map Rabs x) 0) as [E|E].
    + exists (zeros (length x)), 0. split; [vlen|]. split; [apply (doc_zero CL1)|]. split; [lra|].
      rewrite dot_zeros_r. auto.
    + apply in_map_iff in E. destruct E as (a & Ea & Ha). destruct (spike x a (sgn a) Ha) as (v & H1 & H2 & H3 & _).
      exists v. eexists. split; auto. split; [reflexivity|]. rewrite H3, H2, <- Ea. split; scal.
  - destruct (Req_dec (norm x) 0) as [E|E].
    + exists (zeros (length x)), 0. split; [vlen|]. split; [apply (doc_zero CL2)|]. split; [lra|].
      rewrite dot_zeros_r, ell2_norm. auto.
    + pose proof (norm_nonneg x). exists (vscal (/ norm x) x). eexists. split; [vlen|]. split; [reflexivity|].
      rewrite !ell2_norm, norm_scal, dot_scal_r. fold (sqn x). rewrite <- norm_sq. rewrite Rabs_right.
      * split; [right|]; field; auto.
      * apply Rle_ge. left. apply Rinv_0_lt_compat. lra.
  - set (v := map (fun a => if Rlt_dec 0 a then 1 else 0) x).
    assert (N : all_nonneg v). { apply nonneg_map. intros. destruct (Rlt_dec 0 a); lra. }
    exists v. destruct (nonneg_dec v); [|tauto]. eexists. split; [unfold v; vlen|]. split; [reflexivity|]. split.
    + apply ellinf_le; [lra|]. apply Forall_map, Forall_forall. intros. scal.
    + unfold v. rewrite dot_map_r. unfold sum_pos. f_equal. apply map_ext. intros. scal.
  - destruct (nonneg_dec x) as [N|N].
    + unfold ellinf. destruct (max_list_in (map Rabs x) 0) as [E|E].
      * exists (zeros (length x)), 0. split; [vlen|]. split; [apply (doc_zero CPosPart)|]. split; [lra|].
        rewrite dot_zeros_r. auto.
      * apply in_map_iff in E. destruct E as (a & Ea & Ha). destruct (spike x a 1 Ha) as (v & H1 & H2 & _ & H3 & _).
        exists v. eexists. split; auto. split; [reflexivity|]. rewrite H3, H2, <- Ea.
        unfold all_nonneg in N. rewrite Forall_forall in N. specialize (N a Ha). simpl in N. split; scal.
    + apply neg_entry in N. destruct N as (a & Ha & Hn). destruct (spike x a (-1) Ha) as (v & H1 & H2 & _ & H3 & _).
      exists v. split; auto. rewrite H3, H2. split; [f_equal; scal|lra].
  - destruct (nonneg_dec x) as [N|N].
    + exists (map (fun _ => 1) x). eexists. split; [vlen|]. split; [reflexivity|]. split.
      * apply max_pos_le; [lra|]. apply Forall_map, Forall_forall. intros; lra.
      * rewrite dot_map_r, ell1_of_nonneg by auto. f_equal. rewrite <- (map_id x) at 2. apply map_ext. intros; lra.
    + apply neg_entry in N. destruct N as (a & Ha & Hn). destruct (spike x a (-1) Ha) as (v & H1 & H2 & _ & _ & H3 & _).
      exists v. split; auto. rewrite H3, H2. split; [f_equal; scal|lra].
  - unfold max_pos. destruct (max_list_in x 0) as [E|E].
    + exists (zeros (length x)), 0. split; [vlen|]. split; [apply (doc_zero CConPosPart)|]. split; [lra|].
      rewrite dot_zeros_r. auto.
    + destruct (spike x _ 1 E) as (v & H1 & H2 & H3 & _ & _ & H6 & _). exists v.
      destruct (nonneg_dec v) as [|C]; [|destruct C; apply H6; lra]. eexists. split; auto. split; [reflexivity|].
      rewrite H2, H3. split; [scal|]. lra.
Qed.

Lemma pair_invol : forall c, pair_class (pair_class c) = c.
Proof. destruct c; auto. Qed.


(** Unbounded above along a ray. *)
Lemma ray_unbounded : forall n (F : vec -> ext) u (x : vec) (rho slope : R), length x = n ->
  (forall t, 0 <= t -> exists r, F (vscal t x) = Fin r /\ r <= t * rho) -> dot u x - rho = slope -> 0 < slope ->
  is_fenchel n F u PInf.
Proof.
  intros n F u x rho slope Hx HF Hs Hp M.
  set (t := (Rabs M + 1) / slope).
  assert (Ht : 0 <= t). { apply Rmult_le_pos; [pose proof (Rabs_pos M); lra|]. left. apply Rinv_0_lt_compat. auto. }
  destruct (HF t Ht) as (r & Er & Hr). exists (vscal t x), r. split; [vlen|]. split; auto.
  rewrite dot_scal_r. assert (t * slope = Rabs M + 1) by (unfold t; field; lra). pose proof (Rle_abs M). nra.
Qed.

Theorem mode_fenchel : forall c m n u, length u = n -> mode_ok m ->
  is_fenchel n (mode_fun c m) u (mode_fun (pair_class c) (dual_mode m) u).
Proof.
  intros c m n u Hu Hm. pose proof (attain (pair_class c) u) as At. rewrite pair_invol in At.
  destruct m as [lam|b]; simpl in Hm; cbn [dual_mode mode_fun].
  - destruct (doc_seminorm (pair_class c) u) as [s|] eqn:Es.
    + pose proof (doc_nonneg _ _ _ Es) as Hs0. destruct (Rle_dec s lam) as [Hs|Hs].
      * split.
        -- intros x r Hx Hr. unfold mode_fun in Hr. destruct (doc_seminorm c x) as [r'|] eqn:Ex; [|discriminate]. simpl in Hr. injection Hr as <-.
           pose proof (holder c x u r' s ltac:(congruence) Ex Es). pose proof (doc_nonneg _ _ _ Ex). rewrite dot_comm. nra.
        -- intros e He. exists (zeros n), 0. split; [vlen|]. unfold mode_fun. rewrite doc_zero. simpl. split; [f_equal; lra|]. rewrite dot_zeros_r. lra.
      * destruct At as (x & r & Lx & Ex & Hr & Hd).
        apply ray_unbounded with (x := x) (rho := lam) (slope := s - lam); try congruence; try lra.
        intros t Ht. unfold mode_fun. rewrite (doc_scal c t x r) by auto. simpl. eexists. split; [reflexivity|].
        assert (0 <= lam * t) by nra. nra.
    + destruct At as (x & Lx & Ex & Hd).
      apply ray_unbounded with (x := x) (rho := 0) (slope := dot u x); try congruence; try lra.
      intros t Ht. unfold mode_fun. rewrite (doc_scal c t x 0) by auto. simpl. eexists. split; [reflexivity|]. lra.
  - destruct (doc_seminorm (pair_class c) u) as [s|] eqn:Es; cbn [ext_scale].
    + pose proof (doc_nonneg _ _ _ Es) as Hs0. split.
      * intros x r Hx Hr. unfold mode_fun in Hr. destruct (doc_seminorm c x) as [r'|] eqn:Ex; [|discriminate]. destruct (Rle_dec r' b); [|discriminate].
        injection Hr as <-. pose proof (holder c x u r' s ltac:(congruence) Ex Es). rewrite dot_comm.
        assert (r' * s <= b * s) by (apply Rmult_le_compat_r; auto). lra.
      * intros e He. destruct At as (x & r & Lx & Ex & Hr & Hd). exists (vscal b x), 0. split; [vlen|].
        unfold mode_fun. rewrite (doc_scal c b x r) by auto. split.
        -- destruct (Rle_dec (b * r) b) as [|C]; auto. destruct C. nra.
        -- rewrite dot_scal_r, Hd. lra.
    + destruct At as (x & Lx & Ex & Hd).
      apply ray_unbounded with (x := x) (rho := 0) (slope := dot u x); try congruence; try lra.
      intros t Ht. unfold mode_fun. rewrite (doc_scal c t x 0) by auto. exists 0. rewrite Rmult_0_r. destruct (Rle_dec 0 b); [|exfalso; lra]. split; [reflexivity|]. lra.
Qed.

(** Conjugate of a shifted function plus an affine term. *)
Lemma fenchel_shift : forall n (F : vec -> ext) u a eta gamma s, length u = n -> length a = n -> length eta = n ->
  is_fenchel n F (vsub u eta) s ->
  is_fenchel n (fun x => ext_add (F (vsub x a)) (Fin (dot eta x + gamma))) u
    (ext_add s (Fin (dot a u - dot eta a - gamma))).
Proof.
  intros n F u a eta gamma s Hu Ha He HF.
  assert (K : forall x, length x = n -> dot u x - (dot eta x) = dot (vsub u eta) (vsub x a) + dot a u - dot eta a).
  { intros x Hx. rewrite dot_sub_l, !dot_sub_r by vlen. rewrite (dot_comm a u). lra. }
  destruct s as [s|]; simpl in *.
  - destruct HF as [H1 H2]. split.
    + intros x r Hx Hr. destruct (F (vsub x a)) as [r'|] eqn:E; [|discriminate]. simpl in Hr. injection Hr as <-.
      specialize (H1 (vsub x a) r' ltac:(vlen) E). specialize (K x Hx). lra.
    + intros e Hep. destruct (H2 e Hep) as (x & r & Hx & Er & Hlt). exists (vadd x a). eexists. split; [vlen|].
      rewrite vsub_vadd by congruence. rewrite Er. simpl. split; [reflexivity|].
      specialize (K (vadd x a) ltac:(vlen)). rewrite vsub_vadd in K by congruence. lra.
  - intros M. destruct (HF (M - (dot a u - dot eta a - gamma))) as (x & r & Hx & Er & Hlt).
    exists (vadd x a). eexists. split; [vlen|]. rewrite vsub_vadd by congruence. rewrite Er. simpl. split; [reflexivity|].
    specialize (K (vadd x a) ltac:(vlen)). rewrite vsub_vadd in K by congruence. lra.
Qed.

Lemma is_fenchel_ext : forall n F G u s, (forall x, length x = n -> F x = G x) -> is_fenchel n F u s -> is_fenchel n G u s.
Proof.
  intros n F G u s H HF. destruct s as [s|]; simpl in *.
  - destruct HF as [H1 H2]. split.
    + intros x r Hx Hr. rewrite <- H in Hr by auto. eauto.
    + intros e He. destruct (H2 e He) as (x & r & Hx & Er & Hl). exists x, r. rewrite <- H by auto. auto.
  - intros M. destruct (HF M) as (x & r & Hx & Er & Hl). exists x, r. rewrite <- H by auto. auto.
Qed.

(** The function an atom object denotes. *)

Lemma atom_off_length : forall n a, atom_wf n a -> length (atom_off n a) = n.
Proof. intros n a (_ & H & _). unfold atom_off. destruct (a_offset a) as [o|]; simpl; [apply H; auto|vlen]. Qed.

Lemma fsum_prod_eq : forall n o l, (forall v, o = Some v -> length v = n) -> fshape n l ->
  fsum_prod o l = dot (fbcast n l) (off_vec n o).
Proof.
  intros n [o|] l Ho Hl; simpl.
  - specialize (Ho o eq_refl). rewrite dot_comm. destruct l as [|c|v]; simpl.
    + rewrite dot_zeros_r. clear. induction o; [auto|]. cbn [map]. rewrite vsum_cons, IHo. lra.
    + rewrite <- Ho, dot_comm, <- sum_const_mul. f_equal. apply map_ext. intros; lra.
    + reflexivity.
  - rewrite dot_zeros_r. destruct l as [|c|v]; auto. rewrite vsum_map_scale. lra.
Qed.

Lemma vsub_const : forall n c x, length x = n -> vsub x (const_vec n c) = map (fun t => t - c) x.
Proof. intros n c x <-. symmetry. apply map_minus_const. Qed.

Lemma conj_form : forall n a m, atom_wf n a -> mode_ok m -> atom_mode a m -> coef (a_quadratic a) = 0 ->
  exists d, get_conjugate a = Ok d /\ klass d = pair_class (klass a) /\ atom_mode d (dual_mode m) /\ atom_wf n d /\
    atom_off n d = fbcast n (linear_term (a_quadratic a)) /\
    fbcast n (linear_term (a_quadratic d)) = atom_off n a /\ coef (a_quadratic d) = 0 /\
    constant_term (a_quadratic d) = - constant_term (a_quadratic a) - dot (fbcast n (linear_term (a_quadratic a))) (atom_off n a).
Proof.
  intros n a m Hwf Hm [Hl Hb] Hc. destruct Hwf as (Hs & Ho & Hq1 & Hq2).
  assert (Hov : forall v, a_offset a = Some v -> length v = n) by (intros; apply Ho; auto).
  unfold get_conjugate. destruct (Req_EM_T (coef (a_quadratic a)) 0); [|tauto].
  unfold work_out_conjugate.
  set (o := match linear_term (a_quadratic a) with FNone => None | FScal c => Some (const_vec (shape a) c) | FVec v => Some v end).
  set (oq := mk_iq _ _ _ _).
  exists (mk_atom (pair_class (klass a)) (shape a) (lag_of (dual_mode m)) (bnd_of (dual_mode m)) (fresh_offset o) oq).
  assert (Lo : forall v, o = Some v -> length v = n).
  { unfold o. intros v. destruct (linear_term (a_quadratic a)) as [|c|l]; intros E; try discriminate; injection E as <-; auto.
    rewrite const_vec_length. auto. }
  assert (Eo : off_vec n (fresh_offset o) = fbcast n (linear_term (a_quadratic a))).
  { assert (E0 : off_vec n o = fbcast n (linear_term (a_quadratic a))).
    { unfold o. destruct (linear_term (a_quadratic a)); simpl; auto. rewrite Hs. auto. }
    rewrite <- E0. unfold fresh_offset. destruct o as [v|]; auto. destruct (all_zero v) eqn:E; auto.
    simpl. apply all_zero_spec in E. rewrite (Lo v eq_refl) in E. auto. }
  split; [|split; [|split; [|split; [|split; [|split; [|split]]]]]].
  - rewrite Hl, Hb. unfold new_atom. destruct m as [l|b]; simpl in *; destruct (Rlt_dec _ 0); try lra; auto.
  - reflexivity.
  - split; reflexivity.
  - split; [auto|]. split.
    + simpl. intros v Hv. unfold fresh_offset in Hv. destruct o as [w|]; [|discriminate].
      destruct (all_zero w) eqn:E; [discriminate|]. injection Hv as <-. split; [auto|]. intros C.
      assert (all_zero w = true) by (rewrite C; apply all_zero_zeros). congruence.
    + split; simpl; auto. destruct (a_offset a) as [v|] eqn:E; simpl; auto.
  - exact Eo.
  - unfold atom_off. simpl. destruct (a_offset a); simpl; auto.
  - reflexivity.
  - simpl. f_equal. rewrite (fsum_prod_eq n) by auto. auto.
Qed.

Lemma atom_doc_coef0 : forall n a m v, coef (a_quadratic a) = 0 ->
  atom_doc n a m v = ext_add (mode_fun (klass a) m (vsub v (atom_off n a)))
    (Fin (dot (fbcast n (linear_term (a_quadratic a))) v + constant_term (a_quadratic a))).
Proof.
  intros n a m v H. unfold atom_doc, doc_objective, quad_fun. rewrite H. f_equal. f_equal. lra.
Qed.

Theorem conjugate_correct : forall n a m, atom_wf n a -> mode_ok m -> atom_mode a m -> coef (a_quadratic a) = 0 ->
  exists d, get_conjugate a = Ok d /\ klass d = pair_class (klass a) /\ atom_mode d (dual_mode m) /\ atom_wf n d /\
    forall u, length u = n -> is_fenchel n (atom_doc n a m) u (atom_doc n d (dual_mode m) u).
Proof.
  intros n a m Hwf Hm Hmode Hc.
  destruct (conj_form n a m Hwf Hm Hmode Hc) as (d & E & Ek & Em & Ewf & Eoff & Elin & Ecoef & Econst).
  exists d. repeat (split; [assumption|]). intros u Hu.
  pose proof (atom_off_length n a Hwf) as La.
  assert (Le : length (fbcast n (linear_term (a_quadratic a))) = n).
  { apply fbcast_length. destruct Hwf as (_ & _ & _ & H). auto. }
  rewrite atom_doc_coef0 by auto. rewrite Eoff, Elin, Econst, Ek.
  eapply is_fenchel_ext; [intros x Hx; symmetry; apply atom_doc_coef0; auto|].
  replace (dot (atom_off n a) u + (- constant_term (a_quadratic a) - dot (fbcast n (linear_term (a_quadratic a))) (atom_off n a)))
    with (dot (atom_off n a) u - dot (fbcast n (linear_term (a_quadratic a))) (atom_off n a) - constant_term (a_quadratic a)) by lra.
  apply fenchel_shift; auto. apply mode_fenchel; auto. vlen.
Qed.

Theorem double_conjugate_correct : forall n a m, atom_wf n a -> mode_ok m -> atom_mode a m -> coef (a_quadratic a) = 0 ->
  exists d e, get_conjugate a = Ok d /\ get_conjugate d = Ok e /\ klass e = klass a /\ atom_mode e m /\ atom_eq e a = true /\
    forall v, length v = n -> atom_doc n e m v = atom_doc n a m v.
Proof.
  intros n a m Hwf Hm Hmode Hc.
  destruct (conj_form n a m Hwf Hm Hmode Hc) as (d & E & Ek & Em & Ewf & Eoff & Elin & Ecoef & Econst).
  assert (Hm' : mode_ok (dual_mode m)) by (destruct m; auto).
  destruct (conj_form n d (dual_mode m) Ewf Hm' Em Ecoef) as (e & E' & Ek' & Em' & Ewf' & Eoff' & Elin' & Ecoef' & Econst').
  assert (Edm : dual_mode (dual_mode m) = m) by (destruct m; auto). rewrite Edm in Em'.
  exists d, e. split; auto. split; auto.
  assert (K : klass e = klass a) by (rewrite Ek', Ek; apply pair_invol).
  split; auto. split; auto. split.
  - unfold atom_eq. rewrite K. replace (class_eqb (klass a) (klass a)) with true by (destruct (klass a); auto).
    destruct Em' as [H1 H2]. destruct Hmode as [H3 H4]. rewrite H1, H2, H3, H4. destruct m; simpl; destruct (Req_EM_T _ _); tauto.
  - intros v Hv. rewrite !atom_doc_coef0 by auto. rewrite K, Eoff', Elin', Econst', Elin, Eoff, Econst.
    f_equal. f_equal. rewrite (dot_comm (atom_off n a)). lra.
Qed.

(** ** nonsmooth_objective *)
Lemma q_func_doc : forall n q x, q_shape n q -> length x = n ->
  q_func q x = quad_fun (coef q) (fbcast n (center q)) (fbcast n (linear_term q)) (constant_term q) x.
Proof. intros. apply (q_func_eq n); auto. Qed.

Lemma apply_offset_eq : forall n a x, atom_wf n a -> length x = n -> apply_offset a x = vsub x (atom_off n a).
Proof.
  intros n a x H Hx. unfold apply_offset, atom_off. destruct (a_offset a); simpl; auto. rewrite vsub_zeros_r; auto.
Qed.

Theorem nonsmooth_objective_lagrange : forall n a lam x chk, (1 <= n)%nat -> atom_wf n a -> atom_mode a (Lagrange lam) -> length x = n ->
  klass a <> CConMax -> klass a <> CConPosPart ->
  nonsmooth_objective a x chk = Ok (atom_doc n a (Lagrange lam) x).
Proof.
  intros n a lam x chk Hn Hwf [Hl Hb] Hx H1 H2. unfold nonsmooth_objective. rewrite Hb, Hl. simpl.
  rewrite (apply_offset_eq n) by auto. pose proof (atom_off_length n a Hwf) as La.
  rewrite seminorm_value_plain; auto.
  - simpl. rewrite (q_func_doc n) by (auto; apply Hwf). reflexivity.
  - intros C. assert (length (vsub x (atom_off n a)) = 0%nat) by (rewrite C; auto). rewrite vsub_length in H by congruence. lia.
Qed.

(** bound mode: without the feasibility check only the quadratic is reported; with it, the value
    is the quadratic or infinity *)
Theorem nonsmooth_objective_bound : forall n a b x, (1 <= n)%nat -> atom_wf n a -> atom_mode a (Bound b) -> 0 <= b -> length x = n ->
  klass a = CL1 \/ klass a = CSup \/ klass a = CL2 \/ klass a = CPosPart ->
  nonsmooth_objective a x false = Ok (Fin (q_denot n (a_quadratic a) x)) /\
  exists e, nonsmooth_objective a x true = Ok e /\
    (in_ball (klass a) b (vsub x (atom_off n a)) -> e = Fin (q_denot n (a_quadratic a) x)) /\
    (~ in_ball (klass a) (b * (1 + tol)) (vsub x (atom_off n a)) -> e = PInf).
Proof.
  intros n a b x Hn Hwf [Hl Hb] Hb0 Hx Hk. pose proof (atom_off_length n a Hwf) as La.
  unfold nonsmooth_objective. rewrite Hb. simpl. rewrite (q_func_eq n) by (auto; apply Hwf). split.
  - rewrite Rplus_0_l. auto.
  - rewrite (apply_offset_eq n) by auto.
    assert (Hne : vsub x (atom_off n a) <> []).
    { intros C. assert (length (vsub x (atom_off n a)) = 0%nat) by (rewrite C; auto). rewrite vsub_length in H by congruence. lia. }
    destruct (constraint_plain (klass a) _ b Hb0 Hne Hk) as (e & Ee & He & H1 & H2). rewrite Ee. simpl.
    eexists. split; [reflexivity|]. split.
    + intros H. rewrite H1 by auto. simpl. rewrite Rplus_0_l. auto.
    + intros H. destruct He as [-> | ->]; auto. tauto.
Qed.

(** ** positive_part_lagrange *)
Lemma pos_half : forall a, 1/2 * Rabs a + 1/2 * a = pos a.
Proof. intros. scal. Qed.
Theorem positive_part_lagrange_correct : forall n lam (off : vec) q, 0 <= lam -> length off = n -> q_shape n q -> center_ok n q ->
  exists a, positive_part_lagrange n lam (Some off) (Some q) = Ok a /\ atom_wf n a /\ atom_mode a (Lagrange (1/2 * lam)) /\
   forall v, length v = n -> exists k,
    atom_doc n a (Lagrange (1/2 * lam)) v =
    ext_add (doc_objective CPosPart (Lagrange lam) off (coef q) (fbcast n (center q)) (fbcast n (linear_term q)) (constant_term q) v) (Fin k)
    /\ k = lam / 2 * vsum off.
Proof.
  intros n lam off q Hlam Hoff Hq Cq.
  set (linq := mk_iq 0 (FScal 0) (FVec (const_vec n (1 * (1/2) * lam))) 0).
  assert (Sl : q_shape n linq). { split; simpl; auto. apply const_vec_length. }
  assert (Cl : center_ok n linq) by (left; auto).
  destruct (q_add_denot n linq q Sl Hq Cl Cq) as (s & Es & Ss & _ & Hs).
  change (positive_part_lagrange n lam (Some off) (Some q)) with
    (rbind (q_add linq (AQuad q)) (fun linq' => new_atom CL1 n (Some (1/2 * lam)) None (Some off) (Some linq'))).
  rewrite Es. cbv beta iota delta [rbind].
  pose proof (new_atom_ok CL1 n (Lagrange (1/2 * lam)) off s ltac:(simpl; lra)) as En. simpl lag_of in En. simpl bnd_of in En.
  rewrite En. eexists. split; [reflexivity|].
  set (o := if all_zero off then None else Some off).
  assert (Eo : off_vec n o = off).
  { unfold o. destruct (all_zero off) eqn:E; auto. simpl. apply all_zero_spec in E. congruence. }
  split; [|split].
  - split; auto. split; auto. simpl. intros v. destruct (all_zero off) eqn:E; [discriminate|]. intros X. injection X as <-. split; auto.
    intros C. rewrite C, all_zero_zeros in E. discriminate.
  - split; auto.
  - intros v Hv. exists (lam / 2 * vsum off). split; auto.
    unfold atom_doc, doc_objective, atom_off. cbn [a_quadratic a_offset klass mode_fun doc_seminorm ext_scale ext_add]. fold o. rewrite Eo.
    f_equal. fold (q_denot n s v). rewrite Hs by auto. unfold q_denot at 1. unfold quad_fun at 1. simpl.
    fold (q_denot n q v).
    assert (K : 1/2 * ell1 (vsub v off) + 1/2 * vsum (vsub v off) = sum_pos (vsub v off)).
    { generalize (vsub v off). clear. induction v as [|a v IH]; [unfold ell1, sum_pos; simpl; lra|].
      rewrite ell1_cons, sum_pos_cons, vsum_cons, <- pos_half. lra. }
    rewrite vsum_sub in K by congruence.
    assert (D : dot (const_vec n (1 * (1 / 2) * lam)) v = 1/2 * lam * vsum v).
    { rewrite <- Hv. rewrite <- sum_const_mul. rewrite (vsum_map_scale (fun t => t)), map_id. lra. }
    rewrite D. change (sum_pos (vsub v off)) with (sum_pos (vsub v off)) in K. nra.
Qed.

(** ** copy, offset assignment, equality *)
Theorem copy_correct : forall n a m, atom_wf n a -> mode_ok m -> atom_mode a m -> copy_atom a = Ok a.
Proof.
  intros n [c sh lg bd o q] m (Hs & Ho & Hq) Hm [Hl Hb]. simpl in *. subst lg bd. unfold copy_atom, new_atom. cbn [klass shape a_lagrange a_bound a_offset a_quadratic].
  assert (F : fresh_offset o = o).
  { unfold fresh_offset. destruct o as [v|]; auto. destruct (Ho v eq_refl) as [L N]. destruct (all_zero v) eqn:E; auto.
    apply all_zero_spec in E. congruence. }
  rewrite F. destruct m as [l|b]; simpl in *; destruct (Rlt_dec _ 0); try lra; auto.
Qed.
Theorem set_offset_correct : forall n a v, length v = n -> (v <> zeros n \/ a_offset a = None) ->
  atom_off n (set_offset a (Some v)) = v.
Proof.
  intros n a v Hv H. unfold atom_off, set_offset. simpl. destruct (all_zero v) eqn:E; auto.
  apply all_zero_spec in E. destruct H as [H|H]; [congruence|]. rewrite H. simpl. congruence.
Qed.
Theorem set_offset_none : forall n a, atom_off n (set_offset a None) = zeros n.
Proof. reflexivity. Qed.
Theorem set_offset_stale : exists a, new_atom CL1 1 (Some 1) None (Some [1]) None = Ok a /\
  atom_off 1 (set_offset a (Some [0])) = [1].
Proof.
  eexists. split.
  - simpl. destruct (Rlt_dec 1 0); [lra|]. destruct (Req_EM_T 1 0); [lra|]. reflexivity.
  - unfold set_offset, atom_off. simpl. destruct (Req_EM_T 0 0); [|lra]. reflexivity.
Qed.
(** == compares class, mode and parameter only *)
Lemma atom_eq_spec : forall a b m m', atom_mode a m -> atom_mode b m' ->
  (atom_eq a b = true <-> klass a = klass b /\ m = m').
Proof.
  intros a b m m' [H1 H2] [H3 H4]. unfold atom_eq. rewrite H1, H2, H3, H4.
  assert (C : class_eqb (klass a) (klass b) = true <-> klass a = klass b).
  { destruct (klass a), (klass b); simpl; split; intros; auto; discriminate. }
  destruct (class_eqb (klass a) (klass b)).
  - assert (K : klass a = klass b) by (apply C; reflexivity).
    destruct m as [l|l], m' as [l'|l']; simpl; try (destruct (Req_EM_T l l')); split; intros Q;
      try discriminate; try (split; [exact K|congruence]); try reflexivity; destruct Q as [_ Q]; congruence.
  - split; [discriminate|]. intros [H _]. destruct C as [_ C]. specialize (C H). discriminate.
Qed.

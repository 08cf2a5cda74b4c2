(** Block norms: values, feasibility, conjugates, setters and copies. *)
From Coq Require Import Reals List Lra Lia Psatz Bool Arith.
From Verif Require Import Vec Spec SpecAtom M_quad M_prox M_semi M_shift M_mode SpecBase SpecMode SpecModed SpecWeighted SpecPart SpecBlock M_block SpecBatom
  P_pl P_quad P_prox P_semi P_cones P_feas P_shift P_gauge P_part P_slope P_mixed P_group P_block P_block2.
Import ListNotations.
Local Open Scope R_scope.

(** Arrays must have entries where a maximum is taken *)
Definition fin_of (e : ext) : R := match e with Fin v => v | PInf => 0 end.
Lemma finite_doc : forall s y, finite_class s -> doc_seminorm s y = Fin (fin_of (doc_seminorm s y)).
Proof. intros [] y H; simpl in *; tauto || auto. Qed.
Lemma row_value_ok : forall s y, finite_class s -> y <> [] -> row_value s 1 y = Ok (fin_of (doc_seminorm s y)).
Proof.
  intros s y H Hy. unfold row_value. destruct s; simpl in H; try tauto; cbn [seminorm_value doc_seminorm fin_of]; cbn [rbind rmap].
  - f_equal. rewrite Rmult_1_l. reflexivity.
  - rewrite np_max_abs by auto. cbn [rbind rmap]. f_equal. lra.
  - f_equal. rewrite ell2_norm. lra.
  - f_equal. unfold sum_pos. rewrite Rmult_1_l. f_equal. 
  - rewrite np_max_clip by auto. cbn [rbind rmap]. f_equal. lra.
Qed.
Definition bval (k : bclass) (r c : nat) (x : vec) : R := fin_of (bfun k r c x).
Lemma row_sum_fin : forall s r c x, finite_class s -> row_sum (doc_seminorm s) r c x = Fin (vsum (map (fun row => fin_of (doc_seminorm s row)) (rows r c x))).
Proof. intros s r c x H. unfold row_sum. rewrite <- ext_sum_fin. f_equal. apply map_ext. intros; apply finite_doc; auto. Qed.
Lemma row_max_fin : forall s r c x, finite_class s -> row_max (doc_seminorm s) r c x = Fin (rmaxl (map (fun row => fin_of (doc_seminorm s row)) (rows r c x))).
Proof. intros s r c x H. unfold row_max. rewrite <- ext_max_fin. f_equal. apply map_ext. intros; apply finite_doc; auto. Qed.
Lemma bfun_fin : forall k r c x, finite_block k -> bfun k r c x = Fin (bval k r c x).
Proof.
  intros k r c x H. unfold bval. destruct k; cbn [bfun finite_block] in *; rewrite ?row_sum_fin, ?row_max_fin by (auto; exact I); auto.
Qed.
Lemma bval_nonneg : forall k r c x, length x = (r * c)%nat -> finite_block k -> 0 <= bval k r c x.
Proof. intros k r c x L H. apply (ga_nonneg _ _ (po_gauge _ _ _ (bfun_polar k r c)) x); auto. apply bfun_fin; auto. Qed.
Lemma in_rows_ne : forall r c x row, (0 < c)%nat -> length x = (r * c)%nat -> In row (rows r c x) -> row <> [].
Proof. intros r c x row Hc L H ->. pose proof (in_rows r c x [] L H). simpl in *. lia. Qed.
Lemma vec_ne : forall (x : vec) n, length x = n -> (0 < n)%nat -> x <> [].
Proof. intros x n L H ->. simpl in L. lia. Qed.
Lemma rows_vals_ne : forall r c x (f : vec -> R), (0 < r)%nat -> map f (rows r c x) <> [].
Proof. intros r c x f H E. apply (f_equal (@length R)) in E. rewrite map_length, rows_length in E. simpl in E. lia. Qed.
Lemma doc_vals_nonneg : forall s l, finite_class s -> Forall (fun a => 0 <= a) (map (fun row => fin_of (doc_seminorm s row)) l).
Proof. intros s l H. apply Forall_map, Forall_forall. intros y _. pose proof (doc_pos s y) as P. rewrite finite_doc in P by auto. auto. Qed.
(** seminorm() computes lagrange times the documented value *)
Theorem bl_seminorm_correct : forall k r c x lam chk, length x = (r * c)%nat -> finite_block k -> has_max k r c -> bl_seminorm k r c x lam chk = Ok (ext_scale lam (bfun k r c x)).
Proof.
  intros k r c x lam chk L F H. destruct k; cbn [bl_seminorm finite_block has_max] in *.
  - rewrite l1l2_value. auto.
  - rewrite linfl2_value, np_max_rmaxl by auto using row_norms_ne, row_norms_nonneg. auto.
  - rewrite l1_rows by auto. auto.
  - rewrite sup_rows, np_max_abs by (auto; apply (vec_ne x _ L); auto). auto.
  - cbn [bfun]. rewrite row_sum_fin by auto. rewrite collect_map with (g := fun row => fin_of (doc_seminorm c0 row)); auto. intros row HI. apply row_value_ok; auto. apply (in_rows_ne r c x); auto.
  - destruct H as [H1 H2]. cbn [bfun]. rewrite row_max_fin by auto. rewrite collect_map with (g := fun row => fin_of (doc_seminorm c0 row)).
    + cbn [rbind]. rewrite np_max_rmaxl; auto; [apply rows_vals_ne; auto|apply doc_vals_nonneg; auto].
    + intros row HI. apply row_value_ok; auto. apply (in_rows_ne r c x); auto.
Qed.
(** constraint() compares it with bound * (1 + 1e-5); block_sum is left out *)
Theorem bl_constraint_value : forall k r c inner x b, length x = (r * c)%nat -> finite_block k -> has_max k r c -> (forall s, k <> BSum s) ->
  bl_constraint k r c inner x b = Ok (if Rle_dec (bval k r c x) (b * (1 + tol)) then Fin 0 else PInf).
Proof.
  intros k r c inner x b L F H N. assert (V := bl_seminorm_correct k r c x 1 true L F H). rewrite bfun_fin in V by auto. cbn [ext_scale] in V.
  destruct k; cbn [bl_constraint bl_seminorm] in *; try (exfalso; eapply N; reflexivity).
  - injection V as V. unfold rleb. replace (vsum (row_norms r c x)) with (bval L1L2 r c x) by lra. destruct (Rle_dec _ _); auto.
  - destruct (np_max (row_norms r c x)) as [mx|]; cbn [rmap] in *; [|discriminate]. injection V as V. unfold rleb. replace mx with (bval LinfL2 r c x) by lra. destruct (Rle_dec _ _); auto.
  - injection V as V. unfold rleb. replace (vsum (vabs x)) with (bval L1L1 r c x) by lra. destruct (Rle_dec _ _); auto.
  - destruct (np_max (vabs x)) as [mx|]; cbn [rmap] in *; [|discriminate]. injection V as V. unfold rleb. replace mx with (bval LinfLinf r c x) by lra. destruct (Rle_dec _ _); auto.
  - destruct (collect (row_value c0 1) (rows r c x)) as [vals|]; cbn [rbind] in *; [|discriminate]. destruct (np_max vals) as [mx|]; cbn [rmap] in *; [|discriminate].
    injection V as V. unfold rleb. replace mx with (bval (BMax c0) r c x) by lra. destruct (Rle_dec _ _); auto.
Qed.
Lemma tol_pos : 0 < tol.
Proof. unfold tol. apply Rinv_0_lt_compat. apply pow_lt. lra. Qed.
Theorem bl_feasibility : forall k r c inner x b, length x = (r * c)%nat -> finite_block k -> has_max k r c -> (forall s, k <> BSum s) -> 0 <= b ->
  (gball (bfun k r c) b x -> bl_constraint k r c inner x b = Ok (Fin 0)) /\
  (bl_constraint k r c inner x b = Ok (Fin 0) -> gball (bfun k r c) (b * (1 + / 10 ^ 5)) x) /\
  (bl_constraint k r c inner x b = Ok (Fin 0) \/ bl_constraint k r c inner x b = Ok PInf).
Proof.
  intros k r c inner x b L F H N Hb. rewrite bl_constraint_value by auto. unfold gball. rewrite bfun_fin by auto. fold tol. pose proof tol_pos. cbn [ext_le].
  split; [|split].
  - intros K. destruct (Rle_dec _ _); auto. destruct n. nra.
  - destruct (Rle_dec _ _); auto. discriminate.
  - destruct (Rle_dec _ _); auto.
Qed.
Theorem batom_value : forall n a lam x chk, batom_wf n a (Lagrange lam) -> finite_block (bk a) -> has_max (bk a) (b_r a) (b_c a) -> length x = n ->
  batom_objective a x chk = Ok (moded_doc n (bfun (bk a) (b_r a) (b_c a)) (b_moded a) (Lagrange lam) x).
Proof.
  intros n a lam x chk (En & Hwf & _ & _) F H L. unfold batom_objective. apply moded_objective_correct; auto.
  intros y Ly. apply bl_seminorm_correct; auto. congruence.
Qed.
(** With the feasibility test: the indicator, up to the tolerance *)
Theorem batom_feasible : forall n a b x, batom_wf n a (Bound b) -> finite_block (bk a) -> has_max (bk a) (b_r a) (b_c a) -> (forall s, bk a <> BSum s) -> length x = n ->
  let q := quad_fun (coef (b_quadratic (m_base (b_moded a)))) (fbcast n (center (b_quadratic (m_base (b_moded a))))) (fbcast n (linear_term (b_quadratic (m_base (b_moded a))))) (constant_term (b_quadratic (m_base (b_moded a)))) x in
  let y := vsub x (base_off n (m_base (b_moded a))) in
  (gball (bfun (bk a) (b_r a) (b_c a)) b y -> batom_objective a x true = Ok (Fin q)) /\
  (batom_objective a x true = Ok (Fin q) \/ batom_objective a x true = Ok PInf) /\
  (forall v, batom_objective a x true = Ok (Fin v) -> gball (bfun (bk a) (b_r a) (b_c a)) (b * (1 + / 10 ^ 5)) y) /\
  batom_objective a x false = Ok (Fin q).
Proof.
  intros n a b x (En & (El & Eb & Hm & Hwf) & _ & _) F H N L q y. simpl in Hm.
  assert (Ly : length y = (b_r a * b_c a)%nat) by (unfold y; pose proof (base_off_length n _ Hwf); rewrite vsub_length; lia).
  destruct (bl_feasibility (bk a) (b_r a) (b_c a) (b_in_lagrange a) y b Ly F H N Hm) as (A & B & C).
  assert (Q : forall e, ext_add e (Fin (q_func (b_quadratic (m_base (b_moded a))) x)) = ext_add e (Fin q)).
  { intros e. unfold q. rewrite (q_func_eq n) by (auto; apply Hwf). auto. }
  assert (V : batom_objective a x true = rmap (fun v => ext_add v (Fin q)) (bl_constraint (bk a) (b_r a) (b_c a) (b_in_lagrange a) y b)).
  { unfold batom_objective, moded_objective, shifted_objective. rewrite Eb. cbn [bnd_of]. rewrite (base_apply_offset_eq n) by auto. fold y.
    destruct (bl_constraint _ _ _ _ y b); cbn [rmap]; auto. rewrite Q. auto. }
  split; [|split; [|split]].
  - intros K. rewrite V, A by auto. cbn [rmap ext_add]. do 2 f_equal. lra.
  - rewrite V. destruct C as [-> | ->]; cbn [rmap ext_add]; auto. left. do 2 f_equal. lra.
  - intros v E. apply B. rewrite V in E. destruct C as [C|C]; rewrite C in *; auto. discriminate.
  - unfold batom_objective, moded_objective, shifted_objective. rewrite Eb. cbn [bnd_of rmap]. rewrite Q. cbn [ext_add]. do 2 f_equal. lra.
Qed.
(** block_sum in bound mode: constraint() raises, whatever the point *)
Theorem block_sum_constraint : forall n a b s x, batom_wf n a (Bound b) -> bk a = BSum s -> (0 < b_r a)%nat -> length x = n -> batom_objective a x true = Err ValueError.
Proof.
  intros n a b s x (En & (El & Eb & Hm & Hwf) & Ei & _) K Hr L. unfold batom_objective, moded_objective, shifted_objective. rewrite Eb, Ei, K. cbn [bnd_of lag_of bl_constraint].
  destruct (b_r a) as [|r]; [lia|]. cbn [rows collect need rbind]. auto.
Qed.
(** Row norms with a constraint lose it *)
Theorem block_constraint_lost : exists a, new_batom (BSum CConPosPart) 1 1 (Some 1) None None None = Ok a /\
  batom_objective a [-1] true = Ok (Fin 0) /\ gmode (bfun (BSum CConPosPart) 1 1) (Lagrange 1) [-1] = PInf.
Proof.
  eexists. split; [|split].
  - unfold new_batom. rewrite (new_moded_ok 1 (Lagrange 1)) by (simpl; lra). reflexivity.
  - unfold batom_objective, moded_objective, shifted_objective, base_apply_offset. cbn [b_moded m_bound bnd_of m_base new_base b_offset fresh_offset m_lagrange lag_of need rbind].
    cbn [bl_seminorm bk b_r b_c rows collect firstn skipn]. unfold row_value. cbn [seminorm_value]. rewrite orb_true_r. cbn [map vsum rbind rmap fold_right].
    rewrite Rmax_right by lra. unfold q_func. cbn. f_equal. cbn. f_equal. try lra.
  - cbn [gmode bfun]. unfold row_sum. cbn [rows firstn skipn map doc_seminorm]. destruct (nonneg_dec [-1]) as [C|C]; auto.
    inversion C; lra.
Qed.
(** ** Conjugates *)
Theorem batom_conjugate_correct : forall n a m, batom_wf n a m -> coef (b_quadratic (m_base (b_moded a))) = 0 ->
  exists d, batom_conjugate a = Some (Ok d) /\ bk d = bpair (bk a) /\ b_r d = b_r a /\ b_c d = b_c a /\ batom_wf n d (dual_mode m) /\
    (forall u, length u = n -> is_fenchel n (moded_doc n (bfun (bk a) (b_r a) (b_c a)) (b_moded a) m) u (moded_doc n (bfun (bk d) (b_r d) (b_c d)) (b_moded d) (dual_mode m) u)) /\
    exists e, batom_conjugate d = Some (Ok e) /\ bk e = bk a /\ b_r e = b_r a /\ b_c e = b_c a /\ batom_wf n e m /\
      forall v, length v = n -> moded_doc n (bfun (bk e) (b_r e) (b_c e)) (b_moded e) m v = moded_doc n (bfun (bk a) (b_r a) (b_c a)) (b_moded a) m v.
Proof.
  intros n a m (En & W & Ei & Eb) Hc.
  assert (K : forall a m, (b_r a * b_c a = n)%nat -> moded_wf n (b_moded a) m -> b_in_lagrange a = lag_of m -> b_in_bound a = bnd_of m -> forall d, moded_conjugate (b_moded a) = Some (Ok d) ->
    batom_conjugate a = Some (Ok (mk_batom (bpair (bk a)) (b_r a) (b_c a) (bnd_of m) (lag_of m) d))).
  { clear. intros a m En (El & Eb & Hm & Hwf) Ei Ej d Hd. unfold batom_conjugate. unfold moded_conjugate in Hd. destruct Hwf as (Hs & _). rewrite Hs, Eb, El in Hd. rewrite En.
    destruct (Req_EM_T _ 0); [|congruence]. destruct (work_out_conjugate _ _ _) as [o outq]. unfold new_batom. rewrite Ei, Ej, En.
    destruct m as [lam|b]; cbn [lag_of bnd_of] in *; [assert (Q : new_moded n None (Some lam) o (Some outq) = Ok d) by congruence|assert (Q : new_moded n (Some b) None o (Some outq) = Ok d) by congruence]; rewrite Q; auto. }
  assert (DM : forall m, bnd_of m = lag_of (dual_mode m) /\ lag_of m = bnd_of (dual_mode m)) by (destruct m0; auto).
  destruct (moded_conjugate_correct n _ _ (b_moded a) m W Hc (eq_rect _ (fun N => polar_pair N (bfun (bk a) (b_r a) (b_c a)) (bfun (bpair (bk a)) (b_r a) (b_c a))) (bfun_polar (bk a) (b_r a) (b_c a)) n En)) as (d & Ed & Wd & Fd & e & Ee & We & Qe).
  eexists. split; [apply (K a m); eauto|]. cbn [bk b_r b_c b_moded]. do 3 (split; auto).
  split. { split; [auto|]. split; [auto|]. cbn [b_in_lagrange b_in_bound]. apply (DM m). }
  split; auto. eexists. split; [apply (K _ (dual_mode m)); cbn [b_r b_c b_moded b_in_lagrange b_in_bound]; eauto; apply (DM m)|].
  cbn [bk b_r b_c b_moded]. rewrite bpair_invol. do 3 (split; auto). split; auto.
  split; [auto|]. split; [auto|]. cbn [b_in_lagrange b_in_bound]. destruct m; auto.
Qed.
(** After an assignment to lagrange the conjugate is the old one *)
Theorem batom_stale : forall a v b, batom_set_lagrange a v = Ok b -> m_lagrange (b_moded b) = Some v /\ batom_conjugate b = batom_conjugate a.
Proof. intros a v b H. unfold batom_set_lagrange in H. destruct (m_bound (b_moded a)); [discriminate|]. injection H as <-. auto. Qed.
Lemma fenchel_unique : forall n F u s t, is_fenchel n F u s -> is_fenchel n F u t -> s = t.
Proof.
  intros n F u s t. destruct s as [v|], t as [w|]; intros Hs Ht; auto; cbn [is_fenchel] in *.
  - f_equal. destruct Hs as [A B], Ht as [C D]. destruct (Rtotal_order v w) as [H|[H|H]]; auto; exfalso.
    + destruct (D (w - v) ltac:(lra)) as (x & r & Lx & E & K). specialize (A x r Lx E). lra.
    + destruct (B (v - w) ltac:(lra)) as (x & r & Lx & E & K). specialize (C x r Lx E). lra.
  - destruct Hs as [A _]. destruct (Ht v) as (x & r & Lx & E & K). specialize (A x r Lx E). lra.
  - destruct Ht as [A _]. destruct (Hs w) as (x & r & Lx & E & K). specialize (A x r Lx E). lra.
Qed.
Lemma plain_wf : forall lam, 0 <= lam -> batom_wf 1 (plain_l1l2 lam) (Lagrange lam).
Proof. intros lam H. split; [auto|]. split; [|auto]. split; [auto|]. split; [auto|]. split; [exact H|]. split; [auto|]. split; [discriminate|]. repeat split; exact I. Qed.
Lemma plain_conj : forall lam, 0 <= lam -> exists q, batom_conjugate (plain_l1l2 lam) = Some (Ok (mk_batom LinfL2 1 1 None (Some lam) (mk_moded None (Some lam) (mk_base 1 None q)))).
Proof.
  intros lam H. unfold batom_conjugate, plain_l1l2. cbn [b_moded m_base b_quadratic coef b_offset b_r b_c bk b_in_lagrange b_in_bound Nat.mul Nat.add work_out_conjugate linear_term constant_term bpair].
  destruct (Req_EM_T 0 0); [|congruence]. unfold new_batom. rewrite (new_moded_ok _ (Bound lam)) by (simpl; lra). eexists. unfold new_base, fresh_offset.
  assert (Z : all_zero (const_vec 1 0) = true) by (apply all_zero_spec; auto). cbn [Nat.mul Nat.add] in *. rewrite Z. reflexivity.
Qed.
Lemma plain_doc : forall b q, moded_doc 1 (bfun LinfL2 1 1) (mk_moded None (Some b) (mk_base 1 None q)) (Bound b) [2] = PInf <-> b < 2.
Proof.
  intros b q. unfold moded_doc, base_doc. cbn [m_base b_offset base_off off_vec gmode]. rewrite linfl2_value. unfold row_norms. cbn [zeros repeat vsub vzip rows firstn skipn map rmaxl base_off off_vec b_offset].
  assert (Q : norm [2 - 0] = 2). { unfold norm, sqn, dot. cbn. rewrite Rplus_0_r, Rminus_0_r. apply sqrt_square. lra. } rewrite Q. rewrite Rmax_left by lra.
  destruct (Rle_dec 2 b); cbn [ext_add]; split; intros; try discriminate; auto; lra.
Qed.
Theorem batom_stale_wrong : exists b d, batom_set_lagrange (plain_l1l2 1) 2 = Ok b /\ batom_conjugate b = Some (Ok d) /\
  ~ is_fenchel 1 (moded_doc 1 (bfun L1L2 1 1) (b_moded b) (Lagrange 2)) [2] (moded_doc 1 (bfun (bk d) (b_r d) (b_c d)) (b_moded d) (Bound 1) [2]) /\ m_bound (b_moded d) = Some 1.
Proof.
  destruct (plain_conj 1 ltac:(lra)) as (q1 & E1). destruct (plain_conj 2 ltac:(lra)) as (q2 & E2).
  destruct (batom_conjugate_correct 1 _ _ (plain_wf 2 ltac:(lra)) eq_refl) as (d2 & Ed2 & _ & _ & _ & _ & Fd2 & _).
  rewrite E2 in Ed2. injection Ed2 as <-.
  eexists. eexists. split; [reflexivity|]. split; [exact E1|]. split; [|reflexivity].
  intros C. pose proof (fenchel_unique _ _ _ _ _ C (Fd2 [2] eq_refl)) as E. cbn [bk b_r b_c b_moded dual_mode] in E.
  assert (P1 := proj2 (plain_doc 1 q1) ltac:(lra)). rewrite P1 in E. symmetry in E. apply plain_doc in E. lra.
Qed.
(** ** Construction, copies and the set methods *)
Theorem new_batom_correct : forall k r c m o q, mode_ok m -> (forall v, o = Some v -> length v = (r * c)%nat) -> q_shape (r * c) q ->
  exists a, new_batom k r c (lag_of m) (bnd_of m) o (Some q) = Ok a /\ bk a = k /\ b_r a = r /\ b_c a = c /\ batom_wf (r * c) a m /\ m_base (b_moded a) = new_base (r * c) o (Some q).
Proof.
  intros k r c m o q Hm Ho Hq. unfold new_batom. rewrite new_moded_ok by auto. cbn [rmap]. eexists. split; [reflexivity|]. cbn [bk b_r b_c b_moded m_base b_in_lagrange b_in_bound].
  do 3 (split; auto). split; auto. split; [auto|]. split; [|auto]. split; [auto|]. split; [auto|]. split; [auto|]. apply new_base_wf; auto.
Qed.
Lemma new_base_same : forall n g, base_wf n g -> new_base n (b_offset g) (Some (b_quadratic g)) = g.
Proof.
  intros n [sh o q] (Hs & Ho & Hq). cbn [b_shape b_offset b_quadratic] in *. subst sh. unfold new_base, fresh_offset. f_equal. destruct o as [v|]; auto.
  destruct (Ho v eq_refl) as [L N]. destruct (all_zero v) eqn:Z; auto. exfalso. apply N. rewrite <- L. apply all_zero_spec; auto.
Qed.
Theorem batom_copy_correct : forall n a m, batom_wf n a m -> (concrete (bk a) -> batom_copy a = Ok a) /\ (~ concrete (bk a) -> batom_copy a = Err TypeError).
Proof.
  intros n a m (En & (El & Eb & Hm & Hwf) & Ei & Ej). unfold batom_copy. rewrite El, Eb.
  assert (K : forall k, new_batom k (b_r a) (b_c a) (lag_of m) (bnd_of m) (b_offset (m_base (b_moded a))) (Some (b_quadratic (m_base (b_moded a)))) = Ok (mk_batom k (b_r a) (b_c a) (lag_of m) (bnd_of m) (b_moded a))).
  { intros k. unfold new_batom. rewrite new_moded_ok by auto. rewrite En, new_base_same by auto. cbn [rmap]. do 2 f_equal. rewrite <- El, <- Eb. destruct (b_moded a); auto. }
  destruct a as [k r c il ib mo]. cbn [bk b_r b_c b_in_lagrange b_in_bound b_moded] in *. subst il ib.
  split; intros H; destruct k; simpl in H; try tauto; auto.
Qed.

(** Offsets, normalize and power_L. *)
From Coq Require Import Reals List Lra Lia Psatz Arith Bool.
From Verif Require Import Vec Spec M_affine SpecAffine P_quad P_cones P_affine.
Import ListNotations.
Local Open Scope R_scope.

(** ** affine_offset *)
Definition states (t : transform) (o : option vec) := forall x, length x = t_in t -> t_aff t x = match o with Some a => vadd (t_lin t x) a | None => t_lin t x end.
Lemma reports_states : forall t o, t_off t = Some o -> states t o -> reports_offset t.
Proof. intros t o E H. unfold reports_offset. rewrite E. destruct o; auto. Qed.
Lemma states_with : forall t o, t_off t = Some o -> (forall x, t_aff t x = with_offset o (t_lin t x)) -> reports_offset t.
Proof. intros t o E H. apply (reports_states t o E). intros x Lx. rewrite H. destruct o; cbn; auto. apply vadd_comm. Qed.
Lemma reports_none : forall t, reports_offset t -> t_off t = Some None -> forall x, length x = t_in t -> t_aff t x = t_lin t x.
Proof. intros t H E. unfold reports_offset in H. rewrite E in H. auto. Qed.
Lemma run_none : forall ts t0 d, (forall t, In t (t0 :: ts) -> true_adjoint t /\ forall x, length x = t_in t -> t_aff t x = t_lin t x) -> chained (t0 :: ts) ->
  forall x, length x = t_in (last (t0 :: ts) d) -> run_right t_aff (t0 :: ts) x = run_right t_lin (t0 :: ts) x /\ length (run_right t_lin (t0 :: ts) x) = t_out t0.
Proof.
  induction ts as [|t1 ts IH]; intros t0 d H Ch x Lx.
  - destruct (H t0 (or_introl eq_refl)) as [(A1 & _) B]. cbn in *. auto.
  - rewrite last_cons2 in Lx. destruct Ch as [C1 C2]. destruct (IH t1 d (fun t Ht => H t (or_intror Ht)) C2 x Lx) as [I1 I2]. destruct (H t0 (or_introl eq_refl)) as [(A1 & _) B].
    change (run_right t_aff (t0 :: t1 :: ts) x) with (t_aff t0 (run_right t_aff (t1 :: ts) x)). change (run_right t_lin (t0 :: t1 :: ts) x) with (t_lin t0 (run_right t_lin (t1 :: ts) x)). rewrite I1.
    split; [apply B|apply A1]; congruence.
Qed.
Lemma allclose_zeros : forall n, allclose0 (zeros n) = true.
Proof. induction n as [|n IH]; auto. change (allclose0 (zeros (S n))) with ((if Rle_dec (Rabs 0) (/ 10 ^ 8) then true else false) && allclose0 (zeros n)). rewrite IH, Rabs_R0. destruct (Rle_dec 0 (/ 10 ^ 8)) as [|N]; auto. exfalso. apply N. left. apply Rinv_0_lt_compat. apply pow_lt. lra. Qed.
Lemma wsum_none : forall n l x, (forall p, In p l -> t_aff (fst p) x = t_lin (fst p) x) -> wsum t_aff n l x = wsum t_lin n l x.
Proof. intros n l x. induction l as [|p l IH]; intros H; auto. cbn [wsum]. rewrite IH, H; auto; [left; auto|]. intros; apply H; right; auto. Qed.
Theorem reported_reports : forall t, reported t -> reports_offset t.
Proof.
  induction 1.
  - apply (states_with _ o); auto.
  - apply (states_with _ o); auto.
  - apply (states_with _ (Some a)); auto.
  - apply (reports_states _ o); auto. intros x Lx. cbn in *. rewrite (reports_none t IHreported) by auto. destruct o; cbn; auto. apply vadd_comm.
  - unfold selector in *. destruct (t_off t) as [o|] eqn:Eo; [|discriminate]. match goal with E : Ok _ = Ok _ |- _ => apply Ok_inj in E; subst T end. unfold reports_offset in *. tc. rewrite Eo in *.
    assert (L : forall x, length (gather idx x) = t_in t) by (intros; unfold gather; rewrite map_length; auto). destruct o; intros x Lx; apply IHreported; auto.
  - apply (states_with _ None); auto.
  - apply (states_with _ None); auto.
  - match goal with E : vstack _ = _ |- _ => destruct (vstack_form ts T E) as (n & off & _ & _ & ET) end. cbv zeta in ET. rewrite ET. eapply states_with; [reflexivity|]. reflexivity.
  - match goal with E : hstack _ = _ |- _ => destruct (hstack_form ts T E) as (n & off & _ & _ & ET) end. cbv zeta in ET. rewrite ET. eapply states_with; [reflexivity|]. reflexivity.
  - eapply states_with; reflexivity.
  - apply (states_with _ None); auto.
  - apply (states_with _ None); auto.
  - match goal with E : tensorize _ _ = _ |- _ => eapply good_tensorize in E end; [tauto|apply built_good; auto|]. intros o' x E. tc. injection E as <-. auto.
  - match goal with E : tensorize _ _ = _ |- _ => eapply good_tensorize in E end; [tauto|apply built_good; auto|]. intros o' x E. tc. injection E as <-. auto.
  - unfold residual in *. destruct (Nat.eqb (t_in t) (t_out t)); [|discriminate]. match goal with E : Ok _ = Ok _ |- _ => apply Ok_inj in E; subst T end. apply (reports_states _ None); auto. intros x Lx. tc. rewrite (reports_none t); auto.
  - destruct ts as [|t0 ts]; [discriminate|]. match goal with E : composition _ = _ |- _ => unfold composition in E; apply Ok_inj in E; rename E into ET end. 
    assert (Hs : forall t, In t (t0 :: ts) -> true_adjoint t /\ forall x, length x = t_in t -> t_aff t x = t_lin t x).
    { intros t Ht. split; [apply built_good; auto|]. apply reports_none; auto. }
    match goal with C : chained _ |- _ => pose proof (run_none ts t0 t0 Hs C) as RN end.
    assert (Z : run_right t_aff (t0 :: ts) (zeros (t_in (last (t0 :: ts) t0))) = zeros (t_out t0)).
    { rewrite (proj1 (RN _ (zeros_length _))). assert (G : good T). { subst T. eapply good_composition; [|eassumption|reflexivity]. intros t Ht. apply built_good. apply H. auto. }
      assert (Z := lin_zero T (g_adj T G)). subst T. exact Z. }
    rewrite <- ET. apply (reports_states _ (Some (zeros (t_out t0)))); [tc; rewrite Z, allclose_zeros; auto|]. intros x Lx. tc. destruct (RN x Lx) as [R1 R2]. rewrite R1, vadd_zeros_r; auto.
  - match goal with E : affine_sum _ _ = _ |- _ => pose proof E as ET; unfold affine_sum in E; destruct (negb _) in E; [discriminate|] end. destruct ts as [|t0 ts]; [discriminate|].
    match goal with E : Ok _ = Ok T |- _ => apply Ok_inj in E; rename E into EQ end. set (l := combine _ _) in EQ.
    assert (Hs : forall p x, In p l -> length x = t_in t0 -> t_aff (fst p) x = t_lin (fst p) x).
    { intros [t r] x Hp Lx. apply in_combine_l in Hp. cbn [fst]. apply reports_none; auto. rewrite Lx. match goal with S : forall t t', In t _ -> In t' _ -> _ |- _ => apply (S t0 t); auto end. left; auto. }
    assert (G : good T). { eapply good_affine_sum; [| |exact ET]; [intros t Ht; apply built_good; auto|assumption]. }
    assert (Z := lin_zero T (g_adj T G)).
    assert (Zo : weighted t_aff (t_out t0) l (zeros (t_in t0)) = zeros (t_out t0)). { rewrite <- EQ in Z. tc. rewrite <- Z. rewrite !weighted_wsum. apply wsum_none. intros p Hp. apply Hs; auto. vlen. }
    rewrite Zo, allclose_zeros in EQ. rewrite <- EQ. apply (reports_states _ None); auto. intros x Lx. tc. rewrite !weighted_wsum. apply wsum_none. intros p Hp. apply Hs; auto.
  - apply (reports_states _ None); auto. intros x Lx. tc. rewrite (reports_none t); auto.
  - apply (states_with _ None); auto.
Qed.

(** ** Witnesses of wrong offsets *)
Lemma allclose_one : allclose0 [1] = false.
Proof. unfold allclose0. cbn [forallb]. destruct (Rle_dec (Rabs 1) (/ 10 ^ 8)) as [H|]; auto. rewrite Rabs_R1 in H. assert (/ 10 ^ 8 < / 1) by (apply Rinv_lt_contravar; lra). lra. Qed.
Lemma composition_offset_lost : exists T, composition [shift_only [1]] = Ok T /\ built T /\ t_off T = Some None /\ t_aff T [0] = [1] /\ t_lin T [0] = [0].
Proof.
  eexists. split; [reflexivity|]. split; [|split; [|split]].
  - eapply b_composition with (ts := [shift_only [1]]); [|exact I|reflexivity]. intros t [<-|[]]. constructor.
  - cbn. replace (1 + 0) with 1 by ring. pose proof allclose_one as E. unfold allclose0 in E. cbn in E. rewrite E. auto.
  - cbn. f_equal. ring.
  - reflexivity.
Qed.
Lemma residual_offset_lost : exists T, residual (shift_only [1]) = Ok T /\ built T /\ t_off T = Some None /\ t_aff T [0] = [-1] /\ t_lin T [0] = [0].
Proof.
  eexists. split; [reflexivity|]. split; [|split; [|split]]; cbn; auto.
  - eapply b_residual; [apply (b_shift_only [1])|reflexivity].
  - f_equal. ring.
  - f_equal. ring.
Qed.
Lemma times_offset_lost : built (scalar_multiply (shift_only [1]) 2) /\ t_off (scalar_multiply (shift_only [1]) 2) = Some None /\
  t_aff (scalar_multiply (shift_only [1]) 2) [0] = [2] /\ t_lin (scalar_multiply (shift_only [1]) 2) [0] = [0].
Proof. split; [apply b_scalar_multiply; constructor|]. split; [reflexivity|]. cbn. unfold times. destruct (Req_EM_T 2 1); [exfalso; lra|]. cbn. split; f_equal; ring. Qed.
Lemma wrap_offset_lost : built (wrap (shift_only [1]) None) /\ t_off (wrap (shift_only [1]) None) = Some None /\ t_aff (wrap (shift_only [1]) None) [0] = [1] /\ t_lin (wrap (shift_only [1]) None) [0] = [0].
Proof. split; [apply b_wrap; [constructor|discriminate|discriminate]|]. split; [reflexivity|]. cbn. split; auto. f_equal. ring. Qed.
Lemma sum_offset_lost : exists T, affine_sum [shift_only [/ 10 ^ 9]] None = Ok T /\ built T /\ t_off T = Some None /\ t_aff T [0] <> t_lin T [0].
Proof.
  assert (P9 : 0 < / 10 ^ 9) by (apply Rinv_0_lt_compat; apply pow_lt; lra).
  eexists. split; [reflexivity|]. split; [|split].
  - eapply b_affine_sum with (ts := [shift_only [/ 10 ^ 9]]) (w := None); [intros t [<-|[]]; constructor| |reflexivity]. intros t t' [<-|[]] [<-|[]]. auto.
  - cbn [t_off]. unfold weighted, allclose0. cbn -[pow]. replace (0 + 1 * (/ 10 ^ 9 + 0)) with (/ 10 ^ 9) by ring. destruct (Rle_dec (Rabs (/ 10 ^ 9)) (/ 10 ^ 8)) as [|N]; auto. exfalso. apply N. rewrite Rabs_pos_eq by lra. apply Rinv_le_contravar; lra.
  - unfold weighted. cbn -[pow]. intros E. injection E as E. lra.
Qed.
Lemma missing_offsets : forall s n t, t_off (scaler s) = None /\ t_off (reshape n) = None /\ t_off (add_intercept t) = None.
Proof. auto. Qed.
Lemma selector_repeated : exists T, selector [0; 0]%nat 1 (identity 2) = Ok T /\ dot (t_lin T [1]) [1; 1] = 2 /\ dot [1] (t_adj T [1; 1]) = 1.
Proof. eexists. split; [reflexivity|]. cbn. unfold dot, vsum, vmul. cbn. split; ring. Qed.
Lemma aslinear_shapes : t_in (aslinear (matrix [[1; 2]] 2 None)) = 1%nat /\ t_out (aslinear (matrix [[1; 2]] 2 None)) = 2%nat /\ length (t_lin (aslinear (matrix [[1; 2]] 2 None)) [1; 1]) = 1%nat.
Proof. auto. Qed.

(** ** normalize *)
Lemma unit_vec_length : forall n j, length (unit_vec n j) = n.
Proof. intros. unfold unit_vec. rewrite map_length, seq_length. auto. Qed.
Lemma dot_unit : forall n j (x : vec), length x = n -> (j < n)%nat -> dot x (unit_vec n j) = nth j x 0.
Proof.
  intros n j x. unfold unit_vec. assert (G : forall x s, length x = n -> (s <= j < s + n)%nat -> dot x (map (fun k => if Nat.eqb k j then 1 else 0) (seq s n)) = nth (j - s) x 0).
  { clear x. induction n as [|n IH]; intros x s Lx Hj; [lia|]. destruct x as [|a x]; [discriminate|]. cbn [seq map]. rewrite dot_cons. destruct (Nat.eqb_spec s j) as [->|Ne].
    - rewrite Nat.sub_diag. cbn [nth]. replace (dot x _) with 0; [ring|]. symmetry. assert (Z : forall m s', (j < s')%nat -> map (fun k => if Nat.eqb k j then 1 else 0) (seq s' m) = zeros m).
      { induction m as [|m IHm]; intros s' Hs; auto. cbn [seq map]. rewrite IHm by lia. destruct (Nat.eqb_spec s' j); [lia|]. reflexivity. }
      rewrite Z by lia. apply dot_zeros_r.
    - rewrite IH; [|cbn in Lx; lia|lia]. replace (j - s)%nat with (S (j - S s)) by lia. cbn [nth]. ring. }
  intros Lx Hj. rewrite G by (auto; lia). rewrite Nat.sub_0_r. auto.
Qed.
Lemma vmul_unit : forall n j (s : vec), length s = n -> (j < n)%nat -> vmul s (unit_vec n j) = vscal (nth j s 0) (unit_vec n j).
Proof.
  intros n j s Ls Hj. apply (dot_separates n); [rewrite vmul_length; rewrite ?unit_vec_length; auto|rewrite vscal_length; apply unit_vec_length|].
  intros u Lu. rewrite dot_scal_l. rewrite dot_vmul_move, !(dot_comm (unit_vec n j)), !dot_unit; auto; [|rewrite vmul_length; congruence]. unfold vmul. rewrite (Vec.nth_vzip Rmult s u j 0 0 0); auto; congruence.
Qed.
Lemma mat_vec_unit : forall D n j, Forall (fun r => length r = n) D -> (j < n)%nat -> mat_vec D (unit_vec n j) = column D j.
Proof. intros D n j H Hj. unfold mat_vec, column. apply map_ext_in. intros r Hr. rewrite Forall_forall in H. apply dot_unit; auto. Qed.
Lemma mat_vec_scal : forall D c x, mat_vec D (vscal c x) = vscal c (mat_vec D x).
Proof. intros. unfold mat_vec, vscal at 2. rewrite map_map. apply map_ext. intros r. apply dot_scal_r. Qed.
Lemma center_scal : forall c x, center (vscal c x) = vscal c (center x).
Proof. intros. unfold center. rewrite vsum_scal, vscal_length. unfold vscal. rewrite !map_map. apply map_ext. intros a. unfold Rdiv. ring. Qed.
Lemma vsum_center : forall x, x <> [] -> vsum (center x) = 0.
Proof. intros x Hx. unfold center. pose proof (vsum_map_const (- (vsum x / INR (length x))) x) as E. replace (map (fun a => a - vsum x / INR (length x)) x) with (map (fun v => v + - (vsum x / INR (length x))) x) by (apply map_ext; intros; ring). rewrite E. field. destruct x; [congruence|]. apply not_0_INR. discriminate. Qed.
Lemma sqn_center : forall x, x <> [] -> sqn (center x) = sqn x - INR (length x) * (mean x * mean x).
Proof.
  intros x Hx. assert (N : INR (length x) <> 0) by (destruct x; [congruence|]; apply not_0_INR; discriminate). unfold sqn at 1. rewrite dot_center by (rewrite center_length; auto). rewrite vsum_center by auto. rewrite dot_comm, dot_center by auto. unfold sqn, mean. field. auto.
Qed.
Lemma normalize_form : forall M p ctr scl icpt ddof value T, normalize M p ctr scl icpt ddof value = Ok T -> exists T0,
  composition ((if ctr then [centering (length M)] else []) ++ [matrix M p None] ++ (if scl then [diagonal (map (fun j => inv_scale (col_scale M ctr ddof j) * value) (seq 0 p)) None] else [])) = Ok T0 /\ T = if icpt then add_intercept T0 else T0.
Proof. intros M p ctr scl icpt ddof value T E. unfold normalize in E. cbv zeta in E. destruct (composition _) as [T0|e] eqn:E0; [|discriminate]. cbn [rbind] in E. apply Ok_inj in E. exists T0. auto. Qed.
Lemma normalize_total : forall M p ctr scl icpt ddof value, exists T, normalize M p ctr scl icpt ddof value = Ok T.
Proof. intros M p ctr scl icpt ddof value. unfold normalize. destruct ctr, scl; cbn [app composition rbind]; eexists; reflexivity. Qed.
Lemma normalize_built : forall M p ctr scl icpt ddof value T, Forall (fun r => length r = p) M -> normalize M p ctr scl icpt ddof value = Ok T -> built T.
Proof.
  intros M p ctr scl icpt ddof value T HM E. destruct (normalize_form _ _ _ _ _ _ _ _ E) as (T0 & E0 & ->).
  assert (B : built T0).
  { eapply b_composition; [| |exact E0].
    - intros t Ht. destruct ctr, scl; cbn in Ht; destruct Ht as [<-|Ht]; try (destruct Ht as [<-|Ht]); try (destruct Ht as [<-|Ht]); try destruct Ht; try (constructor; fail); try (apply b_matrix; [auto|discriminate]); apply b_diagonal; discriminate.
    - destruct ctr, scl; cbn; rewrite ?map_length, ?seq_length; auto. }
  destruct icpt; auto. constructor. auto.
Qed.
Definition factor (M : list vec) (ctr scl : bool) (ddof value : R) (j : nat) : R := if scl then inv_scale (col_scale M ctr ddof j) * value else 1.
Lemma normalize_column : forall M p ctr scl ddof value T j, Forall (fun r => length r = p) M -> (j < p)%nat -> normalize M p ctr scl false ddof value = Ok T ->
  column_of T j = vscal (factor M ctr scl ddof value j) (if ctr then center (column M j) else column M j) /\ t_in T = p /\ t_out T = length M.
Proof.
  intros M p ctr scl ddof value T j HM Hj E. destruct (normalize_form _ _ _ _ _ _ _ _ E) as (T0 & E0 & ->).
  set (s := map (fun j => inv_scale (col_scale M ctr ddof j) * value) (seq 0 p)) in *. assert (Ls : length s = p) by (unfold s; rewrite map_length, seq_length; auto).
  assert (Ns : nth j s 0 = inv_scale (col_scale M ctr ddof j) * value). { unfold s. rewrite (nth_indep _ 0 ((fun j => inv_scale (col_scale M ctr ddof j) * value) 0%nat)) by (rewrite map_length, seq_length; auto). rewrite (map_nth (fun j => inv_scale (col_scale M ctr ddof j) * value)), seq_nth; auto. }
  unfold column_of, factor. destruct ctr, scl; cbn [app composition] in E0; apply Ok_inj in E0; subst T0; cbn [t_lin t_in t_out last run_right fold_right]; unfold matrix, diagonal, centering; cbn [t_lin t_in t_out]; rewrite ?Ls; (split; [|auto]);
    rewrite ?vmul_unit by auto; rewrite ?mat_vec_scal, ?mat_vec_unit by auto; rewrite ?Ns, ?center_scal, ?vscal_1; auto.
Qed.
Lemma column_length : forall M j, length (column M j) = length M. Proof. intros. apply map_length. Qed.
Theorem normalize_spec : forall M p ctr scl ddof value, Forall (fun r => length r = p) M -> M <> [] -> 0 < INR (length M) - ddof ->
  exists T, normalize M p ctr scl false ddof value = Ok T /\ t_in T = p /\ t_out T = length M /\ forall j, (j < p)%nat ->
    let c := column_of T j in
    let centred := if ctr then map (fun a => a - mean (column M j)) (column M j) else column M j in
    let sd v := sqrt (sqn v / (INR (length M) - (if ctr then ddof else ddof - 1))) in
    (ctr = true -> vsum c = 0) /\
    (exists k, c = vscal k centred /\ (scl = false -> k = 1)) /\
    (scl = true -> sd centred <> 0 -> 0 <= value -> sd c = value) /\
    (scl = true -> sd centred = 0 -> c = zeros (length M)).
Proof.
  intros M p ctr scl ddof value HM Hne Hd. destruct (normalize_total M p ctr scl false ddof value) as [T E]. exists T. split; auto.
  assert (Hs : forall j, (j < p)%nat -> _) by (intros j Hj; exact (normalize_column M p ctr scl ddof value T j HM Hj E)).
  split; [|split]. 1,2: destruct (normalize_form _ _ _ _ _ _ _ _ E) as (T0 & E0 & ->); destruct ctr, scl; cbn [app composition] in E0; apply Ok_inj in E0; subst T0; cbn; rewrite ?map_length, ?seq_length; auto.
  intros j Hj. cbv zeta. destruct (Hs j Hj) as (C & _ & _). set (dn := INR (length M) - (if ctr then ddof else ddof - 1)) in *.
  assert (Hdn : 0 < dn) by (unfold dn; destruct ctr; lra).
  assert (NM : column M j <> []) by (intros EC; apply (f_equal (@length R)) in EC; rewrite column_length in EC; destruct M; [congruence|discriminate]).
  set (cen := if ctr then center (column M j) else column M j) in *.
  assert (Ecen : (if ctr then map (fun a => a - mean (column M j)) (column M j) else column M j) = cen) by (unfold cen; destruct ctr; auto). rewrite Ecen.
  assert (Lc : length cen = length M) by (unfold cen; destruct ctr; rewrite ?center_length; apply column_length).
  assert (Sc : sqrt (sqn cen / dn) = col_scale M ctr ddof j).
  { unfold col_scale, cen, dn. cbv zeta. destruct ctr; [rewrite sqn_center by auto; unfold mean, col_mean; rewrite column_length; reflexivity|]. rewrite Rmult_0_l, Rmult_0_r, Rminus_0_r. auto. }
  rewrite Sc. rewrite C. split; [|split; [|split]].
  - intros ->. rewrite vsum_scal. unfold cen. rewrite vsum_center by auto. ring.
  - exists (factor M ctr scl ddof value j). split; auto. intros ->. reflexivity.
  - intros -> Hnz Hv. unfold factor, inv_scale. assert (Hp : 0 < col_scale M ctr ddof j) by (destruct (sqrt_pos (sqn cen / dn)) as [H|H]; rewrite Sc in H; [auto|congruence]). destruct (Rlt_dec 0 (col_scale M ctr ddof j)); [|contradiction].
    rewrite sqn_scal. replace (1 / col_scale M ctr ddof j * value * (1 / col_scale M ctr ddof j * value) * sqn cen / dn) with ((value / col_scale M ctr ddof j) * (value / col_scale M ctr ddof j) * (sqn cen / dn)) by (field; lra).
    assert (Q : 0 <= value / col_scale M ctr ddof j) by (apply Rmult_le_pos; [auto|left; apply Rinv_0_lt_compat; auto]). assert (P2 : 0 <= sqn cen / dn) by (apply Rmult_le_pos; [apply sqn_nonneg|left; apply Rinv_0_lt_compat; auto]).
    rewrite sqrt_mult by (auto; nra). rewrite sqrt_square by auto. rewrite Sc. field. lra.
  - intros -> Hz. unfold factor, inv_scale. rewrite Hz. destruct (Rlt_dec 0 0); [exfalso; lra|]. rewrite Rmult_0_l, vscal_0. congruence.
Qed.
(** with an intercept the first coordinate adds a constant *)
Theorem normalize_intercept : forall M p ctr scl ddof value b x, exists T T0, normalize M p ctr scl true ddof value = Ok T /\ normalize M p ctr scl false ddof value = Ok T0 /\
  t_in T = S (t_in T0) /\ t_lin T (b :: x) = map (fun v => v + b) (t_lin T0 x).
Proof.
  intros. unfold normalize. destruct (composition _) as [T0|e] eqn:E.
  - exists (add_intercept T0), T0. cbn [rbind]. repeat (split; [reflexivity|]). split; [cbn; lia|reflexivity].
  - destruct ctr, scl; discriminate.
Qed.

(** ** power_L *)
Lemma gram_bound : forall t L v, true_adjoint t -> opnorm_bound t L -> 0 <= L -> length v = t_in t -> norm (t_adj t (t_lin t v)) <= L * norm v.
Proof.
  intros t L v (A1 & A2 & A3) HL HL0 Lv. set (w := t_adj t (t_lin t v)). assert (Lw : length w = t_in t) by (apply A2, A1; auto).
  destruct (Req_EM_T (norm w) 0) as [->|Hn]; [apply Rmult_le_pos; auto; apply norm_nonneg|]. assert (P := norm_nonneg w).
  assert (H1 : norm w * norm w <= norm (t_lin t v) * norm (t_lin t w)). { rewrite norm_sq. unfold sqn. unfold w at 2. rewrite <- A3 by auto. rewrite dot_comm. apply cauchy_schwarz. rewrite !A1; auto. }
  assert (S : forall x, length x = t_in t -> norm (t_lin t x) <= sqrt L * norm x).
  { intros x Lx. apply sq_le_nonneg; [apply Rmult_le_pos; [apply sqrt_pos|apply norm_nonneg]|]. rewrite norm_sq. replace (sqrt L * norm x * (sqrt L * norm x)) with ((sqrt L * sqrt L) * (norm x * norm x)) by ring. rewrite sqrt_sqrt, norm_sq by auto. auto. }
  assert (H2 := S v Lv). assert (H3 := S w Lw). assert (Q1 := norm_nonneg (t_lin t v)). assert (Q2 := norm_nonneg (t_lin t w)). assert (Q3 := norm_nonneg v).
  assert (H4 : norm (t_lin t v) * norm (t_lin t w) <= (sqrt L * norm v) * (sqrt L * norm w)) by (apply Rmult_le_compat; auto).
  replace (sqrt L * norm v * (sqrt L * norm w)) with ((sqrt L * sqrt L) * norm v * norm w) in H4 by ring. rewrite sqrt_sqrt in H4 by auto. apply Rmult_le_reg_r with (norm w); lra.
Qed.
Lemma norm_unit : forall w, norm w <> 0 -> norm (vscal (/ norm w) w) = 1.
Proof. intros w H. assert (P := norm_nonneg w). rewrite norm_scal, Rabs_pos_eq; [field; auto|]. left. apply Rinv_0_lt_compat. lra. Qed.
Lemma power_loop_bound : forall its tol t L v old nrm r, true_adjoint t -> opnorm_bound t L -> 0 <= L -> length v = t_in t -> norm v = 1 -> nrm <= L ->
  power_loop its tol t v old nrm = Ok r -> r <= L.
Proof.
  induction its as [|its IH]; intros tol t L v old nrm r A HL HL0 Lv Nv Hn E; cbn [power_loop] in E; [apply Ok_inj in E; lra|].
  destruct (Rlt_dec _ _); [|apply Ok_inj in E; lra]. cbv zeta in E. destruct (Req_EM_T (norm (t_adj t (t_lin t v))) 0) as [|Hw]; [discriminate|]. eapply IH in E; eauto.
  - rewrite vscal_length. apply A. apply A. auto.
  - apply norm_unit. auto.
  - pose proof (gram_bound t L v A HL HL0 Lv) as G. rewrite Nv in G. lra.
Qed.
Theorem power_L_bound : forall its tol t L v r, true_adjoint t -> opnorm_bound t L -> length v = t_in t -> (2 <= its)%nat -> tol < 1 ->
  tol < Rabs (norm (t_adj t (t_lin t v)) - 1) / norm (t_adj t (t_lin t v)) -> power_L its tol t v = Ok r -> r <= L.
Proof.
  intros its tol t L v r A HL Lv Hi Ht1 Hs E. destruct its as [|[|its]]; try lia. unfold power_L in E. cbn [power_loop] in E. cbv zeta in E.
  destruct (Rlt_dec tol (Rabs (1 - 0) / 1)) as [Ht|Ht].
  - destruct (Req_EM_T (norm (t_adj t (t_lin t v))) 0) as [|Hw]; [discriminate|]. set (w := t_adj t (t_lin t v)) in *. destruct (Rlt_dec tol (Rabs (norm w - 1) / norm w)) as [_|]; [|contradiction].
    set (v1 := vscal (/ norm w) w) in *. assert (L1 : length v1 = t_in t) by (unfold v1; rewrite vscal_length; apply A, A; auto). assert (N1 : norm v1 = 1) by (apply norm_unit; auto).
    assert (HL0 : 0 <= L). { pose proof (HL v1 L1) as H. rewrite <- (norm_sq v1), N1 in H. pose proof (sqn_nonneg (t_lin t v1)). lra. }
    destruct (Req_EM_T (norm (t_adj t (t_lin t v1))) 0) as [|Hw1]; [discriminate|]. eapply power_loop_bound in E; eauto.
    + rewrite vscal_length. apply A, A. auto.
    + apply norm_unit. auto.
    + pose proof (gram_bound t L v1 A HL HL0 L1) as G. rewrite N1 in G. lra.
  - exfalso. rewrite Rminus_0_r, Rabs_R1 in Ht. lra.
Qed.
Lemma power_L_one_pass : exists t, built t /\ opnorm_bound t (1/4) /\ forall its, (1 <= its)%nat -> power_L its (/ 10 ^ 8) t [4] = Ok 1.
Proof.
  exists (matrix [[1/2]] 1 None). split; [apply b_matrix; [repeat constructor|discriminate]|]. split.
  - intros [|a [|b x]] Lx; try discriminate. cbn. unfold sqn, dot, vsum, vmul. cbn. nra.
  - intros [|its] Hi; [lia|]. assert (N : norm [1] = 1). { unfold norm, sqn, dot, vsum, vmul. cbn. replace (1 * 1 + 0) with 1 by ring. apply sqrt_1. }
    assert (P8 : 0 < / 10 ^ 8) by (apply Rinv_0_lt_compat; apply pow_lt; lra).
    assert (Q8 : / 10 ^ 8 < 1). { rewrite <- Rinv_1. apply Rinv_lt_contravar; lra. }
    unfold power_L. cbn [power_loop]. rewrite Rminus_0_r, Rabs_R1. destruct (Rlt_dec (/ 10 ^ 8) (1 / 1)) as [_|Hn]; [|exfalso; apply Hn; lra]. cbv zeta.
    replace (t_adj (matrix [[1/2]] 1 None) (t_lin (matrix [[1/2]] 1 None) [4])) with [1] by (cbn; unfold dot, vsum, vmul; cbn; f_equal; lra). rewrite N. destruct (Req_EM_T 1 0); [exfalso; lra|].
    destruct its as [|its]; auto. cbn [power_loop]. rewrite Rminus_diag_eq, Rabs_R0 by auto. destruct (Rlt_dec (/ 10 ^ 8) (0 / 1)); [exfalso; lra|]. auto.
Qed.

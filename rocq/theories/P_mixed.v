(** Proofs about the kernels of regreg/atoms/mixed_lasso_cython.pyx. *)
From Coq Require Import Reals List Lra Lia Psatz Bool Permutation ZArith.
From Verif Require Import Vec Spec M_quad M_prox M_semi SpecAtom M_shift SpecBase SpecMode M_mode SpecModed SpecWeighted SpecPart SpecGroup M_slope M_mixed
  P_quad P_pl P_prox P_feas P_semi P_conj P_shift P_gauge P_part.
Import ListNotations.
Local Open Scope R_scope.

(** ** The weighted root finder *)
Definition wok (w : R) : Prop := w = 0 \/ / 10 ^ 20 <= w.
Lemma e20 : 0 < / 10 ^ 20. Proof. apply Rinv_0_lt_compat, pow_lt; lra. Qed.
Lemma wok_nonneg : forall w, wok w -> 0 <= w.
Proof. intros w [->|H]; [lra|]. pose proof e20. lra. Qed.

Lemma knots_sum : forall norms weights t, length norms = length weights -> Forall wok weights ->
  plsum (knots_of norms weights) t = vsum (vzip (fun x w => w * pos (x - w * t)) norms weights).
Proof.
  intros norms weights t Hl. pattern norms, weights. apply vec_ind2; auto.
  intros x w n' w' _ IH Hw. pose proof (Forall_inv Hw) as H1. pose proof (Forall_inv_tail Hw) as H2. pose proof e20.
  cbn [knots_of plsum fold_right vzip fst snd]. fold (plsum (knots_of n' w') t). rewrite vsum_cons, IH by auto. f_equal.
  destruct H1 as [->|H1]; [lra|]. rewrite Rmax_left by auto. unfold pos.
  replace (x - w * t) with (w * (x / w - t)) by (field; lra).
  unfold Rmax. destruct (Rle_dec (x / w - t) 0), (Rle_dec (w * (x / w - t)) 0); nra.
Qed.
Lemma knots_weights : forall norms weights, Forall (fun p => 0 <= snd p) (knots_of norms weights).
Proof. induction norms as [|x n' IH]; intros [|w w']; simpl; auto. constructor; auto. simpl. nra. Qed.
Lemma cut_sum_neg : forall norms weights t, length norms = length weights -> Forall (fun x => 0 <= x) norms -> Forall wok weights -> t <= 0 ->
  vsum (vzip (fun x w => w * pos (x - w * t)) norms weights) = vsum (vmul weights norms) - t * vsum (map (fun w => w * w) weights).
Proof.
  intros norms weights t Hl. pattern norms, weights. apply vec_ind2; auto.
  - intros. unfold vmul. cbn. lra.
  - intros x w n' w' _ IH Hx Hw Ht. pose proof (Forall_inv Hx). pose proof (wok_nonneg _ (Forall_inv Hw)). cbv beta in *. unfold vmul in *. cbn [vzip map].
    rewrite !vsum_cons, IH by (eauto using Forall_inv_tail). assert (w * t <= 0) by nra. rewrite pos_of_nonneg by lra. ring.
Qed.
Lemma cut_sum_nonneg : forall norms weights t, Forall wok weights -> 0 <= vsum (vzip (fun x w => w * pos (x - w * t)) norms weights).
Proof.
  induction norms as [|x n' IH]; intros [|w w'] t Hw; try (cbn; lra). cbn [vzip]. rewrite vsum_cons. specialize (IH w' t (Forall_inv_tail Hw)).
  pose proof (wok_nonneg _ (Forall_inv Hw)). pose proof (pos_nonneg (x - w * t)). nra.
Qed.
Lemma sumsq_nonneg : forall w : vec, 0 <= vsum (map (fun a => a * a) w).
Proof. induction w as [|a w IH]; [cbn; lra|]. cbn [map]. rewrite vsum_cons. nra. Qed.
Lemma sumsq_pos : forall (w : vec), (exists a, In a w /\ a <> 0) -> 0 < vsum (map (fun a => a * a) w).
Proof.
  induction w as [|a w IH]; intros (b & Hb & Hn); [destruct Hb|]. cbn [map]. rewrite vsum_cons. pose proof (sumsq_nonneg w). destruct Hb as [->|Hb].
  - assert (0 < b * b) by nra. lra.
  - assert (0 < vsum (map (fun a => a * a) w)) by (apply IH; eauto). nra.
Qed.
Lemma knots_in : forall norms weights w, length norms = length weights -> In w weights -> exists x, In (x / Rmax w (/ 10 ^ 20), w * w) (knots_of norms weights) /\ In x norms.
Proof.
  induction norms as [|x n' IH]; intros [|w0 w'] w Hl Hi; try discriminate; [destruct Hi|]. simpl in Hl. destruct Hi as [->|Hi].
  - exists x. split; left; auto.
  - destruct (IH w' w) as (y & H1 & H2); auto. exists y. split; right; auto.
Qed.

Lemma find_w0 : forall b norms weights, norms <> [] -> length norms = length weights -> 0 <= b ->
  Forall (fun x => 0 <= x) norms -> Forall wok weights -> (0 < b \/ exists w, In w weights /\ w <> 0) ->
  exists t, find_solution_piecewise_linear b 0 norms weights = Ok t /\ 0 <= t /\
    (vsum (vmul weights norms) < b /\ t = 0 \/
     b <= vsum (vmul weights norms) /\ vsum (vzip (fun x w => w * pos (x - w * t)) norms weights) = b).
Proof.
  intros b norms weights Hne Hl Hb Hn Hw Hp. unfold find_solution_piecewise_linear.
  destruct (Rlt_dec (vsum (vmul weights norms)) b) as [C|C].
  - exists 0. split; auto. split; [lra|]. left; auto.
  - assert (EX : exists w, In w weights /\ w <> 0).
    { destruct Hp as [Hp|Hp]; auto. destruct (Forall_dec (fun w => w = 0) (fun w => Req_EM_T w 0) weights) as [Z|Z].
      - exfalso. apply C. assert (E : vsum (vmul weights norms) = 0); [|lra]. clear -Z. revert norms.
        induction weights as [|w w' IH]; intros [|x n']; auto. unfold vmul in *. cbn [vzip]. rewrite vsum_cons, IH by (eauto using Forall_inv_tail).
        rewrite (Forall_inv Z). lra.
      - apply neg_Forall_Exists_neg in Z; [|intros; destruct (Req_EM_T x 0); auto]. apply Exists_exists in Z. destruct Z as (w & Hi & Hw0). eauto. }
    set (l := knots_of norms weights).
    assert (P : Permutation l (sort_desc l)) by apply sort_desc_perm.
    destruct (pl_start_spec (sort_desc l) b 0) as (t & E & Eq & _); try lra.
    + intros H. rewrite H in P. apply Permutation_sym, Permutation_nil in P. destruct norms; [congruence|]. destruct weights; discriminate.
    + eapply perm_forall; [exact P|]. apply knots_weights.
    + apply sort_desc_sorted.
    + intros p Hp'. left. lra.
    + right. destruct EX as (w & Hi & Hw0). destruct (knots_in norms weights w Hl Hi) as (x & Hx & _). eexists. split; [apply (Permutation_in _ P); exact Hx|]. simpl. nra.
    + rewrite <- (plsum_perm _ _ t P) in Eq. unfold l in Eq. rewrite knots_sum in Eq by auto.
      exists t. split; auto.
      assert (Ht : 0 <= t).
      { destruct (Rle_dec 0 t) as [|Hn0]; auto. exfalso. rewrite cut_sum_neg in Eq by (auto; lra). pose proof (sumsq_pos weights EX). assert (t * vsum (map (fun w => w * w) weights) < 0) by nra. lra. }
      split; auto. right. split; lra.
Qed.

Lemma find_w1 : forall b norms weights, norms <> [] -> length norms = length weights ->
  Forall (fun x => 0 <= x) norms -> Forall (fun w => / 10 ^ 20 <= w) weights ->
  exists t, find_solution_piecewise_linear b 1 norms weights = Ok t /\
    ( (vsum (vmul weights norms) < b /\ t = 0)
      \/ (b <= vsum (vmul weights norms) /\ vsum (vzip (fun x w => w * pos (x - w * t)) norms weights) = t + b /\ 0 <= t /\ 0 <= b + t)
      \/ (b + t < 0 /\ forall j, (j < length norms)%nat -> nth j norms 0 / nth j weights 0 < - b) ).
Proof.
  intros b norms weights Hne Hl Hn Hw. unfold find_solution_piecewise_linear.
  assert (Hw' : Forall wok weights) by (eapply Forall_impl; [|exact Hw]; right; auto).
  destruct (Rlt_dec (vsum (vmul weights norms)) b) as [C|C]; [exists 0; auto|].
  set (l := knots_of norms weights).
  assert (P : Permutation l (sort_desc l)) by apply sort_desc_perm.
  assert (W : Forall (fun p => 0 <= snd p) (sort_desc l)) by (eapply perm_forall; [exact P|]; apply knots_weights).
  assert (Hsl : sort_desc l <> []).
  { intros H. rewrite H in P. apply Permutation_sym, Permutation_nil in P. destruct norms; [congruence|]. destruct weights; discriminate. }
  pose proof (sort_desc_sorted l) as D.
  destruct (sort_desc l) as [|[m s] rest] eqn:E; [congruence|].
  assert (TOP : forall p, In p ((m, s) :: rest) -> fst p <= m).
  { intros p Hp. inversion D as [|? ? D1 D2]; subst. destruct Hp as [<-|Hp]; [simpl; lra|]. rewrite Forall_forall in D2. specialize (D2 _ Hp). simpl in D2. lra. }
  destruct (Rle_dec (- 1 * m) b) as [Cm|Cm].
  - destruct (pl_start_spec ((m, s) :: rest) b 1) as (t & Et & Eq & _); auto; try lra.
    + intros p Hp. destruct (Rle_dec m (fst p)); [left; lra|]. right. exists (m, s). simpl. split; [auto|lra].
    + exists t. split; auto. right. left.
      rewrite <- (plsum_perm _ _ t P) in Eq. unfold l in Eq. rewrite knots_sum in Eq by auto.
      assert (Ht : 0 <= t).
      { destruct (Rle_dec 0 t); auto. exfalso. rewrite cut_sum_neg in Eq by (auto; lra). pose proof (sumsq_nonneg weights). nra. }
      pose proof (cut_sum_nonneg norms weights t Hw'). repeat split; auto; lra.
  - assert (S0 : 0 < s).
    { assert (I : In (m, s) l) by (apply (Permutation_in _ (Permutation_sym P)); left; auto). unfold l in I. clear -I Hw. pose proof e20.
      revert weights Hw I. induction norms as [|x n' IH]; intros [|w w'] Hw I; try (destruct I; fail). destruct I as [I|I].
      - injection I as _ <-. pose proof (Forall_inv Hw). cbv beta in *. nra.
      - apply (IH w'); eauto using Forall_inv_tail. }
    assert (Et : pl_start b 1 ((m, s) :: rest) = Ok (m + (b - - 1 * m) / (- 1 - s))).
    { simpl. destruct rest as [|[x s2] rest']; simpl.
      - apply pl_final_ok. lra.
      - assert (x <= m) by (apply (TOP (x, s2)); right; left; auto).
        destruct (Rlt_dec b (- (1) * m + (- (1) - s) * (x - m))) as [|Q]; [apply pl_final_ok; lra|]. exfalso. apply Q. nra. }
    eexists. split; [exact Et|]. right. right. split.
    + assert (I : 0 < / (1 + s)) by (apply Rinv_0_lt_compat; lra).
      replace (m + (b - - 1 * m) / (- 1 - s)) with (m - (b + m) * / (1 + s)) by (field; lra).
      assert (/ (1 + s) < 1) by (apply Rlt_le_trans with (/ 1); [apply Rinv_lt_contravar; lra|rewrite Rinv_1; lra]). nra.
    + intros j Hj. apply Rle_lt_trans with m; [|lra].
      assert (I : In (nth j norms 0 / nth j weights 0, nth j weights 0 * nth j weights 0) l).
      { unfold l. clear -Hl Hw Hj. revert weights j Hl Hw Hj. induction norms as [|x n' IH]; intros [|w w'] j Hl Hw Hj; try discriminate; [simpl in Hj; lia|].
        destruct j as [|j].
        - left. cbn [nth]. rewrite Rmax_left by (apply (Forall_inv Hw)). auto.
        - right. cbn [nth]. apply IH; eauto using Forall_inv_tail. simpl in Hj; lia. }
      apply (Permutation_in _ P) in I. apply (TOP _ I).
Qed.

(** ** The gauge of each class of coordinates *)
Lemma doc_polar : forall n c, polar_pair n (doc_seminorm c) (doc_seminorm (pair_class c)).
Proof.
  intros n c. assert (G : forall c', gauge n (doc_seminorm c')).
  { intros c'. constructor.
    - intros x r _ E. apply (doc_nonneg c' x r E).
    - intros t x r _ Ht E. apply doc_scal; auto.
    - apply doc_zero. }
  constructor; auto.
  - intros x u r s Lx Lu Ex Eu. rewrite dot_comm. apply (holder c x u r s); auto. congruence.
  - intros u Lu. pose proof (attain (pair_class c) u) as A. rewrite pair_invol in A. destruct (doc_seminorm (pair_class c) u).
    + destruct A as (v & s & Lv & Ev & Hs & Hd). exists v, s. split; [congruence|]. auto.
    + destruct A as (v & Lv & Ev & Hd). exists v. split; [congruence|]. auto.
Qed.

Lemma norm_zero_dot : forall n (x y : vec), length x = n -> length y = n -> norm x = 0 -> dot x y = 0.
Proof. intros n x y Lx Ly H. rewrite (norm_eq_zero x H). apply dot_zeros_l. Qed.
Lemma group_gauge : forall n w, 0 <= w -> gauge n (group_term w) /\ gauge n (group_dual_term w).
Proof.
  intros n w Hw. split; constructor.
  - intros x r _ E. unfold group_term in E. injection E as <-. rewrite ell2_norm. pose proof (norm_nonneg x). nra.
  - intros t x r _ Ht E. unfold group_term in *. injection E as <-. rewrite !ell2_norm, norm_scal, Rabs_right by lra. f_equal. ring.
  - unfold group_term. rewrite ell2_norm, norm_zeros, Rmult_0_r. auto.
  - intros x r _ E. unfold group_dual_term in E. rewrite ell2_norm in E. pose proof (norm_nonneg x).
    destruct (Rlt_dec 0 w); [injection E as <-; apply Rmult_le_pos; auto; apply Rlt_le, Rinv_0_lt_compat; auto|]. destruct (Req_EM_T (norm x) 0); [|discriminate]. injection E as <-. lra.
  - intros t x r _ Ht E. unfold group_dual_term in *. rewrite !ell2_norm in *. rewrite norm_scal, Rabs_right by lra.
    destruct (Rlt_dec 0 w); [injection E as <-; f_equal; unfold Rdiv; ring|]. destruct (Req_EM_T (norm x) 0) as [Z|]; [|discriminate]. injection E as <-.
    rewrite Z, !Rmult_0_r. destruct (Req_EM_T 0 0); [auto|lra].
  - unfold group_dual_term. rewrite ell2_norm, norm_zeros. destruct (Rlt_dec 0 w); [f_equal; unfold Rdiv; ring|]. destruct (Req_EM_T 0 0); [auto|lra].
Qed.
Lemma group_polar : forall n w, 0 <= w -> polar_pair n (group_term w) (group_dual_term w).
Proof.
  intros n w Hw. destruct (group_gauge n w Hw) as [G G']. constructor; auto.
  - intros x u r s Lx Lu Ex Eu. unfold group_term in Ex. injection Ex as <-. unfold group_dual_term in Eu. rewrite ell2_norm in *.
    destruct (Rlt_dec 0 w).
    + injection Eu as <-. pose proof (cauchy_schwarz u x ltac:(congruence)). replace (w * norm x * (norm u / w)) with (norm u * norm x) by (field; lra). auto.
    + destruct (Req_EM_T (norm u) 0) as [Z|]; [|discriminate]. injection Eu as <-. rewrite (norm_zero_dot n u x) by auto. lra.
  - intros u Lu. unfold group_dual_term, group_term. rewrite ell2_norm. pose proof (norm_nonneg u) as Nu. destruct (Rlt_dec 0 w) as [Hw'|Hw'].
    + destruct (Req_EM_T (norm u) 0) as [Z|Z].
      * exists (zeros n), 0. rewrite ell2_norm, norm_zeros, dot_zeros_r, Rmult_0_r, Z. repeat split; [vlen|lra|unfold Rdiv; lra].
      * exists (vscal (/ (w * norm u)) u), 1. assert (0 < norm u) by lra. assert (0 < / (w * norm u)) by (apply Rinv_0_lt_compat; nra).
        rewrite ell2_norm, norm_scal, Rabs_right, dot_scal_r by lra. split; [vlen|]. split; [f_equal; field; lra|]. split; [lra|].
        fold (sqn u). rewrite <- norm_sq. field. lra.
    + assert (w = 0) by lra. subst w. destruct (Req_EM_T (norm u) 0) as [Z|Z].
      * exists (zeros n), 0. rewrite ell2_norm, norm_zeros, dot_zeros_r. repeat split; [vlen|f_equal; lra|lra].
      * exists u. split; auto. split; [f_equal; lra|]. fold (sqn u). rewrite <- norm_sq. assert (0 < norm u) by lra. nra.
Qed.
Lemma group_polar_rev : forall n w, 0 <= w -> polar_pair n (group_dual_term w) (group_term w).
Proof.
  intros n w Hw. destruct (group_gauge n w Hw) as [G G']. constructor; auto.
  - intros x u r s Lx Lu Ex Eu. rewrite dot_comm, Rmult_comm. apply (po_holder _ _ _ (group_polar n w Hw) u x s r); auto.
  - intros u Lu. unfold group_dual_term, group_term. rewrite ell2_norm. pose proof (norm_nonneg u) as Nu.
    destruct (Req_EM_T (norm u) 0) as [Z|Z].
    + exists (zeros n), 0. rewrite ell2_norm, norm_zeros, dot_zeros_r, Z. split; [vlen|]. split; [|lra].
      destruct (Rlt_dec 0 w); [f_equal; unfold Rdiv; lra|]. destruct (Req_EM_T 0 0); [auto|lra].
    + assert (0 < norm u) by lra. destruct (Rlt_dec 0 w) as [Hw'|Hw'].
      * exists (vscal (w / norm u) u), 1. assert (0 < w / norm u) by (apply Rdiv_lt_0_compat; lra).
        rewrite ell2_norm, norm_scal, Rabs_right, dot_scal_r by lra. split; [vlen|]. split; [f_equal; field; lra|]. split; [lra|].
        fold (sqn u). rewrite <- norm_sq. field. lra.
      * assert (w = 0) by lra. subst w. exists (zeros n), 0. rewrite ell2_norm, norm_zeros, dot_zeros_r. split; [vlen|]. split; [destruct (Req_EM_T 0 0); [auto|lra]|]. lra.
Qed.
(** h = 0, polar: indicator of {0} *)
Definition free (x : vec) : ext := Fin 0.
Definition zero_ind (u : vec) : ext := if zero_dec u then Fin 0 else PInf.
Definition nn_ind (x : vec) : ext := if nonneg_dec x then Fin 0 else PInf.
Definition np_ind (u : vec) : ext := if nonpos_dec u then Fin 0 else PInf.
Lemma all_zero_zeros : forall x : vec, Forall (fun a => a = 0) x -> x = zeros (length x).
Proof. induction x as [|a x IH]; intros H; auto. cbn [length zeros repeat]. fold (zeros (length x)). rewrite (Forall_inv H). f_equal. apply IH. eapply Forall_inv_tail; eauto. Qed.
Lemma zeros_all_zero : forall n, Forall (fun a => a = 0) (zeros n).
Proof. induction n; constructor; auto. Qed.
Lemma dot_nn_np : forall (u x : vec), Forall (fun a => a <= 0) u -> Forall (fun a => 0 <= a) x -> dot u x <= 0.
Proof.
  induction u as [|a u IH]; intros [|b x] Hu Hx; try (unfold dot; cbn; lra). rewrite dot_cons. specialize (IH x (Forall_inv_tail Hu) (Forall_inv_tail Hx)).
  pose proof (Forall_inv Hu). pose proof (Forall_inv Hx). cbv beta in *. nra.
Qed.
Lemma ind_gauge : forall n (P : R -> Prop) (dec : forall x : vec, {Forall P x} + {~ Forall P x}), P 0 -> (forall t a, 0 <= t -> P a -> P (t * a)) ->
  gauge n (fun x => if dec x then Fin 0 else PInf).
Proof.
  intros n P dec H0 Hs. constructor.
  - intros x r _ E. destruct (dec x); [|discriminate]. injection E as <-. lra.
  - intros t x r _ Ht E. destruct (dec x) as [F|]; [|discriminate]. injection E as <-. rewrite Rmult_0_r. destruct (dec (vscal t x)) as [|N]; auto. destruct N.
    unfold vscal. apply Forall_forall. intros b Hb. apply in_map_iff in Hb. destruct Hb as (a & <- & Ha). rewrite Forall_forall in F. auto.
  - destruct (dec (zeros n)) as [|N]; auto. destruct N. unfold zeros. clear -H0. induction n; constructor; auto.
Qed.
Lemma free_gauge : forall n, gauge n free.
Proof. intros n. constructor; auto. - intros x r _ E. injection E as <-. lra. - intros t x r _ _ E. injection E as <-. unfold free. f_equal. lra. Qed.
Lemma zero_gauge : forall n, gauge n zero_ind.
Proof. intros. apply (ind_gauge n (fun a => a = 0) zero_dec); auto. intros t a _ ->. lra. Qed.
Lemma nn_gauge : forall n, gauge n nn_ind.
Proof. intros. apply (ind_gauge n (fun a => 0 <= a) nonneg_dec); [lra|]. intros. nra. Qed.
Lemma np_gauge : forall n, gauge n np_ind.
Proof. intros. apply (ind_gauge n (fun a => a <= 0) nonpos_dec); [lra|]. intros. nra. Qed.
Lemma sqn_pos_nonzero : forall u : vec, ~ Forall (fun a => a = 0) u -> 0 < sqn u.
Proof.
  intros u N. pose proof (sqn_nonneg u). destruct (Req_dec (sqn u) 0) as [Z|]; [|lra]. destruct N. rewrite (sqn_eq_zero u Z). apply zeros_all_zero.
Qed.
Lemma free_polar : forall n, polar_pair n free zero_ind.
Proof.
  intros n. constructor; auto using free_gauge, zero_gauge.
  - intros x u r s Lx Lu Ex Eu. injection Ex as <-. unfold zero_ind in Eu. destruct (zero_dec u) as [Z|]; [|discriminate]. rewrite (all_zero_zeros u Z), dot_zeros_l. lra.
  - intros u Lu. unfold zero_ind. destruct (zero_dec u) as [Z|N].
    + exists (zeros n), 0. rewrite dot_zeros_r. repeat split; auto; [vlen|lra].
    + exists u. repeat split; auto. fold (sqn u). apply sqn_pos_nonzero; auto.
Qed.
Lemma free_polar_rev : forall n, polar_pair n zero_ind free.
Proof.
  intros n. constructor; auto using free_gauge, zero_gauge.
  - intros x u r s Lx Lu Ex Eu. rewrite dot_comm, Rmult_comm. apply (po_holder _ _ _ (free_polar n) u x s r); auto.
  - intros u Lu. unfold free. exists (zeros n), 0. rewrite dot_zeros_r, (ga_zero _ _ (zero_gauge n)). repeat split; auto; [vlen|lra].
Qed.
Lemma pick_sign : forall (u : vec) (f : R -> R), (forall a, a * f a >= 0) -> dot u (map f u) >= 0.
Proof. induction u as [|a u IH]; intros f H; [unfold dot; cbn; lra|]. cbn [map]. rewrite dot_cons. specialize (IH f H). specialize (H a). lra. Qed.
Lemma dot_sign_pos : forall (u : vec) (f : R -> R), (forall a, a * f a >= 0) -> (exists a, In a u /\ 0 < a * f a) -> 0 < dot u (map f u).
Proof.
  induction u as [|a u IH]; intros f H (b & Hb & Hp); [destruct Hb|]. cbn [map]. rewrite dot_cons. destruct Hb as [->|Hb].
  - pose proof (pick_sign u f H). lra.
  - assert (0 < dot u (map f u)) by (apply IH; eauto). specialize (H a). lra.
Qed.
Lemma nn_polar : forall n, polar_pair n nn_ind np_ind.
Proof.
  intros n. constructor; auto using nn_gauge, np_gauge.
  - intros x u r s Lx Lu Ex Eu. unfold nn_ind, np_ind in *. destruct (nonneg_dec x) as [Hx|]; [|discriminate]. destruct (nonpos_dec u) as [Hu|]; [|discriminate].
    injection Ex as <-. injection Eu as <-. rewrite Rmult_0_l. apply dot_nn_np; auto.
  - intros u Lu. unfold np_ind. destruct (nonpos_dec u) as [Hu|Hu].
    + exists (zeros n), 0. rewrite dot_zeros_r, (ga_zero _ _ (nn_gauge n)). repeat split; auto; [vlen|lra].
    + exists (map (fun a => Rmax a 0) u). split; [vlen|]. unfold nn_ind. destruct (nonneg_dec (map (fun b => Rmax b 0) u)) as [NN|N].
      * split; auto. apply dot_sign_pos; [intros a0; unfold Rmax; destruct (Rle_dec a0 0); nra|].
        apply neg_Forall_Exists_neg in Hu; [|intros; destruct (Rle_dec x 0); auto]. apply Exists_exists in Hu. destruct Hu as (a & Ha & Hn). exists a. split; auto. rewrite Rmax_left by lra. nra.
      * exfalso. apply N. apply nonneg_map. intros. apply Rmax_r.
Qed.
Lemma nn_polar_rev : forall n, polar_pair n np_ind nn_ind.
Proof.
  intros n. constructor; auto using nn_gauge, np_gauge.
  - intros x u r s Lx Lu Ex Eu. rewrite dot_comm, Rmult_comm. apply (po_holder _ _ _ (nn_polar n) u x s r); auto.
  - intros u Lu. unfold nn_ind. destruct (nonneg_dec u) as [Hu|Hu].
    + exists (zeros n), 0. rewrite dot_zeros_r, (ga_zero _ _ (np_gauge n)). repeat split; auto; [vlen|lra].
    + exists (map (fun a => Rmin a 0) u). split; [vlen|]. unfold np_ind. destruct (nonpos_dec (map (fun b => Rmin b 0) u)) as [NN|N].
      * split; auto. apply dot_sign_pos; [intros a0; unfold Rmin; destruct (Rle_dec a0 0); nra|].
        apply neg_Forall_Exists_neg in Hu; [|intros; destruct (Rle_dec 0 x); auto]. apply Exists_exists in Hu. destruct Hu as (a & Ha & Hn). exists a. split; auto. rewrite Rmin_left by lra. nra.
      * exfalso. apply N. apply Forall_forall. intros b Hb. apply in_map_iff in Hb. destruct Hb as (a & <- & _). apply Rmin_r.
Qed.

(** ** Certificates for each class *)
Lemma map_cert_le : forall (f : R -> R) (Q : R -> Prop) (k : R -> R) x v, length x = length v -> Forall Q v -> (forall a b, Q b -> f a * b <= k b) -> dot (map f x) v <= vsum (map k v).
Proof.
  intros f Q k x v H. pattern x, v. apply vec_ind2; auto; [intros; unfold dot; cbn; lra|]. intros a b X Y HL IH HQ Hk. cbn [map]. rewrite dot_cons, vsum_cons.
  specialize (IH (Forall_inv_tail HQ) Hk). specialize (Hk a b (Forall_inv HQ)). lra.
Qed.
Lemma map_cert_eq : forall (f g : R -> R) (k : R -> R) x, (forall a, f a * g a = k (g a)) -> dot (map f x) (map g x) = vsum (map k (map g x)).
Proof. intros f g k x H. induction x as [|a x IH]; [auto|]. cbn [map]. rewrite dot_cons, vsum_cons, IH, H. auto. Qed.
Lemma sep_pcert : forall n (f : R -> R) (Q : R -> Prop) (k : R -> R) h c x, length x = n ->
  (forall v, length v = n -> Forall Q v -> h v = Fin (vsum (map k v))) -> (forall v s, length v = n -> h v = Fin s -> Forall Q v) ->
  (forall a, Q (a - f a)) -> (forall a b, Q b -> f a * b <= c * k b) -> (forall a, f a * (a - f a) = c * k (a - f a)) ->
  pcert n h c x (vsub x (map f x)).
Proof.
  intros n f Q k h c x Lx Hh Hd HQ H1 H2. split; auto. split; [vlen|]. assert (E : vsub x (map f x) = map (fun a => a - f a) x) by apply vsub_map_self.
  assert (QP : Forall Q (vsub x (map f x))). { rewrite E. apply Forall_forall. intros b Hb. apply in_map_iff in Hb. destruct Hb as (a & <- & _). auto. }
  exists (vsum (map k (vsub x (map f x)))). split; [apply Hh; auto; vlen|]. rewrite (vsub_vsub n) by (auto; vlen). split.
  - intros v s Lv Ev. pose proof (Hd v s Lv Ev) as Qv. rewrite (Hh v Lv Qv) in Ev. injection Ev as <-.
    rewrite <- vsum_map_scale. apply map_cert_le with (Q := Q); auto. congruence.
  - rewrite E, <- vsum_map_scale. apply map_cert_eq. auto.
Qed.
(** group soft-thresholding *)
Definition gfac (c w s : R) : R := if Rlt_dec 0 s then Rmin 1 (c * w / s) else 1.
Lemma gfac_cases : forall c w s, 0 <= c -> 0 <= w -> 0 <= s ->
  (s <= c * w /\ (s = 0 \/ gfac c w s = 1)) \/ (c * w < s /\ gfac c w s = c * w / s /\ 0 <= c * w / s < 1).
Proof.
  intros c w s Hc Hw Hs. unfold gfac. assert (0 <= c * w) by nra. destruct (Rlt_dec 0 s) as [P|P]; [|left; split; [lra|left; lra]].
  assert (I : 0 < / s) by (apply Rinv_0_lt_compat; auto). assert (E : c * w = (c * w / s) * s) by (field; lra). assert (0 <= c * w / s) by (unfold Rdiv; nra).
  destruct (Rle_dec s (c * w)) as [L|L].
  - left. split; auto. right. apply Rmin_left. nra.
  - right. split; [lra|]. assert (c * w / s < 1) by nra. split; [apply Rmin_right; lra|lra].
Qed.
Lemma group_pcert : forall n c w x, length x = n -> 0 <= c -> 0 <= w ->
  pcert n (group_term w) c x (vsub x (vscal (gfac c w (norm x)) x)) /\ norm (vsub x (vscal (gfac c w (norm x)) x)) = pos (norm x - w * c).
Proof.
  intros n c w x Lx Hc Hw. pose proof (norm_nonneg x) as Nx. rewrite vsub_scal_self.
  assert (PC : forall t, 0 <= t <= 1 -> t * norm x <= c * w -> t * norm x * ((1 - t) * norm x) = c * w * ((1 - t) * norm x) -> pcert n (group_term w) c x (vscal (1 - t) x)).
  { intros t Ht H1 H2. split; auto. split; [vlen|]. exists (w * norm (vscal (1 - t) x)). split; [unfold group_term; rewrite ell2_norm; auto|].
    rewrite vsub_scal_self. replace (1 - (1 - t)) with t by ring. split.
    - intros v s Lv Ev. unfold group_term in Ev. injection Ev as <-. rewrite ell2_norm, dot_scal_l. pose proof (cauchy_schwarz x v ltac:(congruence)). pose proof (norm_nonneg v).
      apply Rle_trans with (t * (norm x * norm v)); [apply Rmult_le_compat_l; lra|]. assert (t * norm x * norm v <= c * w * norm v) by (apply Rmult_le_compat_r; auto). lra.
    - rewrite dot_scal_l, dot_scal_r, norm_scal, Rabs_right by lra. fold (sqn x). rewrite <- norm_sq. lra. }
  destruct (gfac_cases c w (norm x) Hc Hw Nx) as [(A & [Z|B])|(A & B & C)].
  - rewrite Z in *. rewrite (norm_eq_zero x Z) at 2 3. rewrite vscal_zeros. split.
    + replace (zeros (length x)) with (vscal (1 - 1) x) by (rewrite Rminus_diag_eq by auto; apply vscal_0). apply PC; lra.
    + rewrite norm_zeros. symmetry. apply pos_of_nonpos. nra.
  - rewrite B. split; [apply PC; nra|]. rewrite norm_scal, Rminus_diag_eq, Rabs_R0 by auto. rewrite pos_of_nonpos by lra. lra.
  - assert (0 < norm x) by nra. assert (E : c * w / norm x * norm x = c * w) by (field; lra). rewrite B. split.
    + apply PC; [lra|lra|]. rewrite E. ring.
    + rewrite norm_scal, Rabs_right, pos_of_nonneg by lra. lra.
Qed.
Definition l1clip (c a : R) : R := if Req_EM_T a 0 then 0 else a * Rmin 1 (c / Rabs a).
Lemma l1clip_soft : forall c a, 0 <= c -> a - l1clip c a = soft c a.
Proof.
  intros c a Hc. unfold l1clip. destruct (Req_EM_T a 0) as [->|N].
  - scal.
  - assert (0 < Rabs a) by (apply Rabs_pos_lt; auto). destruct (Rle_dec (Rabs a) c) as [L|L].
    + rewrite Rmin_left; [scal|]. apply Rmult_le_reg_r with (Rabs a); auto. unfold Rdiv. rewrite Rmult_assoc, Rinv_l by lra. lra.
    + rewrite Rmin_right. 2:{ apply Rmult_le_reg_r with (Rabs a); auto. unfold Rdiv. rewrite Rmult_assoc, Rinv_l by lra. lra. }
      assert (E : a * (c / Rabs a) = if Rle_dec 0 a then c else - c).
      { destruct (Rle_dec 0 a); [rewrite Rabs_right by lra|rewrite Rabs_left by lra]; field; lra. }
      rewrite E. clear E. destruct (Rle_dec 0 a); [rewrite Rabs_right in * by lra|rewrite Rabs_left in * by lra]; scal.
Qed.
Lemma l1_pcert : forall n c x, length x = n -> 0 <= c -> pcert n (doc_seminorm CL1) c x (vsub x (map (l1clip c) x)).
Proof.
  intros n c x Lx Hc. apply sep_pcert with (Q := fun _ => True) (k := Rabs); auto using Forall_True.
  - intros a b _. assert (E : l1clip c a = a - soft c a) by (rewrite <- l1clip_soft; lra). rewrite E. pose proof (soft_resid c a Hc).
    eapply Rle_trans; [apply Rle_abs|]. rewrite Rabs_mult. apply Rmult_le_compat_r; auto. apply Rabs_pos.
  - intros a. rewrite l1clip_soft by auto. assert (E : l1clip c a = a - soft c a) by (rewrite <- l1clip_soft; lra). rewrite E. apply soft_align; auto.
Qed.
Lemma pos_pcert : forall n c x, length x = n -> 0 <= c -> pcert n (doc_seminorm CConPosPart) c x (vsub x (map (Rmin c) x)).
Proof.
  intros n c x Lx Hc. apply sep_pcert with (Q := fun a => 0 <= a) (k := fun a => a); auto.
  - intros v Lv Hv. cbn. destruct (nonneg_dec v) as [|N]; [|tauto]. rewrite map_id. f_equal. apply ell1_of_nonneg; auto.
  - intros v s Lv Ev. cbn in Ev. destruct (nonneg_dec v); [auto|discriminate].
  - intros a. pose proof (Rmin_r c a). lra.
  - intros a b Hb. pose proof (Rmin_l c a). nra.
  - intros a. unfold Rmin. destruct (Rle_dec c a); nra.
Qed.
Lemma nn_pcert : forall n c x, length x = n -> 0 <= c -> pcert n nn_ind c x (vsub x (map (fun a => Rmin a 0) x)).
Proof.
  intros n c x Lx Hc. apply sep_pcert with (Q := fun a => 0 <= a) (k := fun a => 0); auto.
  - intros v Lv Hv. unfold nn_ind. destruct (nonneg_dec v) as [|N]; [|tauto]. f_equal. clear. induction v; cbn; auto. unfold vsum in *. cbn. lra.
  - intros v s Lv Ev. unfold nn_ind in Ev. destruct (nonneg_dec v); [auto|discriminate].
  - intros a. pose proof (Rmin_l a 0). lra.
  - intros a b Hb. pose proof (Rmin_r a 0). nra.
  - intros a. unfold Rmin. destruct (Rle_dec a 0); nra.
Qed.
Lemma free_pcert : forall n c x, length x = n -> pcert n free c x (vsub x (map (fun _ => 0) x)).
Proof.
  intros n c x Lx. apply sep_pcert with (Q := fun a => True) (k := fun a => 0); auto using Forall_True.
  - intros v Lv Hv. unfold free. f_equal. clear. induction v; cbn; auto. unfold vsum in *. cbn. lra.
  - intros. lra.
  - intros. lra.
Qed.

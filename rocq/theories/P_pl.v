(** Proofs about the piecewise-linear root finders. *)
From Coq Require Import Reals List Lra Lia Psatz Permutation Sorted.
From Verif Require Import Vec Spec M_quad M_prox.
Import ListNotations.
Local Open Scope R_scope.

Lemma perm_forall : forall A (P : A -> Prop) l l', Permutation l l' -> Forall P l -> Forall P l'.
Proof. intros A P l l' H F. rewrite Forall_forall in *. intros x Hx. apply F. apply (Permutation_in _ (Permutation_sym H)). auto. Qed.

Definition desc (l : list (R * R)) := StronglySorted (fun p q => fst q <= fst p) l.

Lemma insert_desc_perm : forall p l, Permutation (p :: l) (insert_desc p l).
Proof.
  intros p. induction l as [|q l IH]; simpl; auto.
  destruct (Rle_dec (fst q) (fst p)); auto.
  rewrite perm_swap. constructor. auto.
Qed.
Lemma sort_desc_perm : forall l, Permutation l (sort_desc l).
Proof.
  induction l as [|p l IH]; simpl; auto. rewrite <- insert_desc_perm. constructor. auto.
Qed.
Lemma insert_desc_sorted : forall p l, desc l -> desc (insert_desc p l).
Proof.
  intros p. induction l as [|q l IH]; intros H; simpl.
  - repeat constructor.
  - inversion H as [|q' l' Hs Hf E]. subst. destruct (Rle_dec (fst q) (fst p)) as [C|C].
    + constructor; auto. constructor; auto. eapply Forall_impl; [|exact Hf]. simpl. intros; lra.
    + constructor; [apply IH; auto|].
      apply perm_forall with (l := p :: l); [apply insert_desc_perm|]. constructor; auto. lra.
Qed.
Lemma sort_desc_sorted : forall l, desc (sort_desc l).
Proof. induction l; simpl; [constructor|apply insert_desc_sorted; auto]. Qed.

(** sum_i s_i (x_i - t)^+ *)
Definition plsum (l : list (R * R)) (t : R) : R :=
  fold_right (fun p acc => snd p * pos (fst p - t) + acc) 0 l.

Lemma plsum_perm : forall l l' t, Permutation l l' -> plsum l t = plsum l' t.
Proof. induction 1; simpl; lra. Qed.

Lemma pos_nonneg : forall a, 0 <= pos a.
Proof. intros. unfold pos. apply Rmax_r. Qed.
Lemma pos_of_nonneg : forall a, 0 <= a -> pos a = a.
Proof. intros. unfold pos. apply Rmax_left. auto. Qed.
Lemma pos_of_nonpos : forall a, a <= 0 -> pos a = 0.
Proof. intros. unfold pos. apply Rmax_right. auto. Qed.

Lemma plsum_zero : forall l t, Forall (fun p => fst p <= t) l -> plsum l t = 0.
Proof.
  induction l as [|p l IH]; intros t H; simpl; auto. inversion H; subst.
  rewrite IH, pos_of_nonpos by (auto; lra). lra.
Qed.
Lemma plsum_nonneg : forall l t, Forall (fun p => 0 <= snd p) l -> 0 <= plsum l t.
Proof.
  induction l as [|p l IH]; intros t H; simpl; [lra|]. inversion H; subst.
  pose proof (IH t H3). pose proof (pos_nonneg (fst p - t)). nra.
Qed.

Lemma pl_final_ok : forall b slope X V, slope <> 0 ->
  pl_final b slope X V = Ok (X + (b - V) / slope).
Proof. intros. unfold pl_final. destruct (Req_EM_T slope 0); [congruence|]. f_equal. field. auto. Qed.

(** Loop invariant of the scan. *)
Lemma pl_scan_spec : forall rest b slope X V s,
  slope <= 0 -> 0 <= s -> Forall (fun p => 0 <= snd p) rest ->
  desc rest -> Forall (fun p => fst p <= X) rest -> V <= b ->
  (exists t, pl_scan b slope X V s rest = Ok t /\ t <= X /\
     V + (slope - s) * (t - X) + plsum rest t = b) \/
  (pl_scan b slope X V s rest = Err ZeroDivisionError /\ slope = 0 /\ s = 0 /\ Forall (fun p => snd p = 0) rest).
Proof.
  induction rest as [|[x s2] rest IH]; intros b slope X V s Hsl Hs Hw Hd Hle HV; simpl.
  - destruct (Req_dec (slope - s) 0) as [E|E].
    + right. unfold pl_final. destruct (Req_EM_T (slope - s) 0); [|congruence]. repeat split; auto; lra.
    + left. exists (X + (b - V) / (slope - s)). rewrite pl_final_ok by auto. split; auto. split.
      * assert (slope - s < 0) by lra. assert ((b - V) / (slope - s) <= 0); [|lra].
        unfold Rdiv. assert (/ (slope - s) < 0) by (apply Rinv_lt_0_compat; lra). nra.
      * field_simplify; lra.
  - inversion Hw as [|? ? Hs2 Hw']; subst. simpl in Hs2.
    inversion Hle as [|? ? HxX Hle']; subst. simpl in HxX.
    inversion Hd as [|? ? Hd' Hfd]; subst.
    destruct (Rlt_dec b (V + (slope - s) * (x - X))) as [C|C].
    + left. assert (Hneg : slope - s < 0) by nra.
      exists (X + (b - V) / (slope - s)). rewrite pl_final_ok by lra. split; auto.
      assert (Hi : / (slope - s) < 0) by (apply Rinv_lt_0_compat; lra).
      assert (Hii : (slope - s) * / (slope - s) = 1) by (apply Rinv_r; lra).
      split; [unfold Rdiv; nra|].
      assert (Hgt : x <= X + (b - V) / (slope - s)).
      { unfold Rdiv. assert (b - V < (slope - s) * (x - X)) by lra. nra. }
      rewrite plsum_zero by (eapply Forall_impl; [|exact Hfd]; simpl; intros; lra).
      rewrite pos_of_nonpos by lra. field. lra.
    + destruct (IH b (slope - s) x (V + (slope - s) * (x - X)) s2) as [(t & E & Ht & Eq)|(E & E1 & E2 & E3)]; auto; try lra.
      * left. exists t. split; auto. split; [lra|]. rewrite pos_of_nonneg by lra. lra.
      * right. repeat split; auto; try lra. 
Qed.

Lemma pl_start_spec : forall l b slope0, l <> [] ->
  0 <= slope0 -> Forall (fun p => 0 <= snd p) l -> desc l ->
  (forall p, In p l -> - slope0 * fst p <= b \/ exists q, In q l /\ fst p < fst q) ->
  (0 < slope0 \/ exists p, In p l /\ 0 < snd p) ->
  exists t, pl_start b slope0 l = Ok t /\ - slope0 * t + plsum l t = b /\ (exists p, In p l /\ t <= fst p).
Proof.
  intros [|[x s] rest] b slope0 Hne Hs Hw Hd Hb Hpos; [congruence|]. simpl pl_start.
  inversion Hw as [|? ? Hs1 Hw']; subst. inversion Hd as [|? ? Hd' Hfd]; subst. simpl in *.
  destruct (pl_scan_spec rest b (- slope0) x (- slope0 * x) s) as [(t & E & Ht & Eq)|(E & E1 & E2 & E3)]; auto; try lra.
  - destruct (Hb (x, s)) as [H|(q & [Hq|Hq] & Hlt)]; simpl in *; auto; [subst; simpl in *; lra|].
    rewrite Forall_forall in Hfd. specialize (Hfd _ Hq). simpl in Hfd. lra.
  - exists t. split; auto. split; [|exists (x, s); auto]. rewrite pos_of_nonneg by lra. lra.
  - exfalso. destruct Hpos as [H|(p & [Hp|Hp] & Hlt)]; [lra| |].
    + subst p. simpl in Hlt. lra.
    + rewrite Forall_forall in E3. rewrite (E3 _ Hp) in Hlt. lra.
Qed.

Lemma plsum_antitone : forall l t u, Forall (fun p => 0 <= snd p) l -> t <= u -> plsum l u <= plsum l t.
Proof.
  induction l as [|p l IH]; intros t u H Htu; simpl; [lra|]. inversion H; subst.
  pose proof (IH t u H3 Htu). assert (pos (fst p - u) <= pos (fst p - t)).
  { unfold pos. apply Rle_max_compat_r. lra. }
  nra.
Qed.

Lemma plsum_units : forall norms t, plsum (map (fun x => (x, 1)) norms) t = vsum (map (fun x => pos (x - t)) norms).
Proof. induction norms as [|a l IH]; intros t; simpl; auto. rewrite IH. unfold vsum. lra. Qed.

Lemma map_unit_weights : forall (norms : vec) (P : R -> Prop), P 1 ->
  Forall (fun p : R * R => P (snd p)) (map (fun x => (x, 1)) norms).
Proof. intros. apply Forall_forall. intros p Hp. apply in_map_iff in Hp. destruct Hp as (x & <- & _). auto. Qed.

(** The unweighted root finder with slope 0: complementary slackness form. *)
Definition cut_ok (b : R) (norms : vec) (t : R) : Prop :=
  0 <= t /\ vsum (map (fun x => pos (x - t)) norms) <= b /\
  t * (vsum (map (fun x => pos (x - t)) norms) - b) = 0.

Lemma sum_pos_shift0 : forall norms, Forall (fun x => 0 <= x) norms ->
  vsum (map (fun x => pos (x - 0)) norms) = vsum norms.
Proof.
  induction norms as [|a l IH]; intros H; simpl; auto. inversion H; subst.
  fold (vsum (map (fun x => pos (x - 0)) l)). rewrite IH, pos_of_nonneg by (auto; lra). unfold vsum; lra.
Qed.

Lemma sum_pos_neg_shift : forall norms t, Forall (fun x => 0 <= x) norms -> t <= 0 ->
  vsum (map (fun x => pos (x - t)) norms) = vsum norms - INR (length norms) * t.
Proof.
  induction norms as [|a l IH]; intros t H Ht; [simpl; lra|]. inversion H; subst.
  cbn [map length]. rewrite !vsum_cons, IH, pos_of_nonneg, S_INR by (auto; lra). lra.
Qed.

Lemma find_c_slope0 : forall b norms, norms <> [] -> 0 <= b -> Forall (fun x => 0 <= x) norms ->
  exists t, find_solution_piecewise_linear_c b 0 norms = Ok t /\ cut_ok b norms t /\
    (vsum norms < b /\ t = 0 \/
     b <= vsum norms /\ vsum (map (fun x => pos (x - t)) norms) = b /\ exists m, In m norms /\ t <= m).
Proof.
  intros b norms Hne Hb Hn. unfold find_solution_piecewise_linear_c.
  destruct (Rlt_dec (vsum norms) b) as [C|C].
  - exists 0. split; auto. split; [|left; auto]. unfold cut_ok. rewrite sum_pos_shift0 by auto. lra.
  - set (l := map (fun x => (x, 1)) norms).
    assert (P : Permutation l (sort_desc l)) by apply sort_desc_perm.
    assert (W : Forall (fun p => 0 <= snd p) l) by (apply (map_unit_weights norms (fun w => 0 <= w)); lra).
    destruct norms as [|a norms']; [congruence|].
    destruct (pl_start_spec (sort_desc l) b 0) as (t & E & Eq & (p & Hp & Hpt)); try lra.
    + intros H. rewrite H in P. apply Permutation_sym, Permutation_nil in P. discriminate.
    + eapply perm_forall; [exact P|auto].
    + apply sort_desc_sorted.
    + intros p Hp. left. lra.
    + right. exists (a, 1). simpl. split; [|lra]. apply Permutation_in with (l := l); auto. left. auto.
    + rewrite <- (plsum_perm _ _ t P) in Eq. unfold l in Eq. rewrite plsum_units in Eq.
      assert (Eq' : vsum (map (fun x => pos (x - t)) (a :: norms')) = b) by lra.
      assert (Ht : 0 <= t).
      { destruct (Rle_dec 0 t); auto. exfalso. rewrite sum_pos_neg_shift in Eq' by (auto; lra).
        assert (0 < INR (length (a :: norms'))) by (apply lt_0_INR; simpl; lia). nra. }
      exists t. split; auto. split.
      * unfold cut_ok. rewrite Eq'. repeat split; lra.
      * right. split; [lra|]. split; auto.
        apply (Permutation_in _ (Permutation_sym P)) in Hp. unfold l in Hp. apply in_map_iff in Hp.
        destruct Hp as (m & <- & Hm). exists m. auto.
Qed.

Lemma find_c_empty : forall b slope, 
  find_solution_piecewise_linear_c b slope [] = if Rlt_dec 0 b then Ok 0 else Err IndexError.
Proof. intros. unfold find_solution_piecewise_linear_c. simpl. destruct (Rlt_dec 0 b); auto. Qed.

(** slope 1 (epigraph). *)
Lemma find_c_slope1 : forall b norms, norms <> [] -> Forall (fun x => 0 <= x) norms ->
  exists t, find_solution_piecewise_linear_c b 1 norms = Ok t /\
    ( (vsum norms < b /\ t = 0)
      \/ (b <= vsum norms /\ vsum (map (fun x => pos (x - t)) norms) = t + b /\ 0 <= t /\ 0 <= b + t)
      \/ (b + t < 0 /\ Forall (fun x => x < - b) norms) ).
Proof.
  intros b norms Hne Hn. unfold find_solution_piecewise_linear_c.
  destruct (Rlt_dec (vsum norms) b) as [C|C]; [exists 0; auto|].
  set (l := map (fun x => (x, 1)) norms).
  assert (P : Permutation l (sort_desc l)) by apply sort_desc_perm.
  assert (W : Forall (fun p => 0 <= snd p) (sort_desc l)).
  { eapply perm_forall; [exact P|]. apply (map_unit_weights norms (fun w => 0 <= w)); lra. }
  assert (Hl : l <> []) by (destruct norms; [congruence|discriminate]).
  assert (Hsl : sort_desc l <> []).
  { intros H. rewrite H in P. apply Permutation_sym, Permutation_nil in P. congruence. }
  pose proof (sort_desc_sorted l) as D.
  destruct (sort_desc l) as [|[m s] rest] eqn:E; [congruence|].
  destruct (Rle_dec (- 1 * m) b) as [Cm|Cm].
  - destruct (pl_start_spec ((m, s) :: rest) b 1) as (t & Et & Eq & _); auto; try lra.
    + intros p Hp. inversion D as [|? ? D1 D2]; subst. destruct Hp as [<-|Hp]; [left; simpl; lra|].
      rewrite Forall_forall in D2. specialize (D2 _ Hp). simpl in D2.
      destruct (Rle_dec m (fst p)); [left; lra|]. right. exists (m, s). simpl. split; [auto|lra].
    + exists t. split; auto. right. left.
      rewrite <- (plsum_perm _ _ t P) in Eq. unfold l in Eq. rewrite plsum_units in Eq.
      assert (Ht : 0 <= t).
      { destruct (Rle_dec 0 t); auto. exfalso. rewrite sum_pos_neg_shift in Eq by (auto; lra).
        assert (0 <= INR (length norms)) by apply pos_INR. nra. }
      repeat split; auto; try lra.
      assert (0 <= vsum (map (fun x => pos (x - t)) norms)).
      { clear. induction norms; simpl; [lra|]. pose proof (pos_nonneg (a - t)). unfold vsum in *. lra. }
      lra.
  - (* the whole graph lies above b at the first knot: the scan stops at once *)
    assert (S1 : s = 1).
    { assert (In (m, s) l). { apply (Permutation_in _ (Permutation_sym P)). left; auto. }
      unfold l in H. apply in_map_iff in H. destruct H as (x & Hx & _). congruence. }
    subst s.
    assert (Et : pl_start b 1 ((m, 1) :: rest) = Ok (m + (b - - 1 * m) / (- 1 - 1))).
    { simpl. destruct rest as [|[x s2] rest']; simpl.
      - apply pl_final_ok. lra.
      - inversion D as [|? ? D1 D2]; subst. inversion D2 as [|? ? D3 D4]; subst. simpl in D3.
        destruct (Rlt_dec b (- (1) * m + (- (1) - 1) * (x - m))); [|nra]. apply pl_final_ok. lra. }
    eexists. split; [exact Et|]. right. right. split; [lra|].
    apply Forall_forall. intros x Hx.
    assert (In (x, 1) ((m,1)::rest)).
    { apply (Permutation_in _ P). unfold l. apply in_map_iff. exists x; auto. }
    inversion D as [|? ? D1 D2]; subst. destruct H as [H|H].
    + injection H as <-. lra.
    + rewrite Forall_forall in D2. specialize (D2 _ H). simpl in D2. lra.
Qed.

(** unconstrained version *)
Lemma find_uncon_spec : forall b values, values <> [] -> 0 <= b ->
  exists t, find_solution_piecewise_linear_uncon b values = Ok t /\
    vsum (map (fun x => pos (x - t)) values) = b /\ exists m, In m values /\ t <= m.
Proof.
  intros b values Hne Hb. unfold find_solution_piecewise_linear_uncon.
  set (l := map (fun x => (x, 1)) values).
  assert (P : Permutation l (sort_desc l)) by apply sort_desc_perm.
  destruct values as [|a v']; [congruence|].
  destruct (pl_start_spec (sort_desc l) b 0) as (t & E & Eq & (p & Hp & Hpt)); try lra.
  - intros H. rewrite H in P. apply Permutation_sym, Permutation_nil in P. discriminate.
  - eapply perm_forall; [exact P|]. apply (map_unit_weights (a :: v') (fun w => 0 <= w)); lra.
  - apply sort_desc_sorted.
  - intros p Hp. left. lra.
  - right. exists (a, 1). simpl. split; [|lra]. apply Permutation_in with (l := l); auto. left. auto.
  - exists t. split; auto. rewrite <- (plsum_perm _ _ t P) in Eq. unfold l in Eq. rewrite plsum_units in Eq.
    split; [lra|]. apply (Permutation_in _ (Permutation_sym P)) in Hp. unfold l in Hp. apply in_map_iff in Hp.
    destruct Hp as (m & <- & Hm). exists m. auto.
Qed.

(** weighted version, weights bounded below by 1e-20 *)
Lemma knots_of_sum : forall norms weights t, length norms = length weights ->
  Forall (fun w => / 10 ^ 20 <= w) weights ->
  plsum (knots_of norms weights) t =
  vsum (vzip (fun x w => w * pos (x - w * t)) norms weights).
Proof.
  intros norms weights t Hl. pattern norms, weights. apply vec_ind2; auto.
  intros x w n' w' _ IH Hw. inversion Hw as [|? ? H1 H2]; subst.
  assert (Hw0 : 0 < w). { assert (0 < / 10 ^ 20) by (apply Rinv_0_lt_compat, pow_lt; lra). lra. }
  cbn [knots_of plsum fold_right vzip fst snd]. fold (plsum (knots_of n' w') t). rewrite vsum_cons, IH by auto. f_equal.
  rewrite Rmax_left by auto. unfold pos.
  replace (x - w * t) with (w * (x / w - t)) by (field; lra).
  unfold Rmax. destruct (Rle_dec (x / w - t) 0), (Rle_dec (w * (x / w - t)) 0); nra.
Qed.

Lemma weighted_sum0 : forall norms weights, length norms = length weights ->
  Forall (fun x => 0 <= x) norms ->
  vsum (vzip (fun x w => w * pos (x - w * 0)) norms weights) = vsum (vmul weights norms).
Proof.
  intros norms weights Hl. pattern norms, weights. apply vec_ind2; auto.
  intros x w n' w' _ IH Hn. inversion Hn; subst. unfold vmul in *. cbn [vzip]. rewrite !vsum_cons, IH by auto.
  rewrite pos_of_nonneg by lra. lra.
Qed.

Lemma find_w_slope0 : forall b norms weights, norms <> [] -> length norms = length weights -> 0 <= b ->
  Forall (fun x => 0 <= x) norms -> Forall (fun w => / 10 ^ 20 <= w) weights ->
  exists t, find_solution_piecewise_linear b 0 norms weights = Ok t /\ 0 <= t /\
    (vsum (vmul weights norms) < b /\ t = 0 \/
     b <= vsum (vmul weights norms) /\ vsum (vzip (fun x w => w * pos (x - w * t)) norms weights) = b).
Proof.
  intros b norms weights Hne Hl Hb Hn Hw. unfold find_solution_piecewise_linear.
  destruct (Rlt_dec (vsum (vmul weights norms)) b) as [C|C].
  - exists 0. split; auto. split; [lra|]. left; auto.
  - set (l := knots_of norms weights).
    assert (H20 : 0 < / 10 ^ 20) by (apply Rinv_0_lt_compat, pow_lt; lra).
    assert (P : Permutation l (sort_desc l)) by apply sort_desc_perm.
    assert (W : Forall (fun p => 0 < snd p) l).
    { unfold l. clear - Hl Hw H20. revert weights Hl Hw. induction norms as [|x n' IH]; intros [|w w'] Hl Hw; simpl; auto.
      inversion Hw; subst. constructor; [simpl; nra|]. apply IH; auto. }
    destruct norms as [|a n']; [congruence|]. destruct weights as [|w w']; [discriminate|].
    destruct (pl_start_spec (sort_desc l) b 0) as (t & E & Eq & _); try lra.
    + intros H. rewrite H in P. apply Permutation_sym, Permutation_nil in P. discriminate.
    + eapply perm_forall; [exact P|]. eapply Forall_impl; [|exact W]. simpl; intros; lra.
    + apply sort_desc_sorted.
    + intros p Hp. left. lra.
    + right. destruct l as [|p l'] eqn:El; [discriminate|]. exists p. split.
      * apply Permutation_in with (l := p :: l'); auto. left; auto.
      * inversion W; auto.
    + rewrite <- (plsum_perm _ _ t P) in Eq. unfold l in Eq. rewrite knots_of_sum in Eq by auto.
      exists t. split; auto.
      assert (Ht : 0 <= t).
      { destruct (Rle_dec 0 t) as [|Hn0]; auto. exfalso.
        assert (K : forall x0 w0, length x0 = length w0 -> Forall (fun x => 0 <= x) x0 -> Forall (fun w => / 10 ^ 20 <= w) w0 ->
            vsum (vzip (fun x w => w * pos (x - w * 0)) x0 w0) <= vsum (vzip (fun x w => w * pos (x - w * t)) x0 w0)).
        { intros x0 w0 H0. pattern x0, w0. apply vec_ind2; auto; [simpl; lra|].
          intros x1 w1 x2 w2 _ IH Hx Hw0. inversion Hx as [|? ? Hx1 Hx2]; inversion Hw0 as [|? ? Hw1 Hw2]; subst. cbn [vzip]. rewrite !vsum_cons.
          specialize (IH Hx2 Hw2). rewrite !pos_of_nonneg by nra. nra. }
        pose proof (Forall_inv Hn) as Hx1. pose proof (Forall_inv_tail Hn) as Hx2. simpl in Hx1.
        pose proof (Forall_inv Hw) as Hw1. pose proof (Forall_inv_tail Hw) as Hw2. simpl in Hl. cbv beta in Hw1.
        specialize (K n' w' (f_equal pred Hl) Hx2 Hw2).
        pose proof (weighted_sum0 (a :: n') (w :: w') Hl Hn) as Z.
        cbn [vzip] in Eq, Z. rewrite vsum_cons in Eq, Z. rewrite pos_of_nonneg in Eq by nra.
        assert (Hw0 : 0 < w) by (eapply Rlt_le_trans; eauto).
        clear - Eq Hn0 K Hx1 Hw0 Z C. apply C. rewrite <- Z, <- Eq.
        rewrite (pos_of_nonneg (a - w * 0)) by lra.
        assert (0 < w * w * - t) by (apply Rmult_lt_0_compat; nra). lra. }
      split; auto. right. split; lra.
Qed.

Lemma find_c_slope0_root : forall b norms, norms <> [] -> 0 <= b -> Forall (fun x => 0 <= x) norms ->
  exists t, find_solution_piecewise_linear_c b 0 norms = Ok t /\ 0 <= t /\
    (vsum norms < b -> t = 0) /\
    (b <= vsum norms -> vsum (map (fun x => pos (x - t)) norms) = b).
Proof.
  intros b norms H1 H2 H3. destruct (find_c_slope0 b norms H1 H2 H3) as (t & E & (Ht & _) & D).
  exists t. repeat split; auto; intros; destruct D as [D|D]; try lra; tauto.
Qed.

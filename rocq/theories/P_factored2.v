(** Factored matrices: the iterated decomposition. *)
From Coq Require Import Reals List Lra Lia Psatz Arith Bool.
From Verif Require Import M_affine P_affine P_affine2 Vec Spec SpecLoss M_quad M_prox M_semi M_shift SpecAtom SpecBase SpecMode M_mode SpecModed SpecPart SpecBlock M_cones SpecCone P_quad P_calc P_sep P_cv P_pl P_prox P_feas P_semi P_shift P_conj P_cones P_gauge P_part P_mixed M_linear SpecLinear P_linear SpecSvd P_svd1 P_svd2 P_svd3 M_svd SpecSvd2 P_svd4 P_svd5 M_factored SpecFactored P_factored1.
Import ListNotations.
Local Open Scope R_scope.

Lemma desc_tail : forall a (d : vec), descending (a :: d) -> descending d /\ Forall (fun b => b <= a) d.
Proof.
  intros a d H. split; [destruct d; [exact I|apply H]|]. apply Forall_forall. intros b Ib. apply (descending_app [a] d); auto. left; auto.
Qed.
Lemma desc_split : forall h (d : vec), descending d -> exists j, (j <= length d)%nat /\ map (fun a => if Rlt_dec h a then true else false) d = repeat true j ++ repeat false (length d - j) /\ Forall (fun a => h < a) (firstn j d) /\ Forall (fun a => a <= h) (skipn j d).
Proof.
  intros h. induction d as [|a d IH]; intros H; [exists 0%nat; repeat split; auto; constructor|]. destruct (desc_tail _ _ H) as [H1 H2]. destruct (Rlt_dec h a) as [A|A].
  - destruct (IH H1) as (j & J1 & J2 & J3 & J4). exists (S j). split; [cbn; lia|]. split; [cbn [map repeat app length Nat.sub]; destruct (Rlt_dec h a); [|lra]; rewrite J2; auto|]. split; [constructor; auto|auto].
  - exists 0%nat. assert (F : Forall (fun b => b <= h) (a :: d)) by (constructor; [lra|]; eapply Forall_impl; [|exact H2]; intros b Hb; cbn in Hb; lra). split; [lia|]. split; [|split; [constructor|exact F]].
    rewrite Nat.sub_0_r. cbn [repeat app]. clear -F. induction F as [|x l Hx F IH]; auto. cbn [map length repeat]. rewrite IH. destruct (Rlt_dec h x); auto. lra.
Qed.
Lemma desc_firstn : forall q (d : vec), descending d -> descending (firstn q d).
Proof.
  induction q as [|q IH]; intros [|a d] H; try exact I. destruct (desc_tail _ _ H) as [H1 H2]. cbn [firstn]. specialize (IH d H1). destruct q; [exact I|]. destruct d as [|b d]; [exact I|]. cbn [firstn] in *. split; auto. inversion H2; auto.
Qed.
Lemma kept_prefix : forall {A} j m (l : list A), kept (repeat true j ++ repeat false m) l = firstn j l.
Proof.
  intros A. induction j as [|j IH]; intros m l; [|destruct l; cbn; auto; rewrite IH; auto].
  cbn [repeat app firstn]. revert l. induction m as [|m IH]; intros [|x l]; cbn; auto.
Qed.
Lemma signs_abs : forall e d : vec, length e = length d -> Forall (fun a => a = 1 \/ a = -1) e -> Forall (fun a => 0 <= a) d -> vabs (vmul e d) = d.
Proof.
  induction e as [|s e IH]; intros [|a d] L F P; try discriminate; auto. inversion F; inversion P; subst. unfold vabs, vmul in *. cbn [vzip map]. rewrite IH by (cbn in *; lia || auto). f_equal. destruct H1 as [->| ->]; [rewrite Rmult_1_l|replace (-1 * a) with (- a) by ring; rewrite Rabs_Ropp]; apply Rabs_right; lra.
Qed.
Lemma nonzero_abs : forall s, nonzero s = map (fun a => if Rlt_dec (/ 10 ^ 12) a then true else false) (vabs s).
Proof. intros. unfold nonzero, vabs. rewrite map_map. auto. Qed.
Lemma signs_fixed : forall j (e d : vec) (U : list vec), length e = length d -> length U = length d -> Forall (fun a => a = 1 \/ a = -1) e -> Forall (fun a => 0 < a) (firstn j d) -> firstn j (sign_each (vmul e d) (scale_each e U)) = firstn j U.
Proof.
  induction j as [|j IH]; intros [|s e] [|a d] [|u U] L1 L2 F P; try discriminate; auto. cbn [firstn] in P. inversion F; inversion P; subst. change (vmul (s :: e) (a :: d)) with (s * a :: vmul e d). cbn [scale_each sign_each firstn]. rewrite IH by (cbn in *; lia || auto). f_equal.
  assert (E : sign (s * a) * s = 1). { unfold sign. destruct H1 as [->| ->]; destruct Rlt_dec; try lra; destruct Rlt_dec; lra. }
  unfold vscal. rewrite map_map. rewrite <- (map_id u) at 2. apply map_ext. intros x. rewrite <- Rmult_assoc, E. ring.
Qed.
Definition tall (r c : nat) (U V : list vec) : list vec := if (r <? c)%nat then V else U.
Lemma zero_svd : forall r c X U D V, is_svd r c X U D V -> Forall (fun a => a = 0) D -> X = zeros (r * c).
Proof.
  intros r c X U D V Sv Z. rewrite (sv_eq _ _ _ _ _ _ Sv). assert (E : D = zeros (length D)) by (clear -Z; induction Z as [|a d -> Z IH]; auto; cbn; unfold zeros in IH; rewrite <- IH; auto). rewrite E. unfold usv. apply tvec_zeros. apply rank1s_lengths; apply rows_length; apply Sv.
Qed.
Lemma leading_firstn : forall r c X U D V j, is_svd r c X U D V -> (j <= Nat.min r c)%nat -> leading r c X (firstn j U) (firstn j D) (firstn j V) (skipn j D).
Proof.
  intros r c X U D V j Sv J. exists (skipn j U), (skipn j V). rewrite !firstn_skipn. split; auto. pose proof (sv_u _ _ _ _ _ _ Sv). pose proof (sv_d _ _ _ _ _ _ Sv). pose proof (sv_v _ _ _ _ _ _ Sv).
  split; rewrite !firstn_length; [rewrite H, H0; auto|rewrite H1, H0; auto].
Qed.
Lemma svd_max : forall r c X U D V, (1 <= r)%nat -> (1 <= c)%nat -> is_svd r c X U D V -> op_norm r c X = nth 0 D 0.
Proof. intros r c X U D V Hr Hc Sv. destruct (D_app r c Hr Hc X U D V Sv) as (_ & B & _). auto. Qed.

Section Iter.
Variables (r c : nat) (X : vec) (iter : nat -> nat -> list vec * vec * list vec).
Hypothesis Hr : (1 <= r)%nat.
Hypothesis Hc : (1 <= c)%nat.
Hypothesis NZ : nonzero_matrix r c X.
Hypothesis EI : exact_iteration r c X iter.
Hypothesis NN : not_negligible r c X.
Local Notation p := (Nat.min r c) (only parsing).
Lemma op_pos : forall U D V, is_svd r c X U D V -> 0 < nth 0 D 0.
Proof.
  intros U D V Sv. pose proof (sv_pos _ _ _ _ _ _ Sv) as P. pose proof (sv_desc _ _ _ _ _ _ Sv) as De. pose proof (sv_d _ _ _ _ _ _ Sv) as L. destruct D as [|a d]; [cbn in L; lia|]. cbn [nth]. destruct (Rle_lt_dec a 0) as [A|A]; auto. exfalso. apply (proj2 NZ).
  apply (zero_svd _ _ _ _ _ _ Sv). inversion P; subst. destruct (desc_tail _ _ De) as [_ H]. constructor; [lra|]. rewrite Forall_forall in *. intros b Ib. specialize (H b Ib). specialize (H2 b Ib). cbn in *. lra.
Qed.
Lemma partial_ok : forall k rank pad warm, (1 <= rank)%nat -> match warm with Some w => (w <= Nat.min (Nat.min rank p + pad) p)%nat | None => True end ->
  exists U1 D1 V1 D2, leading r c X U1 D1 V1 D2 /\ partial_svd (iter k) p rank pad warm = Ok (PSome (tall r c U1 V1) D1 (tall r c V1 U1)) /\ D1 <> [] /\ Forall (fun a => / 10 ^ 12 < a) D1 /\
    ((length D1 < rank)%nat -> Forall (fun a => a = 0) D2) /\ (length D1 <= Nat.min (Nat.min rank p + pad) p)%nat.
Proof.
  intros k rank pad warm Hk Hw. set (q := Nat.min (Nat.min rank p + pad) p) in *. assert (Hq : (1 <= q <= p)%nat) by (unfold q; lia).
  destruct (EI k q Hq) as (U & D & V & e & Sv & Le & Fe & E). pose proof (sv_u _ _ _ _ _ _ Sv) as LU. pose proof (sv_d _ _ _ _ _ _ Sv) as LD. pose proof (sv_v _ _ _ _ _ _ Sv) as LV. pose proof (sv_pos _ _ _ _ _ _ Sv) as P. pose proof (sv_desc _ _ _ _ _ _ Sv) as De.
  set (d := firstn q D) in *. assert (Ld : length d = q) by (unfold d; rewrite firstn_length; lia).
  assert (Pd : Forall (fun a => 0 <= a) d) by (unfold d; apply Forall_forall; intros a Ia; rewrite Forall_forall in P; apply P; rewrite <- (firstn_skipn q D); apply in_or_app; auto).
  assert (Dd : descending d) by (unfold d; exact (desc_firstn q _ De)).
  destruct (desc_split (/ 10 ^ 12) d Dd) as (j & J1 & J2 & J3 & J4).
  assert (Ej : firstn j d = firstn j D) by (unfold d; rewrite firstn_firstn; f_equal; lia).
  assert (J0 : (1 <= j)%nat).
  { destruct j; [exfalso|lia]. cbn [skipn] in J4. pose proof (op_pos U D V Sv) as O1. pose proof (NN U D V Sv) as N. destruct D as [|a D']; [cbn in O1; lra|]. unfold d in J4. destruct q; [lia|]. cbn [firstn] in J4. inversion J4; inversion N; subst. cbn in O1. destruct H5; lra. }
  assert (Hrest : (length (firstn j D) < rank)%nat -> Forall (fun a => a = 0) (skipn j D)).
  { rewrite firstn_length, LD. intros Hlt. pose proof (NN U D V Sv) as N. assert (Hs : Forall (fun a => a <= / 10 ^ 12) (skipn j D)).
    { destruct (Nat.eq_dec j (length D)) as [Ea|Ea]; [rewrite Ea, skipn_all; constructor|].
      assert (Jq : (j < q)%nat) by (unfold q; lia). assert (Hh : nth j D 0 <= / 10 ^ 12).
      { assert (In (nth j d 0) (skipn j d)). { rewrite <- (firstn_skipn j d) at 1. rewrite app_nth2; rewrite firstn_length; [|lia]. apply nth_In. rewrite skipn_length. lia. }
        rewrite Forall_forall in J4. apply J4 in H. unfold d in H. rewrite <- (firstn_skipn q D), app_nth1; auto. rewrite firstn_length. lia. }
      assert (S1 : skipn j D = nth j D 0 :: skipn (S j) D). { assert (j < length D)%nat by lia. clear -H. revert j H. induction D as [|a D IH]; intros j H; [cbn in H; lia|]. destruct j; auto. cbn [nth]. change (skipn (S j) (a :: D)) with (skipn j D). change (skipn (S (S j)) (a :: D)) with (skipn (S j) D). apply IH. cbn in H. lia. }
      assert (D1 : descending (skipn j D)). { clear -De. revert j. induction D as [|a D IH]; intros j; [destruct j; exact I|]. destruct j; [exact De|]. cbn [skipn]. apply IH. apply (desc_tail _ _ De). }
      rewrite S1 in *. destruct (desc_tail _ _ D1) as [_ H2]. constructor; auto. eapply Forall_impl; [|exact H2]. intros b Hb. cbn in Hb. lra. }
    rewrite Forall_forall in *. intros a Ia. specialize (Hs a Ia). destruct (N a) as [Z|[Z _]]; auto; [|lra]. rewrite <- (firstn_skipn j D). apply in_or_app; auto. }
  exists (firstn j U), (firstn j D), (firstn j V), (skipn j D). split; [apply leading_firstn; auto; lia|]. split; [|split; [|split; [|split; [exact Hrest|]]]].
  - unfold partial_svd. fold q. replace (match warm with Some w => (q <? w)%nat | None => false end) with false by (destruct warm; auto; symmetry; apply Nat.ltb_ge; auto).
    rewrite E. fold d. set (A := if (r <? c)%nat then V else U). set (B := if (r <? c)%nat then U else V). assert (LA : length A = p) by (unfold A; destruct (r <? c)%nat; auto). assert (LB : length B = p) by (unfold B; destruct (r <? c)%nat; auto).
    rewrite nonzero_abs, signs_abs, J2 by (auto; lia). replace (existsb (fun b => b) _) with true by (destruct j; [lia|]; reflexivity).
    rewrite !kept_prefix, Ej. f_equal. replace (tall r c (firstn j U) (firstn j V)) with (firstn j A) by (unfold A, tall; destruct (r <? c)%nat; auto). replace (tall r c (firstn j V) (firstn j U)) with (firstn j B) by (unfold B, tall; destruct (r <? c)%nat; auto).
    f_equal. + rewrite signs_fixed; auto; try lia; [rewrite firstn_firstn; f_equal; lia|rewrite firstn_length; lia|]. eapply Forall_impl; [|exact J3]. intros a Ha. cbn beta in Ha. assert (0 < / 10 ^ 12) by (apply Rinv_0_lt_compat, pow_lt; lra). lra.
    + rewrite firstn_firstn. f_equal. lia.
  - destruct j; [lia|]. destruct D; [cbn in LD; lia|]. discriminate.
  - rewrite <- Ej. exact J3.
  - rewrite firstn_length. lia.
Qed.

Lemma vmax_ge : forall d a, In a d -> a <= vmax d.
Proof. induction d as [|b d IH]; intros a []; cbn; [subst; apply Rmax_l|]. eapply Rle_trans; [apply IH; auto|apply Rmax_r]. Qed.
Lemma vmax_le : forall d b, 0 <= b -> Forall (fun a => a <= b) d -> vmax d <= b.
Proof. intros d b B F. induction F; cbn; auto. apply Rmax_lub; auto. Qed.
Lemma lead_nonneg : forall U1 D1 V1 D2, leading r c X U1 D1 V1 D2 -> Forall (fun a => 0 <= a) D1.
Proof. intros U1 D1 V1 D2 (U2 & V2 & Sv & _). pose proof (sv_pos _ _ _ _ _ _ Sv) as P. apply Forall_app in P. apply P. Qed.
Lemma relative_ok : forall m U1 D1 V1 D2, leading r c X U1 D1 V1 D2 -> D1 <> [] -> Forall (fun a => / 10 ^ 12 < a) D1 -> 0 <= m <= / 10 ^ 16 -> m * vmax D1 <= last D1 0 /\ / 10 ^ 14 <= vmax D1 /\ Forall (fun a => m <= a) D1.
Proof.
  intros m U1 D1 V1 D2 Ld NE F Hm. pose proof (lead_nonneg _ _ _ _ Ld) as Nn. destruct Ld as (U2 & V2 & Sv & L1 & L2). pose proof (NN _ _ _ Sv) as N. apply Forall_app in N. destruct N as [N _].
  pose proof (sv_desc _ _ _ _ _ _ Sv) as De. assert (I : In (last D1 0) D1) by (destruct D1 using rev_ind; [congruence|]; rewrite last_last; apply in_or_app; right; left; auto).
  assert (O : op_norm r c X = nth 0 D1 0) by (rewrite (svd_max _ _ _ _ _ _ Hr Hc Sv); destruct D1; [congruence|reflexivity]).
  assert (P12 : 0 < / 10 ^ 12) by (apply Rinv_0_lt_compat, pow_lt; lra).
  assert (M : vmax D1 <= nth 0 D1 0). { destruct D1 as [|a d]; [congruence|]. cbn [nth]. inversion Nn; subst. apply vmax_le; auto. constructor; [lra|]. change ((a :: d) ++ D2) with (a :: (d ++ D2)) in De. destruct (desc_tail _ _ De) as [_ H]. apply Forall_app in H. apply H. }
  split; [|split].
  - rewrite Forall_forall in N, F. pose proof (F _ I) as Fl. destruct (N _ I) as [Z|[_ Z]]; [lra|]. rewrite O in Z. assert (0 <= vmax D1) by (apply Rle_trans with (last D1 0); [lra|apply vmax_ge; auto]). assert (m * vmax D1 <= / 10 ^ 16 * nth 0 D1 0) by (apply Rmult_le_compat; lra). lra.
  - rewrite Forall_forall in F. pose proof (F _ I) as Fl. pose proof (vmax_ge _ _ I). assert (/ 10 ^ 14 <= / 10 ^ 12) by (apply Rinv_le_contravar; [apply pow_lt; lra|apply Rle_pow; [lra|lia]]). lra.
  - eapply Forall_impl; [|exact F]. intros a Ha. cbn beta in Ha. assert (/ 10 ^ 16 <= / 10 ^ 12) by (apply Rinv_le_contravar; [apply pow_lt; lra|apply Rle_pow; [lra|lia]]). lra.
Qed.
Definition stopped (rule : option (vec -> bool)) (D1 D2 : vec) : Prop := Forall (fun a => a = 0) D2 \/ match rule with Some t => t (vabs D1) = true | None => False end.
Lemma loop_ok : forall fuel pad m rule k rank warm, 0 <= m <= / 10 ^ 16 -> (1 <= rank)%nat -> match warm with Some w => (w <= Nat.min (Nat.min rank p + pad) p)%nat | None => True end -> (1 <= fuel)%nat -> (p + 1 < fuel + rank)%nat ->
  exists U1 D1 V1 D2, leading r c X U1 D1 V1 D2 /\ svd_loop fuel iter p pad (2 * p) m rule k rank warm = Ok (PSome (tall r c U1 V1) D1 (tall r c V1 U1)) /\ D1 <> [] /\ Forall (fun a => / 10 ^ 12 < a) D1 /\
    stopped rule D1 D2 /\ (length D1 <= p)%nat.
Proof.
  induction fuel as [|fuel IH]; intros pad m rule k rank warm Hm Hk Hw Hf1 Hf; [lia|]. destruct (partial_ok k rank pad warm Hk Hw) as (U1 & D1 & V1 & D2 & Ld & E & NE & F & Z & Lq).
  cbn [svd_loop]. rewrite E. cbn [rbind p_D p_cols]. destruct (length D1 <? rank)%nat eqn:E1; [apply Nat.ltb_lt in E1; exists U1, D1, V1, D2; repeat split; auto; [left; auto|lia]|]. apply Nat.ltb_ge in E1.
  destruct (match rule with Some t => t (vabs D1) | None => false end) eqn:E2; [exists U1, D1, V1, D2; repeat split; auto; [right; destruct rule; [auto|discriminate]|lia]|].
  replace (2 * p <? 2 * rank)%nat with false by (symmetry; apply Nat.ltb_ge; lia). destruct (relative_ok m _ _ _ _ Ld NE F Hm) as (R1 & R2 & _).
  destruct (Rlt_dec _ _); [lra|]. destruct (Rle_dec _ _); [|lra]. apply IH; auto; try lia.
  assert (LT : length (tall r c U1 V1) = length D1) by (destruct Ld as (? & ? & _ & L1 & L2); unfold tall; destruct (r <? c)%nat; auto). rewrite LT. lia.
Qed.
End Iter.
Lemma kept_all : forall {A} (P : R -> bool) (d : vec) (l : list A), length l = length d -> Forall (fun a => P a = true) d -> kept (map P d) l = l.
Proof. intros A P. induction d as [|a d IH]; intros [|x l] L F; try discriminate; auto. inversion F; subst. cbn. rewrite H1, IH; auto. Qed.
Lemma compute_ok : forall fuel (it : iteration) r c X rank pad warm m rule, (1 <= r)%nat -> (1 <= c)%nat -> nonzero_matrix r c X -> exact_iteration r c X (it X) -> not_negligible r c X -> 0 <= m <= / 10 ^ 16 -> (1 <= rank)%nat ->
  match warm with Some w => (w <= Nat.min (Nat.min rank (Nat.min r c) + pad) (Nat.min r c))%nat | None => True end -> (1 <= fuel)%nat -> (Nat.min r c + 1 < fuel + rank)%nat ->
  exists U1 D1 V1 D2, leading r c X U1 D1 V1 D2 /\ compute_iterative_svd fuel it r c X rank pad warm m rule = Ok (IFull U1 D1 V1) /\ D1 <> [] /\ Forall (fun a => / 10 ^ 12 < a) D1 /\
    stopped rule D1 D2 /\ (length D1 <= Nat.min r c)%nat.
Proof.
  intros fuel it r c X rank pad warm m rule Hr Hc NZ EI NN Hm Hk Hw F1 F2. destruct (loop_ok r c X (it X) Hr Hc NZ EI NN fuel pad m rule 0 rank warm Hm Hk Hw F1 F2) as (U1 & D1 & V1 & D2 & Ld & E & NE & F & Z & Lq).
  exists U1, D1, V1, D2. repeat split; auto. unfold compute_iterative_svd. destruct (relative_ok r c X Hr Hc NN m _ _ _ _ Ld NE F Hm) as (_ & _ & R3).
  destruct (Rlt_dec 1 m). { exfalso. assert (/ 10 ^ 16 <= 1) by (rewrite <- Rinv_1; apply Rinv_le_contravar; [lra|apply pow_R1_Rle; lra]). lra. }
  rewrite E. cbn [rbind]. assert (KA : forall {A} (l : list A), length l = length D1 -> kept (map (fun d => if Rle_dec m d then true else false) D1) l = l).
  { intros A l L. apply kept_all; auto. eapply Forall_impl; [|exact R3]. intros a Ha. cbn beta in *. destruct Rle_dec; auto; lra. }
  destruct Ld as (? & ? & _ & L1 & L2). rewrite !KA by (auto; unfold tall; destruct (r <? c)%nat; auto). unfold tall. destruct (r <? c)%nat; auto.
Qed.

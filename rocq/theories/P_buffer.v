(** Proofs about returned arrays. *)
From Coq Require Import Reals List Lra Lia Arith.
From Verif Require Import Vec Spec M_affine M_buffer SpecBuffer P_affine.
Import ListNotations.
Local Open Scope R_scope.

Lemma write_length : forall h r v, length (write h r v) = length h.
Proof. induction h as [|a h IH]; intros [|r] v; cbn; auto. Qed.
Lemma read_write_same : forall h r v, (r < length h)%nat -> read (write h r v) r = v.
Proof. unfold read. induction h as [|a h IH]; intros [|r] v H; cbn in *; auto; try lia. apply IH. lia. Qed.
Lemma read_write_other : forall h r v r', r <> r' -> read (write h r v) r' = read h r'.
Proof. unfold read. induction h as [|a h IH]; intros [|r] v [|r'] H; cbn in *; auto; try congruence; apply IH; auto. Qed.
Lemma read_app : forall h g r, (r < length h)%nat -> read (h ++ g) r = read h r.
Proof. intros. unfold read. apply app_nth1. auto. Qed.
Lemma read_new : forall h v, read (h ++ [v]) (length h) = v.
Proof. intros. unfold read. rewrite app_nth2, Nat.sub_diag; auto. Qed.

Local Arguments read : simpl never.
Lemma adj_value_length : forall o m k u, shaped o m k -> length u = m -> length (adj_value o u) = k.
Proof.
  induction o as [f| |idx n inner IH b|inner IH b|c inner IH|a IHa b IHb]; intros m k u S L; cbn in *.
  - auto.
  - congruence.
  - destruct S as [-> S]. rewrite scatter_length. vlen.
  - destruct S as (j & -> & S). rewrite app_length, vopp_length, (IH m j u S L). lia.
  - rewrite vscal_length. eauto.
  - destruct S as (j & S1 & S2). eauto.
Qed.
Lemma set_at_agree : forall (x y : vec) i a j, length x = length y -> (j <> i -> nth j x 0 = nth j y 0) -> nth j (set_at i a x) 0 = nth j (set_at i a y) 0.
Proof.
  intros x y i a j L H. destruct (Nat.eq_dec i j) as [->|Ne]; [|rewrite !nth_set_at_other by auto; apply H; auto].
  destruct (Nat.lt_ge_cases j (length x)) as [Hl|Hl]; [rewrite !nth_set_at_same by (auto; congruence); auto|].
  rewrite !nth_overflow; auto; rewrite set_at_length; congruence || lia.
Qed.
Lemma scatter_agree : forall idx v (x y : vec), length v = length idx -> length x = length y -> (forall j, ~ In j idx -> nth j x 0 = nth j y 0) -> scatter idx v x = scatter idx v y.
Proof.
  induction idx as [|i idx IH]; intros [|a v] x y Lv L H; try discriminate; cbn [scatter].
  - apply (nth_ext x y 0 0); auto.
  - apply IH; [cbn in Lv; lia|rewrite !set_at_length; auto|]. intros j Hj. apply set_at_agree; auto. intros Hn. apply H. intros [E|Hin]; auto.
Qed.
Lemma scatter_outside : forall idx v (x : vec) j, ~ In j idx -> nth j (scatter idx v x) 0 = nth j x 0.
Proof. induction idx as [|i idx IH]; intros [|a v] x j H; cbn [scatter]; auto. rewrite IH by (intros Hin; apply H; right; auto). apply nth_set_at_other. intros ->. apply H. left. auto. Qed.

(** The arrays an object owns are its own, and a selector's array is zero outside the selected positions. *)
Fixpoint owns (o : tobj) (h : heap) : Prop :=
  match o with
  | Fresh _ | Same => True
  | Sel idx n inner b => owns inner h /\ match b with Some r => (r < length h)%nat /\ ~ In r (buffers inner) /\ length (read h r) = n /\ forall j, ~ In j idx -> nth j (read h r) 0 = 0 | None => True end
  | Pos inner b => owns inner h /\ (b < length h)%nat /\ ~ In b (buffers inner)
  | Times _ inner => owns inner h
  | Chain a b => owns a h /\ owns b h /\ (forall r, In r (buffers a) -> In r (buffers b) -> False)
  end.
Lemma owns_bounded : forall o h r, owns o h -> In r (buffers o) -> (r < length h)%nat.
Proof.
  induction o as [f| |idx n inner IH b|inner IH b|c inner IH|a IHa b IHb]; intros h r O H; cbn in *; try tauto.
  - destruct O as [O1 O2]. destruct b as [b|]; [|eauto]. destruct H as [<-|H]; [tauto|eauto].
  - destruct O as [O1 O2]. destruct H as [<-|H]; [tauto|eauto].
  - eauto.
  - destruct O as (O1 & O2 & _). apply in_app_or in H. destruct H; eauto.
Qed.
Lemma owns_ext : forall o h h', (length h <= length h')%nat -> (forall r, In r (buffers o) -> read h' r = read h r) -> owns o h -> owns o h'.
Proof.
  induction o as [f| |idx n inner IH b|inner IH b|c inner IH|a IHa b IHb]; intros h h' L H O; cbn in *; auto.
  - destruct O as [O1 O2]. destruct b as [b|].
    + destruct O2 as (P1 & P2 & P3 & P4). split; [apply (IH h); auto; intros; apply H; right; auto|]. rewrite (H b) by (left; auto). split; [lia|]. auto.
    + split; auto. apply (IH h); auto.
  - destruct O as (O1 & O2 & O3). split; [apply (IH h); auto|]. split; auto; lia.
  - apply (IH h); auto.
  - destruct O as (O1 & O2 & O3). split; [|split; auto]; [apply (IHa h)|apply (IHb h)]; auto; intros r Hr; apply H; apply in_or_app; auto.
Qed.
(** A call changes nothing but the object's own arrays. *)
Lemma call_frame : forall o h u h' o' r, owns o h -> (u < length h)%nat -> adj_call o h u = (h', o', r) ->
  (length h <= length h')%nat /\ (r < length h')%nat /\ owns o' h' /\
  (forall q, (q < length h)%nat -> ~ In q (buffers o) -> read h' q = read h q) /\
  (forall q, In q (buffers o') -> In q (buffers o) \/ (length h <= q)%nat) /\
  (forall q, In q (buffers o) -> In q (buffers o')).
Proof.
  induction o as [f| |idx n inner IH b|inner IH b|c inner IH|a IHa b IHb]; intros h u h' o' r O Hu E; cbn [adj_call] in E.
  - injection E as <- <- <-. rewrite app_length. cbn. split; [lia|]. split; [lia|]. split; auto. split; [intros; apply read_app; auto|]. tauto.
  - injection E as <- <- <-. cbn. intuition auto.
  - destruct b as [b|].
    + destruct O as (O1 & O2 & O3 & O4 & O5). destruct (adj_call inner h u) as [[h1 inner'] r1] eqn:E1. injection E as <- <- <-. destruct (IH h u h1 inner' r1 O1 Hu E1) as (I1 & I2 & I3 & I4 & I5 & I6).
      assert (Nb : ~ In b (buffers inner')) by (intros Hb; destruct (I5 b Hb); [auto|lia]). assert (Rb : read h1 b = read h b) by (apply I4; auto).
      rewrite write_length. split; [lia|]. split; [lia|]. split; [|split; [|split]].
      * cbn [owns]. split; [apply (owns_ext inner' h1); auto; [rewrite write_length; auto|]; intros q Hq; apply read_write_other; intros Hx; rewrite Hx in Nb; auto|].
        rewrite write_length, read_write_same by lia. split; [lia|]. split; auto. rewrite scatter_length, Rb. split; auto. intros j Hj. rewrite scatter_outside by auto. auto.
      * intros q Hq Nq. cbn in Nq. rewrite read_write_other by tauto. apply I4; tauto.
      * cbn. intros q [<-|Hq]; [auto|]. destruct (I5 q Hq); auto.
      * cbn. intros q [<-|Hq]; auto.
    + destruct O as (O1 & _). destruct (adj_call inner (h ++ [zeros n]) u) as [[h1 inner'] r1] eqn:E1. injection E as <- <- <-.
      assert (O1' : owns inner (h ++ [zeros n])). { apply (owns_ext inner h); auto; [rewrite app_length; lia|]. intros q Hq. apply read_app. apply (owns_bounded inner h q); auto. }
      destruct (IH _ u h1 inner' r1 O1' ltac:(rewrite app_length; lia) E1) as (I1 & I2 & I3 & I4 & I5 & I6). rewrite app_length in *. cbn [length] in *.
      assert (Nh : ~ In (length h) (buffers inner)) by (intros Hb; pose proof (owns_bounded inner h _ O1 Hb); lia).
      assert (Nb : ~ In (length h) (buffers inner')). { intros Hb. destruct (I5 _ Hb); [auto|lia]. }
      assert (Rb : read h1 (length h) = zeros n) by (rewrite I4, read_new; auto; lia).
      rewrite write_length. split; [lia|]. split; [lia|]. split; [|split; [|split]].
      * cbn [owns]. split; [apply (owns_ext inner' h1); auto; [rewrite write_length; auto|]; intros q Hq; apply read_write_other; intros Hx; rewrite Hx in Nb; auto|].
        rewrite write_length, read_write_same by lia. split; [lia|]. split; auto. rewrite scatter_length, Rb. split; [vlen|]. intros j Hj. rewrite scatter_outside by auto. apply nth_zeros.
      * intros q Hq Nq. cbn in Nq. rewrite read_write_other by lia. rewrite I4 by (auto; lia). apply read_app. auto.
      * cbn. intros q [<-|Hq]; [auto|]. destruct (I5 q Hq); [auto|right; lia].
      * cbn. auto.
  - destruct O as (O1 & O2 & O3). destruct (adj_call inner h u) as [[h1 inner'] r1] eqn:E1. injection E as <- <- <-. destruct (IH h u h1 inner' r1 O1 Hu E1) as (I1 & I2 & I3 & I4 & I5 & I6).
    assert (Nb : ~ In b (buffers inner')) by (intros Hb; destruct (I5 b Hb); [auto|lia]).
    rewrite write_length. split; [lia|]. split; [lia|]. split; [|split; [|split]].
    + cbn [owns]. split; [apply (owns_ext inner' h1); auto; [rewrite write_length; auto|]; intros q Hq; apply read_write_other; intros Hx; rewrite Hx in Nb; auto|]. rewrite write_length. split; auto; lia.
    + intros q Hq Nq. cbn in Nq. rewrite read_write_other by tauto. apply I4; tauto.
    + cbn. intros q [<-|Hq]; [auto|]. destruct (I5 q Hq); auto.
    + cbn. intros q [<-|Hq]; auto.
  - destruct (adj_call inner h u) as [[h1 inner'] r1] eqn:E1. destruct (IH h u h1 inner' r1 O Hu E1) as (I1 & I2 & I3 & I4 & I5 & I6). destruct (Req_EM_T c 1); injection E as <- <- <-; cbn [owns buffers].
    + auto 10.
    + rewrite app_length. cbn [length]. split; [lia|]. split; [lia|]. split; [|split; [|split]]; auto.
      * apply (owns_ext inner' h1); auto; [rewrite app_length; lia|]. intros q Hq. apply read_app. apply (owns_bounded inner' h1); auto.
      * intros q Hq Nq. rewrite read_app by lia. auto.
  - destruct O as (O1 & O2 & O3). destruct (adj_call a h u) as [[h1 a'] r1] eqn:E1. destruct (adj_call b h1 r1) as [[h2 b'] r2] eqn:E2. injection E as <- <- <-.
    destruct (IHa h u h1 a' r1 O1 Hu E1) as (I1 & I2 & I3 & I4 & I5 & I6).
    assert (O2' : owns b h1). { apply (owns_ext b h); auto. intros q Hq. apply I4; [apply (owns_bounded b h); auto|]. intros Ha. apply (O3 q); auto. }
    destruct (IHb h1 r1 h2 b' r2 O2' I2 E2) as (J1 & J2 & J3 & J4 & J5 & J6).
    assert (Dis : forall q, In q (buffers a') -> In q (buffers b) -> False). { intros q Ha Hb. destruct (I5 q Ha) as [H|H]; [apply (O3 q); auto|]. pose proof (owns_bounded b h q O2 Hb). lia. }
    split; [lia|]. split; auto. split; [|split; [|split]].
    + cbn [owns]. split; [apply (owns_ext a' h1); auto; intros q Hq; apply J4; [apply (owns_bounded a' h1); auto|]; intros Hb; apply (Dis q); auto|]. split; auto.
      intros q Ha Hb. destruct (J5 q Hb) as [H|H]; [apply (Dis q); auto|]. pose proof (owns_bounded a' h1 q I3 Ha). lia.
    + cbn. intros q Hq Nq. assert (~ In q (buffers a) /\ ~ In q (buffers b)) as [N1 N2] by (split; intros H; apply Nq; apply in_or_app; auto). rewrite J4, I4; auto. lia.
    + cbn. intros q Hq. apply in_app_or in Hq. destruct Hq as [Hq|Hq]; [destruct (I5 q Hq); [left; apply in_or_app; auto|auto]|]. destruct (J5 q Hq); [left; apply in_or_app; auto|right; lia].
    + cbn. intros q Hq. apply in_app_or in Hq. apply in_or_app. destruct Hq; auto.
Qed.
Lemma call_same_value : forall o h u h' o' r, adj_call o h u = (h', o', r) -> (forall v, adj_value o' v = adj_value o v) /\ (forall m k, shaped o m k <-> shaped o' m k).
Proof.
  induction o as [f| |idx n inner IH b|inner IH b|c inner IH|a IHa b IHb]; intros h u h' o' r E; cbn [adj_call] in E.
  - injection E as <- <- <-. cbn. tauto.
  - injection E as <- <- <-. cbn. tauto.
  - assert (exists h0 b0 h1 inner' r1, adj_call inner h0 u = (h1, inner', r1) /\ o' = Sel idx n inner' (Some b0)) as (h0 & b0 & h1 & inner' & r1 & E1 & ->).
    { destruct b as [b|]; [destruct (adj_call inner h u) as [[h1 i1] r1] eqn:E1|destruct (adj_call inner (h ++ [zeros n]) u) as [[h1 i1] r1] eqn:E1]; injection E as <- <- <-; repeat eexists; eauto. }
    destruct (IH _ _ _ _ _ E1) as [A B]. cbn. split; [intros; rewrite A; auto|]. intros m k. rewrite B. tauto.
  - destruct (adj_call inner h u) as [[h1 inner'] r1] eqn:E1. injection E as <- <- <-. destruct (IH _ _ _ _ _ E1) as [A B]. cbn. split; [intros; rewrite A; auto|]. intros m k. split; intros (j & Ej & Sj); exists j; split; auto; apply B; auto.
  - destruct (adj_call inner h u) as [[h1 inner'] r1] eqn:E1. destruct (IH _ _ _ _ _ E1) as [A B]. destruct (Req_EM_T c 1); injection E as <- <- <-; cbn; (split; [intros; rewrite A; auto|auto]).
  - destruct (adj_call a h u) as [[h1 a'] r1] eqn:E1. destruct (adj_call b h1 r1) as [[h2 b'] r2] eqn:E2. injection E as <- <- <-. destruct (IHa _ _ _ _ _ E1) as [A1 B1]. destruct (IHb _ _ _ _ _ E2) as [A2 B2]. cbn.
    split; [intros; rewrite A1, A2; auto|]. intros m k. split; intros (j & S1 & S2); exists j; split; try apply B1; try apply B2; auto.
Qed.
Lemma call_value : forall o h u h' o' r m k, owns o h -> (u < length h)%nat -> shaped o m k -> length (read h u) = m -> adj_call o h u = (h', o', r) -> read h' r = adj_value o (read h u).
Proof.
  induction o as [f| |idx n inner IH b|inner IH b|c inner IH|a IHa b IHb]; intros h u h' o' r m k O Hu S L E; pose proof (call_frame _ _ _ _ _ _ O Hu E) as (F1 & F2 & _); cbn [adj_call] in E.
  - injection E as <- <- <-. rewrite read_new. auto.
  - injection E as <- <- <-. auto.
  - destruct S as [-> S]. destruct b as [b|].
    + destruct O as (O1 & O2 & O3 & O4 & O5). destruct (adj_call inner h u) as [[h1 inner'] r1] eqn:E1. injection E as <- <- <-. destruct (call_frame inner h u h1 inner' r1 O1 Hu E1) as (I1 & I2 & I3 & I4 & I5 & I6).
      rewrite write_length in F2. rewrite read_write_same by auto. cbn [adj_value]. rewrite (IH h u h1 inner' r1 m (length idx) O1 Hu S L E1). rewrite (I4 b) by auto. apply scatter_agree; [apply (adj_value_length inner m); auto|vlen|].
      intros j Hj. rewrite O5 by auto. symmetry. apply nth_zeros.
    + destruct O as (O1 & _). destruct (adj_call inner (h ++ [zeros n]) u) as [[h1 inner'] r1] eqn:E1. injection E as <- <- <-.
      assert (O1' : owns inner (h ++ [zeros n])). { apply (owns_ext inner h); auto; [rewrite app_length; lia|]. intros q Hq. apply read_app. apply (owns_bounded inner h q); auto. }
      assert (Hu' : (u < length (h ++ [zeros n]))%nat) by (rewrite app_length; lia). assert (Ru : read (h ++ [zeros n]) u = read h u) by (apply read_app; auto).
      destruct (call_frame inner _ u h1 inner' r1 O1' Hu' E1) as (I1 & I2 & I3 & I4 & I5 & I6). assert (Nh : ~ In (length h) (buffers inner)) by (intros Hb; pose proof (owns_bounded inner h _ O1 Hb); lia).
      rewrite write_length in F2. rewrite read_write_same by auto. cbn [adj_value]. rewrite (IH _ u h1 inner' r1 m (length idx) O1' Hu' S ltac:(congruence) E1). rewrite Ru. rewrite (I4 (length h)) by (auto; rewrite app_length; cbn; lia). rewrite read_new. auto.
  - destruct O as (O1 & O2 & O3). destruct S as (j & -> & S). destruct (adj_call inner h u) as [[h1 inner'] r1] eqn:E1. injection E as <- <- <-. rewrite write_length in F2. rewrite read_write_same by auto. cbn [adj_value]. rewrite (IH h u h1 inner' r1 m j O1 Hu S L E1). auto.
  - destruct (adj_call inner h u) as [[h1 inner'] r1] eqn:E1. pose proof (IH h u h1 inner' r1 m k O Hu S L E1) as V. destruct (Req_EM_T c 1) as [->|]; injection E as <- <- <-; cbn [adj_value]; [rewrite vscal_1; auto|]. rewrite read_new, V. auto.
  - destruct S as (j & S1 & S2). destruct O as (O1 & O2 & O3). destruct (adj_call a h u) as [[h1 a'] r1] eqn:E1. destruct (adj_call b h1 r1) as [[h2 b'] r2] eqn:E2. injection E as <- <- <-.
    destruct (call_frame a h u h1 a' r1 O1 Hu E1) as (I1 & I2 & I3 & I4 & I5 & I6).
    assert (O2' : owns b h1). { apply (owns_ext b h); auto. intros q Hq. apply I4; [apply (owns_bounded b h); auto|]. intros Ha. apply (O3 q); auto. }
    pose proof (IHa h u h1 a' r1 m j O1 Hu S1 L E1) as V1. assert (L1 : length (read h1 r1) = j) by (rewrite V1; apply (adj_value_length a m); auto).
    rewrite (IHb h1 r1 h2 b' r2 j k O2' I2 S2 L1 E2), V1. auto.
Qed.
Lemma new_owns : forall o h, new_object o -> NoDup (buffers o) -> (forall r, In r (buffers o) -> (r < length h)%nat) -> owns o h.
Proof.
  induction o as [f| |idx n inner IH b|inner IH b|c inner IH|a IHa b IHb]; intros h N D H; cbn in *; auto.
  - destruct N as [-> N]. split; auto.
  - inversion D; subst. split; [apply IH; auto|]. split; auto.
  - destruct N as [N1 N2]. assert (D1 : NoDup (buffers a) /\ NoDup (buffers b) /\ forall r, In r (buffers a) -> In r (buffers b) -> False).
    { clear - D. induction (buffers a) as [|x l IH]; cbn in *; [split; [constructor|tauto]|]. inversion D; subst. destruct (IH H2) as (A & B & C). split; [constructor; auto; intros Hx; apply H1; apply in_or_app; auto|]. split; auto. intros r [<-|Hr] Hb; [apply H1; apply in_or_app; auto|eauto]. }
    destruct D1 as (D1 & D2 & D3). split; [apply IHa; auto; intros; apply H; apply in_or_app; auto|]. split; auto. apply IHb; auto; intros; apply H; apply in_or_app; auto.
Qed.
Theorem history_value : forall l o h m k, owns o h -> shaped o m k -> legal m (h, o) l ->
  let s := run (h, o) l in owns (snd s) (fst s) /\ forall u, (u < length (fst s))%nat -> length (read (fst s) u) = m ->
  forall h' o' r, adj_call (snd s) (fst s) u = (h', o', r) -> read h' r = adj_value o (read (fst s) u).
Proof.
  induction l as [|[v|u|q v] l IH]; intros o h m k O S Lg; cbv zeta; cbn [legal reads_only] in Lg; cbn [run fold_left].
  - cbn [fst snd]. split; auto. intros u Hu Lu h' o' r E. apply (call_value o h u h' o' r m k); auto.
  - destruct Lg as [_ Lg]. cbn [step fst] in *. apply (IH o (h ++ [v]) m k); auto. apply (owns_ext o h); auto; [rewrite app_length; lia|]. intros q Hq. apply read_app. apply (owns_bounded o h); auto.
  - destruct Lg as [[Hu Lu] Lg]. cbn [step fst] in *. destruct (adj_call o h u) as [[h1 o1] r1] eqn:E1. cbn [fst] in *. destruct (call_frame o h u h1 o1 r1 O Hu E1) as (I1 & I2 & I3 & _). destruct (call_same_value o h u h1 o1 r1 E1) as [A B].
    destruct (IH o1 h1 m k I3 (proj1 (B m k) S) Lg) as [J1 J2]. split; auto. intros u' Hu' Lu' h' o' r E. rewrite <- A. eauto.
  - destruct Lg as [[] _].
Qed.
Lemma bufferless_spec : forall o, bufferless o -> buffers o = [] /\ forall h, owns o h.
Proof.
  induction o as [f| |idx n inner IH b|inner IH b|c inner IH|a IHa b IHb]; cbn; intros B; try contradiction; auto.
  - destruct B as [B1 B2]. destruct (IHa B1) as [A1 A2]. destruct (IHb B2) as [A3 A4]. rewrite A1, A3. split; auto.
Qed.
Lemma bufferless_call : forall o h u h' o' r, bufferless o -> adj_call o h u = (h', o', r) -> bufferless o'.
Proof.
  induction o as [f| |idx n inner IH b|inner IH b|c inner IH|a IHa b IHb]; intros h u h' o' r B E; cbn in *; try contradiction.
  - injection E as <- <- <-. exact I.
  - injection E as <- <- <-. exact I.
  - destruct (adj_call inner h u) as [[h1 i1] r1] eqn:E1. destruct (Req_EM_T c 1); injection E as <- <- <-; cbn; eauto.
  - destruct (adj_call a h u) as [[h1 a'] r1] eqn:E1. destruct (adj_call b h1 r1) as [[h2 b'] r2] eqn:E2. injection E as <- <- <-. cbn. destruct B. eauto.
Qed.
Theorem history_stable : forall l o h m, bufferless o -> legal m (h, o) l -> forall r, (r < length h)%nat -> read (fst (run (h, o) l)) r = read h r.
Proof.
  induction l as [|[v|u|q v] l IH]; intros o h m B Lg r Hr; cbn [legal reads_only] in Lg; cbn [run fold_left]; auto.
  - destruct Lg as [_ Lg]. cbn [step fst] in *. fold (run (h ++ [v], o) l). rewrite (IH o (h ++ [v]) m); auto; [apply read_app; auto|rewrite app_length; lia].
  - destruct Lg as [[Hu Lu] Lg]. cbn [step fst] in *. destruct (adj_call o h u) as [[h1 o1] r1] eqn:E1. cbn [fst] in *. destruct (bufferless_spec o B) as [B1 B2]. destruct (call_frame o h u h1 o1 r1 (B2 h) Hu E1) as (I1 & I2 & I3 & I4 & _).
    fold (run (h1, o1) l). rewrite (IH o1 h1 m); auto; [apply I4; auto; rewrite B1; auto|eapply bufferless_call; eauto|lia].
  - destruct Lg as [[] _].
Qed.
(** The second call returns the first one's array. *)
Lemma selector_shares : forall idx n inner b h u h1 o1 r1, adj_call (Sel idx n inner b) h u = (h1, o1, r1) -> forall h u' h2 o2 r2, adj_call o1 h u' = (h2, o2, r2) -> r2 = r1.
Proof.
  intros idx n inner b h u h1 o1 r1 E1 g u' h2 o2 r2 E2. cbn [adj_call] in E1.
  assert (exists i', o1 = Sel idx n i' (Some r1)) as (i' & ->). { destruct b as [b|]; [destruct (adj_call inner h u) as [[g1 i1] q1]|destruct (adj_call inner (h ++ [zeros n]) u) as [[g1 i1] q1]]; injection E1 as <- <- <-; eexists; eauto. }
  cbn [adj_call] in E2. destruct (adj_call i' g u') as [[g1 i1] q1]. injection E2 as <- <- <-. auto.
Qed.
Local Arguments read h r / : simpl nomatch.
Lemma selector_overwrites : let o := Sel [0%nat] 2 Same None in let h := [[1]; [5]] in
  let '(h1, o1, r1) := adj_call o h 0%nat in read h1 r1 = [1; 0] /\ let '(h2, _, _) := adj_call o1 h1 1%nat in read h2 r1 = [5; 0].
Proof. cbn. auto. Qed.
Lemma posneg_overwrites : let o := Pos Same 2%nat in let h := [[1]; [5]; [0; 0]] in
  let '(h1, o1, r1) := adj_call o h 0%nat in read h1 r1 = [1; - 1] /\ let '(h2, _, _) := adj_call o1 h1 1%nat in read h2 r1 = [5; - 5].
Proof. cbn. auto. Qed.
(** Writing into the returned array corrupts the next result. *)
Lemma selector_corrupted : let o := Sel [0%nat] 2 Same None in let h := [[1]] in
  let s := run (h, o) [Call 0%nat; Put 1%nat [7; 7]] in let '(h2, _, r2) := adj_call (snd s) (fst s) 0%nat in read h2 r2 = [1; 7] /\ adj_value o [1] = [1; 0].
Proof. cbn. auto. Qed.

(** Two-dimensional arrays: the classes whose maps act column by column. *)
From Coq Require Import Reals List Lra Lia Arith Bool.
From Verif Require Import Vec Spec P_quad P_cones M_affine SpecAffine P_affine M_dense SpecDense P_dense P_dense1.
Import ListNotations.
Local Open Scope R_scope.

Lemma column_length : forall U j, length (column U j) = length U. Proof. intros. apply map_length. Qed.
Lemma nth_mat_tvec : forall c U r j, Forall (fun r => length r = c) U -> length r = length U -> (j < c)%nat -> nth j (mat_tvec c U r) 0 = dot r (column U j).
Proof.
  induction U as [|u U IH]; intros r j F L Hj; destruct r as [|a r]; try discriminate; cbn [mat_tvec column map].
  - rewrite nth_zeros, dot_nil_l. auto.
  - inversion F as [|x l Fu FU]; subst. injection L as L. fold (column U j). rewrite dot_cons. unfold vadd. rewrite (nth_vzip _ _ _ _ 0 0 0); [|rewrite vscal_length; auto|rewrite vscal_length, mat_tvec_length; auto].
    rewrite IH by auto. unfold vscal. rewrite (nth_map_R _ _ _ 0 0) by auto. auto.
Qed.
Lemma is_matrix_map : forall (A : Type) (f : A -> vec) l c, (forall a, In a l -> length (f a) = c) -> is_matrix (length l) c (map f l).
Proof. intros A f l c H. split; [apply map_length|]. apply Forall_forall. intros r Hr. apply in_map_iff in Hr. destruct Hr as (a & <- & Ha). auto. Qed.
Lemma dots_mat : forall D n c U, Forall (fun r => length r = n) D -> is_matrix n c U -> exists V, dots D n (A2 c U) = Ok (A2 c V) /\ is_matrix (length D) c V /\ by_columns (mat_vec D) c U V.
Proof.
  intros D n c U FD [LU FU]. exists (map (mat_tvec c U) D). split; [unfold dots; cbn [alen]; rewrite LU, Nat.eqb_refl; auto|]. split; [apply is_matrix_map; intros r _; apply mat_tvec_length; auto|].
  intros j Hj. unfold column at 1. rewrite map_map. unfold mat_vec. apply map_ext_in. intros r Hr. rewrite Forall_forall in FD. apply nth_mat_tvec; auto. rewrite (FD r Hr). auto.
Qed.
Lemma mat_tvec_columns : forall n D u, Forall (fun r => length r = n) D -> length u = length D -> map (fun k => dot (column D k) u) (seq 0 n) = mat_tvec n D u.
Proof.
  intros n D u F L. apply nth_ext_R; [rewrite map_length, seq_length, mat_tvec_length; auto|]. intros k Hk. rewrite map_length, seq_length in Hk. rewrite nth_seq_map by auto. rewrite nth_mat_tvec by auto. apply dot_comm.
Qed.
Lemma tdots_mat : forall D n c U, Forall (fun r => length r = n) D -> is_matrix (length D) c U -> exists V, tdots D n (A2 c U) = Ok (A2 c V) /\ is_matrix n c V /\ by_columns (mat_tvec n D) c U V.
Proof.
  intros D n c U FD [LU FU]. eexists. split; [unfold tdots; cbn [alen]; rewrite LU, Nat.eqb_refl; reflexivity|]. split; [rewrite <- (seq_length n 0) at 1; apply is_matrix_map; intros k _; apply mat_tvec_length; auto|].
  intros j Hj. unfold column at 1. rewrite map_map. rewrite <- mat_tvec_columns by (auto; rewrite column_length; auto). apply map_ext. intros k. apply nth_mat_tvec; auto. rewrite column_length. auto.
Qed.
Lemma center_mat : forall n c U, is_matrix n c U -> exists V, center_arr (A2 c U) = A2 c V /\ is_matrix n c V /\ by_columns center c U V.
Proof.
  intros n c U [LU FU]. eexists. split; [reflexivity|]. rewrite Forall_forall in FU. split.
  - rewrite <- LU. apply is_matrix_map. intros r Hr. assert (Lr := FU r Hr). rewrite vsub_length; [auto|]. rewrite map_length, seq_length. auto.
  - intros j Hj. unfold column at 1. rewrite map_map. unfold center. rewrite column_length. unfold column at 3. rewrite map_map. apply map_ext_in. intros r Hr. assert (Lr := FU r Hr). unfold vsub. rewrite (nth_vzip _ _ _ _ 0 0 0); [|congruence|rewrite map_length, seq_length; auto].
    rewrite nth_seq_map by auto. auto.
Qed.
Lemma index_mat : forall idx n c U, is_matrix n c U -> Forall (fun i => (i < n)%nat) idx -> exists V, index idx (A2 c U) = Ok (A2 c V) /\ is_matrix (length idx) c V /\ by_columns (gather idx) c U V.
Proof.
  intros idx n c U [LU FU] H. rewrite Forall_forall in FU, H. eexists. split.
  - unfold index. assert (E : forallb (fun i => Nat.ltb i (alen (A2 c U))) idx = true). { apply forallb_forall. intros i Hi. apply Nat.ltb_lt. cbn [alen]. rewrite LU. auto. } rewrite E. reflexivity.
  - split; [apply is_matrix_map; intros i Hi; apply FU, nth_In; rewrite LU; auto|]. intros j Hj. unfold column at 1. rewrite map_map. unfold gather. apply map_ext_in. intros i Hi. unfold column. rewrite (nth_map_gen _ _ _ U i 0 []); auto. rewrite LU. auto.
Qed.
Lemma bdim_one_r : forall n, bdim n 1 = Ok n.
Proof. intros n. unfold bdim. destruct (Nat.eqb_spec n 1); subst; auto. Qed.
Lemma bcast_row : forall op n c V r, is_matrix n c V -> length r = c -> exists W, bcast op (A2 c V) (A1 r) = Ok (A2 c W) /\ is_matrix n c W /\ forall j, (j < c)%nat -> column W j = map (fun a => op a (nth j r 0)) (column V j).
Proof.
  intros op n c V r [LV FV] Lr. rewrite Forall_forall in FV. cbn [bcast as_rows]. rewrite Lr, LV, bdim_same. cbn [rbind length]. rewrite bdim_one_r. cbn [rbind]. eexists. split; [reflexivity|]. split.
  - rewrite <- (seq_length n 0) at 1. apply is_matrix_map. intros i _. rewrite map_length, seq_length. auto.
  - intros j Hj. unfold column at 1. rewrite map_map. unfold column. rewrite map_map.
    assert (EV : V = map (fun i => nth i V []) (seq 0 n)). { apply (nth_ext _ _ [] []); [rewrite map_length, seq_length; auto|]. intros i Hi. unfold vec in *. rewrite nth_seq_map; auto. lia. }
    transitivity (map (fun s => op (nth j s 0) (nth j r 0)) (map (fun i => nth i V []) (seq 0 n))); [|rewrite <- EV; auto]. rewrite map_map. apply map_ext_in. intros i Hi. apply in_seq in Hi. rewrite nth_seq_map by auto. assert (HV : (i < @length vec V)%nat) by (unfold vec in *; lia). rewrite (pick_nth _ [] V i HV). cbn [pick length Nat.eqb nth].
    rewrite !pick_nth; auto; [lia|]. rewrite FV; auto. apply nth_In. auto.
Qed.
Lemma amap_mat : forall f n c U, is_matrix n c U -> is_matrix n c (map (map f) U) /\ (forall j, (j < c)%nat -> column (map (map f) U) j = map f (column U j)).
Proof.
  intros f n c U [LU FU]. rewrite Forall_forall in FU. split; [rewrite <- LU; apply is_matrix_map; intros r Hr; rewrite map_length; auto|]. intros j Hj. unfold column. rewrite !map_map. apply map_ext_in. intros r Hr. apply (nth_map_R f); auto. rewrite FU; auto.
Qed.
Lemma iadd_mat : forall n c U V, is_matrix n c U -> is_matrix n c V -> exists W, iadd (A2 c U) (A2 c V) = Ok (A2 c W) /\ is_matrix n c W /\ forall j, (j < c)%nat -> column W j = vadd (column U j) (column V j).
Proof.
  intros n c U V MU MV. destruct (bcast_mat Rplus n c U V MU MV) as (W & E & MW & C). exists W. split; auto. unfold iadd. rewrite E. cbn [rbind same_shape]. destruct MU as [L1 _]. destruct MW as [L2 _]. rewrite L1, L2, !Nat.eqb_refl. auto.
Qed.

Definition acts (m : mode) (t : tr) (T : transform) : Prop := forall c U, is_matrix (src m T) c U -> exists V, ap m t (A2 c U) = Ok (A2 c V) /\ is_matrix (dst m T) c V /\ by_columns (act m T) c U V.
Lemma right_mat : forall m ps d c U, m <> Adj -> (forall p, In p ps -> acts m (fst p) (snd p)) -> chained (map snd ps) -> ps <> [] -> is_matrix (t_in (last (map snd ps) d)) c U ->
  exists V, from_right (fun t v => ap m t v) (map fst ps) (A2 c U) = Ok (A2 c V) /\ is_matrix (t_out (hd d (map snd ps))) c V /\ by_columns (run_right (act m) (map snd ps)) c U V.
Proof.
  intros m ps d c U Hm. assert (Sm : forall T, src m T = t_in T /\ dst m T = t_out T) by (destruct m; auto; congruence).
  induction ps as [|p l IH]; intros H C N M; [congruence|]. cbn [map hd]. rewrite from_right_cons. destruct l as [|q l].
  - cbn [map last] in M. cbn [map from_right rbind]. destruct (H p (or_introl eq_refl) c U) as (V & E & MV & CV); [rewrite (proj1 (Sm _)); auto|]. exists V. split; auto. split; [rewrite <- (proj2 (Sm _)); auto|exact CV].
  - cbn [map] in C, M. destruct C as [C1 C2]. rewrite last_cons2 in M. destruct IH as (V & E & MV & CV); [intros; apply H; right; auto|exact C2|discriminate|exact M|]. rewrite E. cbn [rbind].
    cbn [map hd] in MV. rewrite <- C1, <- (proj1 (Sm _)) in MV. destruct (H p (or_introl eq_refl) c V MV) as (W & E' & MW & CW). exists W. split; auto. split; [rewrite <- (proj2 (Sm _)); auto|]. intros j Hj. rewrite CW, CV by auto. auto.
Qed.
Lemma left_mat : forall ps d c U, (forall p, In p ps -> acts Adj (fst p) (snd p)) -> chained (map snd ps) -> ps <> [] -> is_matrix (t_out (hd d (map snd ps))) c U ->
  exists V, from_left (fun t v => ap Adj t v) (map fst ps) (A2 c U) = Ok (A2 c V) /\ is_matrix (t_in (last (map snd ps) d)) c V /\ by_columns (run_left t_adj (map snd ps)) c U V.
Proof.
  induction ps as [|p l IH]; intros d c U H C N M; [congruence|]. cbn [map hd] in *. rewrite from_left_cons. destruct (H p (or_introl eq_refl) c U M) as (V & E & MV & CV). rewrite E. cbn [rbind]. destruct l as [|q l]; [exists V; split; auto|].
  cbn [map] in C. destruct C as [C1 C2]. cbn [dst] in MV. rewrite C1 in MV. destruct (IH d c V) as (W & E' & MW & CW); [intros; apply H; right; auto|exact C2|discriminate|exact MV|]. exists W. split; auto. split; [exact MW|]. intros j Hj. rewrite CW, CV by auto. auto.
Qed.
Lemma wtotal_mat : forall ps ws m c U n k, (forall p, In p ps -> acts m (fst p) (snd p) /\ src m (snd p) = n /\ dst m (snd p) = k) -> is_matrix n c U -> length ws = length ps -> ps <> [] ->
  exists V, wtotal (fun t => ap m t (A2 c U)) (map fst ps) ws = Ok (Some (A2 c V)) /\ is_matrix k c V /\ by_columns (wsum (act m) k (combine (map snd ps) ws)) c U V.
Proof.
  induction ps as [|p l IH]; intros ws m c U n k H M Lw N; [congruence|]. destruct ws as [|w ws]; [discriminate|]. injection Lw as Lw. cbn [map combine]. rewrite wtotal_cons. destruct (H p (or_introl eq_refl)) as (A & S1 & S2). subst n.
  destruct (A c U M) as (V & E & MV & CV). rewrite S2 in MV. destruct (amap_mat (Rmult w) k c V MV) as [MW CW]. destruct l as [|q l].
  - destruct ws; [|discriminate]. cbn [wtotal map rbind combine]. rewrite E. cbn [rbind amap]. eexists. split; [reflexivity|]. split; auto. intros j Hj. rewrite CW, CV by auto. cbn [wsum fst snd]. rewrite vadd_comm. rewrite vadd_zeros_r; [auto|].
    rewrite vscal_length, <- CV by auto. rewrite column_length. apply MV.
  - destruct (IH ws m c U (src m (snd p)) k) as (V' & E' & MV' & CV'); [intros; apply H; right; auto|auto|auto|discriminate|]. rewrite E', E. cbn [rbind amap]. destruct (iadd_mat k c V' _ MV' MW) as (Z & EZ & MZ & CZ). rewrite EZ. cbn [rmap]. exists Z. split; auto. split; auto.
    intros j Hj. rewrite CZ, CW, CV, CV' by auto. auto.
Qed.

Lemma ap_mat : forall t T, denotes t T -> forall m, columnwise m t = true -> acts m t T.
Proof.
  intros t T D. induction D; intros m W c U M; cbn [ap columnwise] in *; try discriminate.
  - (* matrix *) destruct m; cbn [act src dst matrix t_lin t_aff t_adj t_in t_out] in *; [| |apply tdots_mat; auto]; destruct (dots_mat D n c U H M) as (V & E & MV & CV); rewrite E; cbn [rbind].
    + exists V. auto.
    + destruct (add_off_mat Aff o (length D) c V (fun _ => H0) MV) as (Z & EZ & MZ & CZ). exists Z. split; auto. split; auto. intros j Hj. rewrite CZ, CV by auto. auto.
  - (* diagonal *) assert (M' : is_matrix (length d) c U) by (destruct m; auto). destruct (bf_mat Rmult d (length d) c U eq_refl M') as (V & E & MV & CV). rewrite E. cbn [rbind]. destruct (add_off_mat m o (length d) c V (fun _ => H) MV) as (Z & EZ & MZ & CZ). exists Z. split; auto.
    split; [destruct m; auto|]. intros j Hj. rewrite CZ, CV by auto. destruct m; auto.
  - (* shift *) assert (M' : is_matrix (length a) c U) by (destruct m; auto). destruct (add_off_mat m (Some a) (length a) c U) as (Z & EZ & MZ & CZ); auto; [intros _ b E; injection E as <-; auto|]. exists Z. split; auto. split; [destruct m; auto|]. intros j Hj. rewrite CZ by auto. destruct m; auto.
  - (* wrap *) assert (M' : is_matrix (src m T) c U) by (destruct m; auto). destruct (IHD m W c U M') as (V & E & MV & CV). rewrite E. cbn [rbind]. destruct (add_off_mat m o (dst m T) c V) as (Z & EZ & MZ & CZ); auto; [intros -> a Ea; apply H0; auto|]. exists Z. split; auto.
    split; [destruct m; auto|]. intros j Hj. rewrite CZ, CV by auto. rewrite act_wrap. auto.
  - (* selector *) destruct (selector_form _ _ _ _ H2) as [o ->]. assert (Hm : m <> Adj) by (intros ->; discriminate). assert (W' : columnwise m t = true) by (destruct m; auto). assert (M' : is_matrix n c U) by (destruct m; auto; congruence).
    destruct (index_mat idx n c U M' H0) as (V & E & MV & CV). assert (G : rbind (index idx (A2 c U)) (ap m t) = ap m t (A2 c V)) by (rewrite E; auto).
    destruct (IHD m W' c V) as (Z & EZ & MZ & CZ); [destruct m; cbn; try rewrite H1; auto; congruence|]. exists Z. split; [destruct m; [rewrite G; auto|rewrite G; auto|congruence]|]. split; [destruct m; auto; congruence|]. intros j Hj. rewrite CZ, CV by auto. destruct m; auto; congruence.
  - (* intercept *) assert (Hm : m <> Adj) by (intros ->; discriminate). assert (W' : columnwise m t = true) by (destruct m; auto). assert (M' : is_matrix (t_in T + 1) c U) by (destruct m; auto; congruence). destruct U as [|r U]; [destruct M' as [L _]; cbn in L; lia|].
    destruct M' as [L F]. inversion F as [|x l Fr FU]; subst. cbn [length] in L. assert (MU : is_matrix (src m T) (length r) U) by (split; [destruct m; cbn; try congruence; unfold vec in *; lia|auto]).
    destruct (IHD m W' _ U MU) as (V & E & MV & CV). destruct (bcast_row Rplus (dst m T) (length r) V r MV eq_refl) as (Z & EZ & MZ & CZ).
    assert (G : rbind (ap m t (drop 1 (A2 (length r) (r :: U)))) (plus_first (A2 (length r) (r :: U))) = Ok (A2 (length r) Z)) by (cbn [drop skipn]; rewrite E; cbn [rbind plus_first]; auto).
    exists Z. split; [destruct m; [rewrite G; auto|rewrite G; auto|congruence]|]. split; [destruct m; auto; congruence|]. intros j Hj. rewrite CZ, CV by auto. destruct m; auto; congruence.
  - (* centering *) assert (M' : is_matrix n c U) by (destruct m; auto). destruct (center_mat n c U M') as (V & E & MV & CV). rewrite E. exists V. split; auto. split; [destruct m; auto|]. intros j Hj. rewrite CV by auto. destruct m; auto.
  - (* identity *) exists U. split; auto. split; [destruct m; auto|]. intros j Hj. destruct m; auto.
  - (* aslinear *) destruct m; cbn [act src dst aslinear t_lin t_aff t_adj t_in t_out] in *; rewrite ?H; [apply (IHD Lin); auto|apply (IHD Lin); auto|]; try (cbn; rewrite H; auto; fail).
    all: destruct (IHD Lin W c U) as (V & E & MV & CV) || destruct (IHD Adj W c U) as (V & E & MV & CV); cbn [src dst] in *; try (rewrite ?H in *; auto; fail); exists V; rewrite ?H in *; auto.
  - (* adjoint *) destruct m; cbn [act src dst adjoint t_lin t_aff t_adj t_in t_out] in *; [apply (IHD Adj)|apply (IHD Adj)|apply (IHD Lin)]; auto.
  - (* residual *) destruct (residual_form _ _ H) as [Q ->]. assert (M' : is_matrix (src m T) c U) by (destruct m; auto). destruct (IHD m W c U M') as (V & E & MV & CV). rewrite E. cbn [rbind]. assert (SD : dst m T = src m T) by (destruct m; cbn; auto). rewrite SD in MV.
    destruct (bcast_mat Rminus (src m T) c U V M' MV) as (Z & EZ & MZ & CZ). exists Z. split; auto. split; [destruct m; cbn in *; try rewrite <- Q; auto; rewrite Q; auto|]. intros j Hj. rewrite CZ, CV by auto. destruct m; auto.
  - (* composition *) destruct (composition_form _ _ H2) as (T0 & Ts' & ET & E1 & E2 & E3 & I & O). assert (N : ps <> []) by (intros ->; discriminate).
    assert (A : forall p, In p ps -> acts m (fst p) (snd p)). { intros p Hp. apply H0; auto. rewrite forallb_forall in W. apply W. apply in_map. auto. }
    destruct m; cbn [src dst] in *; rewrite I, O in *.
    + destruct (right_mat Lin ps T0 c U) as (V & E & MV & CV); auto; [discriminate|]. exists V. split; auto. split; [rewrite ET in MV; exact MV|]. rewrite E1. exact CV.
    + destruct (right_mat Aff ps T0 c U) as (V & E & MV & CV); auto; [discriminate|]. exists V. split; auto. split; [rewrite ET in MV; exact MV|]. rewrite E2. exact CV.
    + destruct (left_mat ps T0 c U) as (V & E & MV & CV); auto; [rewrite ET; exact M|]. exists V. split; auto. split; auto. rewrite E3. exact CV.
  - (* sum *) destruct (sum_form _ _ _ H2) as (Lw & T0 & Ts' & ET & A). destruct (A m) as [A1' A2']. rewrite A2' in M. assert (IN0 : In T0 (map snd ps)) by (rewrite ET; left; auto).
    destruct (wtotal_mat ps w m c U (src m T0) (dst m T0)) as (V & E & MV & CV); auto.
    + intros p Hp. destruct (H1 (snd p) T0 (in_map snd _ _ Hp) IN0) as [Q1 Q2]. split; [|destruct m; auto]. apply H0; auto. rewrite forallb_forall in W. apply W. apply in_map. auto.
    + rewrite map_length in Lw. auto.
    + intros ->. discriminate.
    + rewrite E. cbn [rbind]. exists V. split; auto. split.
      * assert (SZ : dst m S = dst m T0). { unfold affine_sum in H2. destruct (negb _); [discriminate|]. rewrite ET in H2. injection H2 as <-. destruct m; auto. } rewrite SZ. auto.
      * intros j Hj. rewrite CV by auto. rewrite A1', weighted_wsum. destruct m; auto.
  - (* scalar *) assert (M' : is_matrix (src m T) c U) by (destruct m; auto). destruct (IHD m W c U M') as (V & E & MV & CV). rewrite E. cbn [rbind]. destruct (Req_EM_T a 1) as [->|Hc].
    + exists V. split; auto. split; [destruct m; auto|]. intros j Hj. rewrite CV by auto. destruct m; cbn; unfold times; destruct (Req_EM_T 1 1); auto; congruence.
    + destruct (amap_mat (Rmult a) _ c V MV) as [MZ CZ]. eexists. split; [reflexivity|]. split; [destruct m; auto|]. intros j Hj. rewrite CZ, CV by auto. destruct m; cbn; unfold times; destruct (Req_EM_T a 1); auto; congruence.
Qed.

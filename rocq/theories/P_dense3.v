(** todense, and the classes that fail on two-dimensional arrays or do something else. *)
From Coq Require Import Reals List Lra Lia Arith Bool.
From Verif Require Import Vec Spec P_quad P_cones M_affine SpecAffine P_affine M_dense SpecDense P_dense P_dense1 P_dense2.
Import ListNotations.
Local Open Scope R_scope.

Lemma nth_unit : forall n j k, (k < n)%nat -> nth k (unit_vec n j) 0 = if Nat.eqb k j then 1 else 0.
Proof. intros n j k H. unfold unit_vec. apply (nth_seq_map R (fun k => if Nat.eqb k j then 1 else 0)); auto. Qed.
Lemma unit_len : forall n j, length (unit_vec n j) = n. Proof. intros. unfold unit_vec. rewrite map_length, seq_length. auto. Qed.
Lemma eye_matrix : forall n, is_matrix n n (map (unit_vec n) (seq 0 n)).
Proof. intros n. assert (H := is_matrix_map nat (unit_vec n) (seq 0 n) n (fun j _ => unit_len n j)). rewrite seq_length in H. auto. Qed.
Lemma eye_column : forall n j, (j < n)%nat -> column (map (unit_vec n) (seq 0 n)) j = unit_vec n j.
Proof. intros n j H. unfold column. rewrite map_map. unfold unit_vec at 2. apply map_ext. intros i. rewrite nth_unit by auto. rewrite Nat.eqb_sym. auto. Qed.
Lemma dot_shift : forall (s : nat) n j (y : vec), length y = n -> dot (map (fun k => if Nat.eqb k (s + j) then 1 else 0) (seq s n)) y = nth j y 0.
Proof.
  intros s n. revert s. induction n as [|n IH]; intros s j y L; destruct y as [|a y]; try discriminate; cbn [seq map].
  - rewrite dot_nil_l. destruct j; auto.
  - injection L as L. rewrite dot_cons. destruct j as [|j].
    + rewrite Nat.add_0_r, Nat.eqb_refl. cbn [nth]. assert (Z : forall l (z : vec), (forall k, In k l -> (s < k)%nat) -> dot (map (fun k => if Nat.eqb k s then 1 else 0) l) z = 0).
      { induction l as [|k l IHl]; intros z H; [apply dot_nil_l|]. destruct z as [|b z]; [apply dot_nil_r|]. cbn [map]. rewrite dot_cons, IHl by (intros; apply H; right; auto). assert (Hk := H k (or_introl eq_refl)). destruct (Nat.eqb_spec k s); [lia|]. lra. }
      rewrite Z; [lra|]. intros k Hk. apply in_seq in Hk. lia.
    + destruct (Nat.eqb_spec s (s + S j)); [lia|]. replace (s + S j)%nat with (S s + j)%nat by lia. rewrite IH by auto. cbn [nth]. lra.
Qed.
Lemma dot_unit : forall n j y, length y = n -> dot (unit_vec n j) y = nth j y 0. Proof. intros n j y L. apply (dot_shift 0). auto. Qed.
Lemma dense_matrix : forall t T, denotes t T -> columnwise Lin t = true -> exists V, todense t = Ok (A2 (t_in T) V) /\ is_matrix (t_out T) (t_in T) V /\
  (forall x, length x = t_in T -> t_lin T x = mat_vec V x) /\ (forall u, length u = t_out T -> t_adj T u = mat_tvec (t_in T) V u).
Proof.
  intros t T D W. destruct (denotes_sizes _ _ D) as [S1 S2]. unfold todense. rewrite S1. destruct (ap_mat t T D Lin W (t_in T) _ (eye_matrix (t_in T))) as (V & E & MV & CV). exists V. split; auto. split; auto. destruct MV as [LV FV].
  assert (TA := g_adj _ (built_good _ (denotes_built _ _ D))). destruct TA as (L1 & L2 & A).
  assert (ADJ : forall u, length u = t_out T -> t_adj T u = mat_tvec (t_in T) V u).
  { intros u Lu. apply nth_ext_R; [rewrite L2, mat_tvec_length; auto|]. intros j Hj. rewrite L2 in Hj by auto. rewrite nth_mat_tvec by (auto; rewrite Lu; symmetry; exact LV). rewrite CV by auto. rewrite eye_column by auto. cbn [act]. rewrite dot_comm, A by (auto using unit_len). rewrite dot_unit; auto. }
  split; auto. intros x Lx. apply (dot_separates (t_out T)); [auto|unfold mat_vec; rewrite map_length; auto|]. intros u Lu. rewrite A by auto. rewrite (mat_adjoint (t_in T)); auto; [|rewrite Lu; symmetry; exact LV]. rewrite ADJ by auto. auto.
Qed.

(** ** Failures *)
Lemma assign_mat : forall k c V, is_matrix k c V -> c <> 1%nat -> assign k (A2 c V) = Err ValueError.
Proof.
  intros k c V [LV FV] Hc. unfold assign. rewrite LV. destruct (Nat.eqb_spec k 1) as [->|]; auto. destruct V as [|r [|s V]]; try discriminate. inversion FV as [|x l Fr FU]; subst. cbn [nth]. destruct (Nat.eqb_spec (length r) 1); auto. congruence.
Qed.
Lemma concat_length_mat : forall c (V : list vec), Forall (fun r => length r = c) V -> length (concat V) = (length V * c)%nat.
Proof. induction V as [|r V IH]; intros F; auto. inversion F as [|x l Fr FU]; subst. cbn. rewrite app_length, IH by auto. auto. Qed.
Lemma assign_ravel : forall k c V, is_matrix k c V -> (1 <= k)%nat -> (2 <= c)%nat -> assign k (ravel (A2 c V)) = Err ValueError.
Proof.
  intros k c V [LV FV] Hk Hc. cbn [ravel assign]. rewrite (concat_length_mat c V FV), LV. destruct (Nat.eqb_spec (k * c) k); [nia|]. destruct (Nat.eqb_spec (k * c) 1); [nia|]. auto.
Qed.
Lemma flat_mat : forall k c U, (1 <= k)%nat -> c <> 1%nat -> length U = k -> flat k (A2 c U) = Err ValueError.
Proof. intros k c U Hk Hc L. cbn [flat]. rewrite L. destruct (Nat.eqb_spec (k * c) k); [|auto]. exfalso. apply Hc. destruct c as [|[|c]]; nia. Qed.
Lemma take_len : forall k (U : list vec), (k <= length U)%nat -> length (firstn k U) = k. Proof. intros k U H. apply firstn_length_le. exact H. Qed.
Lemma vstack_raises : forall t T ts c U, denotes t T -> columnwise Lin t = true -> is_matrix (t_in T) c U -> c <> 1%nat -> ap Lin (EVstack (t :: ts)) (A2 c U) = Err ValueError.
Proof.
  intros t T ts c U D W M Hc. destruct (ap_mat t T D Lin W c U M) as (V & E & MV & _). cbn [ap]. rewrite fill_cons, E. cbn [rbind]. rewrite (proj2 (denotes_sizes _ _ D)). rewrite assign_mat; auto.
Qed.
Lemma hstack_raises : forall t ts c U, (1 <= e_in t)%nat -> (e_in t <= length U)%nat -> c <> 1%nat -> ap Lin (EHstack (t :: ts)) (A2 c U) = Err ValueError /\ ap Lin (EProduct (t :: ts)) (A2 c U) = Err ValueError.
Proof.
  intros t ts c U H1 H2 Hc. cbn [ap]. rewrite accumulate_cons, split_fill_cons. cbn [take]. rewrite flat_mat; auto. apply take_len. auto.
Qed.
Lemma vstack_adj_raises : forall t ts c U, (1 <= e_out t)%nat -> (e_out t <= length U)%nat -> c <> 1%nat -> ap Adj (EVstack (t :: ts)) (A2 c U) = Err ValueError.
Proof. intros t ts c U H1 H2 Hc. cbn [ap]. rewrite accumulate_cons. cbn [take]. rewrite flat_mat; auto. apply take_len. auto. Qed.
Lemma hstack_adj_raises : forall t T ts c U, denotes t T -> columnwise Adj t = true -> is_matrix (t_out T) c U -> (1 <= t_in T)%nat -> (2 <= c)%nat -> ap Adj (EHstack (t :: ts)) (A2 c U) = Err ValueError.
Proof.
  intros t T ts c U D W M H1 Hc. destruct (ap_mat t T D Adj W c U M) as (V & E & MV & _). cbn [ap]. rewrite fill_cons, E. cbn [rmap rbind]. rewrite (proj1 (denotes_sizes _ _ D)). cbn [dst] in MV. rewrite assign_ravel; auto.
Qed.
Lemma firstn_matrix : forall k n c U, is_matrix n c U -> (k <= n)%nat -> is_matrix k c (firstn k U).
Proof. intros k n c U [L F] H. split; [apply take_len; rewrite L; auto|]. apply Forall_forall. intros r Hr. rewrite Forall_forall in F. apply F. rewrite <- (firstn_skipn k U). apply in_or_app. auto. Qed.
Lemma product_adj_raises : forall t T ts n c U, denotes t T -> columnwise Adj t = true -> is_matrix n c U -> (t_out T <= n)%nat -> (1 <= t_in T)%nat -> (2 <= c)%nat -> ap Adj (EProduct (t :: ts)) (A2 c U) = Err ValueError.
Proof.
  intros t T ts n c U D W M Hn H1 Hc. destruct (ap_mat t T D Adj W c _ (firstn_matrix _ _ _ _ M Hn)) as (V & E & MV & _). cbn [ap]. rewrite split_fill_cons. cbn [take]. rewrite (proj2 (denotes_sizes _ _ D)), E. cbn [rmap rbind]. rewrite (proj1 (denotes_sizes _ _ D)). cbn [dst] in MV. rewrite assign_ravel; auto.
Qed.
Lemma intercept_adj_raises : forall t T c U, denotes t T -> columnwise Adj t = true -> is_matrix (t_out T) c U -> ap Adj (EIntercept t) (A2 c U) = Err ValueError.
Proof. intros t T c U D W M. destruct (ap_mat t T D Adj W c U M) as (V & E & _). cbn [ap]. rewrite E. auto. Qed.
Lemma selector_adj_raises : forall idx n t T c U, denotes t T -> columnwise Adj t = true -> t_in T = length idx -> is_matrix (t_out T) c U -> c <> 1%nat -> ap Adj (ESelector idx n t) (A2 c U) = Err ValueError.
Proof. intros idx n t T c U D W L M Hc. destruct (ap_mat t T D Adj W c U M) as (V & E & MV & _). cbn [ap]. rewrite E. cbn [rbind]. cbn [dst] in MV. rewrite L in MV. rewrite assign_mat; auto. Qed.
Lemma reshape_raises : forall m n c U, is_matrix n c U -> (1 <= n)%nat -> c <> 1%nat -> ap m (EReshape n) (A2 c U) = Err ValueError.
Proof. intros m n c U [L _] Hn Hc. cbn [ap]. apply flat_mat; auto. Qed.

(** ** scaler: along the wrong axis *)
Lemma bcast_row_l : forall op n c V r, is_matrix n c V -> length r = c -> exists W, bcast op (A1 r) (A2 c V) = Ok (A2 c W) /\ is_matrix n c W /\ forall j, (j < c)%nat -> column W j = map (op (nth j r 0)) (column V j).
Proof.
  intros op n c V r [LV FV] Lr. rewrite Forall_forall in FV. cbn [bcast as_rows]. rewrite Lr, LV, bdim_same. cbn [rbind length]. rewrite bdim_one. cbn [rbind]. eexists. split; [reflexivity|]. split.
  - rewrite <- (seq_length n 0) at 1. apply is_matrix_map. intros i _. rewrite map_length, seq_length. auto.
  - intros j Hj. unfold column at 1. rewrite map_map. unfold column. rewrite map_map.
    assert (EV : V = map (fun i => nth i V []) (seq 0 n)). { apply (nth_ext _ _ [] []); [rewrite map_length, seq_length; auto|]. intros i Hi. unfold vec in *. rewrite nth_seq_map; auto. lia. }
    transitivity (map (fun s => op (nth j r 0) (nth j s 0)) (map (fun i => nth i V []) (seq 0 n))); [|rewrite <- EV; auto]. rewrite map_map. apply map_ext_in. intros i Hi. apply in_seq in Hi. rewrite nth_seq_map by auto. assert (HV : (i < @length vec V)%nat) by (unfold vec in *; lia).
    rewrite (pick_nth _ [] V i HV). cbn [pick length Nat.eqb nth]. rewrite !pick_nth; auto; [|lia]. rewrite FV; auto. apply nth_In. auto.
Qed.
Lemma scaler_columns : forall m s n U, is_matrix n (length s) U -> exists V, ap m (EScaler s) (A2 (length s) U) = Ok (A2 (length s) V) /\ is_matrix n (length s) V /\ forall j, (j < length s)%nat -> column V j = vscal (nth j s 0) (column U j).
Proof. intros m s n U M. cbn [ap]. apply (bcast_row_l Rmult n (length s) U s M eq_refl). Qed.
Lemma scaler_raises : forall m s c U, length s <> 1%nat -> c <> 1%nat -> c <> length s -> ap m (EScaler s) (A2 c U) = Err ValueError.
Proof. intros m s c U H1 H2 H3. cbn [ap bcast as_rows]. unfold bdim at 1. destruct (Nat.eqb_spec (length s) c); [congruence|]. destruct (Nat.eqb_spec (length s) 1); [congruence|]. destruct (Nat.eqb_spec c 1); [congruence|]. auto. Qed.
Lemma scaled_dense : forall s D, Forall (fun r => length r = length s) D -> length D = length s -> exists V T, denotes (EComposition [EScaler s; EMatrix D (length s) None]) T /\
  todense (EComposition [EScaler s; EMatrix D (length s) None]) = Ok (A2 (length s) V) /\
  forall j, (j < length s)%nat -> column V j = vscal (nth j s 0) (column D j) /\ column_of T j = vmul s (column D j).
Proof.
  intros s D F L. set (n := length s) in *.
  assert (DM : denotes (EMatrix D n None) (matrix D n None)) by (apply d_matrix; [auto|discriminate]).
  destruct (composition [scaler s; matrix D n None]) as [T|] eqn:ET; [|discriminate].
  assert (DT : denotes (EComposition [EScaler s; EMatrix D n None]) T).
  { apply (d_composition [(EScaler s, scaler s); (EMatrix D n None, matrix D n None)]); [|cbn; auto|exact ET]. intros p [<-|[<-|[]]]; [apply d_scaler|exact DM]. }
  destruct (ap_mat _ _ DM Lin eq_refl n _ (eye_matrix n)) as (V0 & E0 & M0 & C0). destruct (scaler_columns Lin s (length D) V0 M0) as (V & E & MV & C). exists V, T. split; auto. split.
  { unfold todense. change (e_in (EComposition [EScaler s; EMatrix D n None])) with n. cbn [ap from_right rbind]. cbn [ap] in E0. rewrite E0. exact E. }
  intros j Hj. assert (CD : mat_vec D (unit_vec n j) = column D j). { unfold mat_vec, column. apply map_ext_in. intros r Hr. rewrite Forall_forall in F. rewrite dot_comm. apply dot_unit. auto. }
  split; [rewrite C by auto; rewrite C0, eye_column by auto; cbn [act matrix t_lin]; rewrite CD; auto|].
  injection ET as <-. unfold column_of. cbn [t_lin t_in run_right fold_right last]. cbn [matrix scaler t_in t_lin]. rewrite CD. auto.
Qed.
Lemma aslinear_dense : forall D n o, length D <> n -> todense (EAslinear (EMatrix D n o)) = Err ValueError.
Proof. intros D n o H. unfold todense. cbn [e_in e_out ap]. unfold dots. cbn [alen]. rewrite map_length, seq_length. destruct (Nat.eqb_spec (length D) n); [congruence|]. auto. Qed.
Lemma stacks_dense : forall t T ts, denotes t T -> columnwise Lin t = true -> t_in T <> 1%nat -> todense (EVstack (t :: ts)) = Err ValueError.
Proof.
  intros t T ts D W H. unfold todense. cbn [e_in]. rewrite (proj1 (denotes_sizes _ _ D)). apply (vstack_raises t T); auto. apply eye_matrix.
Qed.
Lemma hstacks_dense : forall t ts, (1 <= e_in t)%nat -> list_sum (map e_in (t :: ts)) <> 1%nat -> todense (EHstack (t :: ts)) = Err ValueError /\ todense (EProduct (t :: ts)) = Err ValueError.
Proof.
  intros t ts H1 H. unfold todense. change (e_in (EHstack (t :: ts))) with (list_sum (map e_in (t :: ts))). change (e_in (EProduct (t :: ts))) with (list_sum (map e_in (t :: ts))). apply hstack_raises; auto. rewrite map_length, seq_length. change (e_in t <= e_in t + list_sum (map e_in ts))%nat. lia.
Qed.

(** ** tensorize *)
Lemma columns_flattened : forall q s n U, length U = n -> columns q n (concat (map (column U) (seq s q))) = map (column U) (seq s q).
Proof.
  induction q as [|q IH]; intros s n U L; auto. cbn [seq map concat columns]. assert (Lc : length (column U s) = n) by (rewrite column_length; auto).
  rewrite firstn_app, skipn_app, Lc, Nat.sub_diag. cbn [firstn skipn]. rewrite app_nil_r. rewrite firstn_all2 by (rewrite Lc; auto). rewrite skipn_all2 by (rewrite Lc; auto). cbn [app]. rewrite IH; auto.
Qed.
Lemma tensor_columns : forall t T q S, denotes t T -> columnwise Lin t = true -> tensorize T q = Ok S -> forall U, is_matrix (t_in T) q U ->
  exists V, ap Lin t (A2 q U) = Ok (A2 q V) /\ is_matrix (t_out T) q V /\ t_lin S (flattened q U) = flattened q V.
Proof.
  intros t T q S D W E U M. destruct (ap_mat t T D Lin W q U M) as (V & E' & MV & CV). exists V. split; auto. split; auto. unfold tensorize in E. destruct (t_off T) as [o|]; [|discriminate]. injection E as <-. cbn [t_lin]. unfold flattened.
  rewrite columns_flattened by apply M. rewrite map_map. f_equal. apply map_ext_in. intros j Hj. apply in_seq in Hj. symmetry. apply CV. lia.
Qed.

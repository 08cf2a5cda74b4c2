(** More about C51 and C73. *)
From Coq Require Import Reals List Lra Lia Arith Bool.
From Verif Require Import M_buffer P_buffer M_loss SpecLoss P_loss4 Vec Spec SpecAffine M_affine P_affine M_fused P_fused P_sep M_mglm SpecMglm P_mglm3.
Import ListNotations.
Local Open Scope R_scope.

(** ** C51 *)
Lemma sum_columns_nth : forall l acc k n i, Forall (fun c => length c = n) l -> (forall a, acc = Some a -> length a = n) -> (k < length l)%nat -> (i < n)%nat ->
  length (nth k (sum_columns acc l) []) = n /\
  nth i (nth k (sum_columns acc l) []) 0 = (match acc with Some a => nth i a 0 | None => 0 end) + vsum (map (fun j => nth i (nth j l []) 0) (seq 0 (S k))).
Proof.
  induction l as [|c l IH]; intros acc k n i F Ha Hk Hi; [cbn in Hk; lia|]. inversion F as [|c' l' Lc Fl]; subst.
  set (s := match acc with Some a => vadd a c | None => c end).
  assert (Ls : length s = length c). { unfold s. destruct acc as [a|]; auto. specialize (Ha a eq_refl). vlen. }
  assert (Es : nth i s 0 = (match acc with Some a => nth i a 0 | None => 0 end) + nth i c 0). { unfold s. destruct acc as [a|]; [|ring]. specialize (Ha a eq_refl). unfold vadd. apply (P_sep.nth_zip0 _ _ _ (length c)); auto. }
  cbn [sum_columns]. cbv zeta. fold s. destruct k as [|k].
  - split; [exact Ls|]. transitivity (nth i s 0); [reflexivity|]. rewrite Es. cbn [seq map nth]. unfold vsum. cbn [fold_right]. ring.
  - cbn [nth]. destruct (IH (Some s) k (length c) i) as [I1 I2]; auto; [intros a E; injection E as <-; auto|cbn in Hk; lia|]. split; [exact I1|]. etransitivity; [exact I2|]. rewrite Es.
    change (seq 0 (S (S k))) with (0%nat :: seq 1 (S k)). cbn [map]. rewrite <- seq_shift, map_map. unfold vsum. cbn [fold_right nth]. ring.
Qed.
(** adjoint_map of trend_filter_inverse on an array with columns (given as the list of its columns): entry i of column k adds up the centred entries i+1 of the
    columns 0, ..., k, where the adjoint would add up the entries i+1, i+2, ... of column k. *)
Theorem C51_inverse_columns_refuted : forall steps U k i, Forall (fun u => length u = S (length steps)) U -> (k < length U)%nat -> (i < length steps)%nat ->
  length (tfi_adjoint2 steps U) = length U /\
  nth i (nth k (tfi_adjoint2 steps U) []) 0 = vsum (map (fun j => nth (S i) (nth j U []) 0 - mean (nth j U [])) (seq 0 (S k))) * nth i steps 0.
Proof.
  intros steps U k i F Hk Hi. unfold tfi_adjoint2. set (W := map (fun u => tl (center u)) U).
  assert (FW : Forall (fun c => length c = length steps) W).
  { unfold W. apply Forall_forall. intros c Hc. apply in_map_iff in Hc. destruct Hc as (u & <- & Hu). rewrite Forall_forall in F. specialize (F u Hu). assert (C := center_length u). destruct (center u); cbn in *; lia. }
  assert (LW : length W = length U) by (unfold W; apply map_length).
  assert (LS : forall l acc, length (sum_columns acc l) = length l) by (induction l as [|c l IH]; intros acc; cbn; auto).
  assert (LS' : length (sum_columns None W) = length U) by (rewrite LS; exact LW).
  split; [rewrite map_length; exact LS'|]. destruct (sum_columns_nth W None k (length steps) i FW) as [N1 N2]; [discriminate|unfold vec in *; lia|auto|].
  rewrite (nth_indep _ [] (vmul [] steps)) by (rewrite map_length; unfold vec in *; lia). rewrite (map_nth (fun c => vmul c steps)). unfold vmul. rewrite (P_sep.nth_zip0 _ _ _ (length steps)) by auto. f_equal. etransitivity; [exact N2|]. rewrite Rplus_0_l. f_equal. apply map_ext_in. intros j Hj. apply in_seq in Hj.
  assert (Lu : length (nth j U []) = S (length steps)) by (rewrite Forall_forall in F; apply F; apply nth_In; lia).
  unfold W. rewrite (nth_indep _ [] (tl (center []))) by (rewrite map_length; unfold vec in *; lia). rewrite (map_nth (fun u => tl (center u))). assert (C := center_length (nth j U [])). unfold mean. rewrite <- nth_center by (unfold vec in *; lia). assert (T : forall (v : list R), v <> [] -> nth i (tl v) 0 = nth (S i) v 0) by (intros [|a v] Hv; [congruence|reflexivity]). apply T. intros X. rewrite X in C. cbn in C. unfold vec in *. lia.
Qed.
Print Assumptions C51_inverse_columns_refuted.
Example C51_inverse_columns_case : Forall (fun u => length u = S (length [1; 2])) [[0; 0; 1]; [4; 5; 6]].
Proof. repeat constructor. Qed.

(** ** C73 *)
(** Subsampling a loss without weights of its own: it gets a new array, one for the cases of the subsample and zero elsewhere, and no array the caller holds is
    written (C73_subsample_refuted: with weights of its own that array is overwritten). A case out of range raises IndexError and changes nothing; so does
    an unknown mode with ValueError. *)
Theorem C73_subsample_partial : forall h l idx,
  (Forall (fun i => (i < m_rows l)%nat) idx -> m_cw l = None -> exists h' l', subsample_multi h l idx = (h', Ok l') /\ (forall r, (r < length h)%nat -> read h' r = read h r) /\
     exists w, m_cw l' = Some w /\ (length h <= w)%nat /\ read h' w = restrict idx (ones (m_rows l))) /\
  (Exists (fun i => (m_rows l <= i)%nat) idx -> subsample_multi h l idx = (h, Err IndexError)) /\
  (forall arg x, multi_eval h l arg x EvOther = Err ValueError).
Proof.
  intros h l idx. split; [|split; [|reflexivity]].
  - intros F E. unfold subsample_multi. replace (forallb (fun i => Nat.ltb i (m_rows l)) idx) with true by (symmetry; apply forallb_forall; rewrite Forall_forall in F; intros i Hi; apply Nat.ltb_lt; auto). cbn [negb]. rewrite E.
    eexists. eexists. split; [reflexivity|]. split; [intros r Hr; apply read_app; auto|]. exists (length h). split; [reflexivity|]. split; [lia|]. rewrite read_new. assert (X := indicator_restrict idx (ones (m_rows l))). rewrite ones_length in X. exact X.
  - intros X. unfold subsample_multi. replace (forallb (fun i => Nat.ltb i (m_rows l)) idx) with false; [reflexivity|]. symmetry. apply Exists_exists in X. destruct X as (i & Hi & X). destruct (forallb _ _) eqn:E; auto. rewrite forallb_forall in E. specialize (E i Hi). apply Nat.ltb_lt in E. lia.
Qed.
Print Assumptions C73_subsample_partial.
Example C73_subsample_case : exists l, new_multi [] false 2 2 [[1; 1]; [0; 2]] 1 None None None = Ok l /\ m_cw l = None /\ m_rows l = 2%nat.
Proof.
  unfold new_multi. destruct (Rlt_dec 1 0); [lra|]. unfold multi_check, any_neg. cbn. repeat (destruct (Rlt_dec _ 0); [lra|]). cbn. eexists. split; [reflexivity|]. split; reflexivity.
Qed.

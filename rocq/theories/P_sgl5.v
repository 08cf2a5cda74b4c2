(** Sums over groups; the dual ball splits into one ball per group. *)
From Coq Require Import Reals List Lra Lia Psatz Bool ZArith Permutation.
From Verif Require Import Vec Spec M_quad M_prox M_semi M_shift M_mode SpecWeighted SpecPart SpecGroup M_mixed M_weighted M_group SpecGatom SpecSgl M_sgl
  P_quad P_prox P_part P_weighted P_gauge P_group P_group2 P_sgl P_sgl2 P_search P_sgl3.
Import ListNotations.
Local Open Scope R_scope.

Lemma vsum_map_add : forall {A} (f g : A -> R) l, vsum (map (fun c => f c + g c) l) = vsum (map f l) + vsum (map g l).
Proof. induction l as [|c l IH]; cbn [map]; rewrite ?vsum_cons; [unfold vsum; simpl; lra|rewrite IH; lra]. Qed.
Lemma vsum_map_one : forall (g : Z) e l, NoDup l -> In g l -> vsum (map (fun h => if Z.eqb h g then e else 0) l) = e.
Proof.
  intros g e. induction l as [|h l IH]; intros N Hi; [destruct Hi|]. inversion N as [|? ? N1 N2]; subst. cbn [map]. rewrite vsum_cons. destruct (Z.eqb_spec h g) as [->|Hn].
  - replace (vsum (map (fun h => if Z.eqb h g then e else 0) l)) with 0; [lra|]. clear - N1. induction l as [|h l IH]; auto. cbn [map]. rewrite vsum_cons.
    destruct (Z.eqb_spec h g) as [->|]; [destruct N1; left; auto|]. rewrite <- IH; [lra|]. intros H. apply N1. right. auto.
  - destruct Hi as [|Hi]; [congruence|]. rewrite IH by auto. lra.
Qed.
Lemma block_cons : forall l labels g a x, block (l :: labels) g (a :: x) = if Z.eqb g l then a :: block labels g x else block labels g x.
Proof. auto. Qed.
Lemma vsum_blocks_in : forall ids labels x, NoDup ids -> (forall l, In l labels -> In l ids) -> length x = length labels -> vsum (map (fun g => vsum (block labels g x)) ids) = vsum x.
Proof.
  intros ids. induction labels as [|l labels IH]; intros [|a x] N Hi L; try discriminate.
  - replace (map (fun g => vsum (block [] g [])) ids) with (zeros (length ids)).
    + clear. induction ids as [|i ids IH]; auto. unfold zeros in *. cbn [length repeat]. rewrite vsum_cons, IH. unfold vsum. simpl. lra.
    + clear. unfold zeros. induction ids; auto. cbn [length repeat map]. rewrite IHids. auto.
  - rewrite vsum_cons, <- (IH x) by first [intros; apply Hi; right; assumption|simpl in L; congruence|auto].
    transitivity (vsum (map (fun h => if Z.eqb h l then a else 0) ids) + vsum (map (fun g => vsum (block labels g x)) ids)); [|rewrite (vsum_map_one l a ids) by (auto; apply Hi; left; auto); auto]. rewrite <- vsum_map_add. f_equal. apply map_ext. intros g. rewrite block_cons.
    destruct (Z.eqb g l); [rewrite vsum_cons; auto|lra].
Qed.
Lemma vsum_blocks : forall labels x, length x = length labels -> vsum (map (fun g => vsum (block labels g x)) (distinct labels)) = vsum x.
Proof. intros labels x L. apply vsum_blocks_in; auto; [apply NoDup_nodup|]. intros l. rewrite (nodup_In Z.eq_dec). auto. Qed.
Lemma vsum_blocks_ids : forall labels x, length x = length labels -> vsum (map (fun g => vsum (block labels g x)) (g_ids labels)) = vsum x.
Proof. intros labels x L. apply vsum_blocks_in; auto; [apply ids_nodup|]. intros l. unfold g_ids. rewrite sorted_unique_in. auto. Qed.

Lemma glasso_value : forall labels w x, glasso labels w x = Fin (vsum (map (fun g => w g * norm (block labels g x)) (distinct labels))).
Proof.
  intros. unfold glasso. replace (map (fun g => group_term (w g) (block labels g x)) (distinct labels)) with (map Fin (map (fun g => w g * norm (block labels g x)) (distinct labels))).
  - apply ext_sum_fin.
  - rewrite map_map. apply map_ext. intros. unfold group_term. rewrite ell2_norm. auto.
Qed.
Lemma block_vmul : forall labels g x y, length x = length labels -> length y = length labels -> block labels g (vmul x y) = vmul (block labels g x) (block labels g y).
Proof. intros. unfold block, vmul. apply pick_vzip; auto. Qed.
Lemma block_map : forall f labels g x, block labels g (map f x) = map f (block labels g x).
Proof. intros. unfold block. apply pick_map. Qed.
Lemma block_length : forall labels g x y, length x = length labels -> length y = length labels -> length (block labels g x) = length (block labels g y).
Proof. intros. unfold block. rewrite !pick_length; auto. Qed.
Lemma block_forall : forall (Q : R -> Prop) labels g x, Forall Q x -> Forall Q (block labels g x).
Proof.
  intros Q labels g. induction labels as [|l labels IH]; intros [|a x] H; try constructor. rewrite block_cons. destruct (Z.eqb g l); [constructor|]; [exact (Forall_inv H)|apply IH; exact (Forall_inv_tail H)|apply IH; exact (Forall_inv_tail H)].
Qed.
Lemma vsum_map_ext : forall {A} (f g : A -> R) l, (forall c, In c l -> f c = g c) -> vsum (map f l) = vsum (map g l).
Proof. intros. f_equal. apply map_ext_in. auto. Qed.
Lemma vsum_map_le : forall {A} (f g : A -> R) l, (forall c, In c l -> f c <= g c) -> vsum (map f l) <= vsum (map g l).
Proof.
  intros A f g. induction l as [|c l IH]; intros H; [unfold vsum; simpl; lra|]. cbn [map]. rewrite !vsum_cons. assert (f c <= g c) by (apply H; left; auto).
  assert (vsum (map f l) <= vsum (map g l)) by (apply IH; intros; apply H; right; auto). lra.
Qed.
Lemma vsum_map_scal : forall {A} r (f : A -> R) l, vsum (map (fun c => r * f c) l) = r * vsum (map f l).
Proof. intros A r f. induction l as [|c l IH]; [unfold vsum; simpl; lra|]. cbn [map]. rewrite !vsum_cons, IH. ring. Qed.
(** the value of the penalty, group by group *)
Theorem sparse_group_split : forall labels a w v, length a = length labels -> length v = length labels ->
  sparse_group labels (map Fin a) w v = Fin (vsum (map (fun g => one_value (block labels g a) (w g) (block labels g v)) (distinct labels))).
Proof.
  intros labels a w v La Lv. unfold sparse_group. rewrite glasso_value, wl1_fin. cbn [ext_add]. f_equal. unfold one_value. rewrite vsum_map_add. f_equal.
  rewrite <- (vsum_blocks labels) by (unfold vmul; rewrite vzip_length; rewrite ?map_length; congruence). apply vsum_map_ext. intros g _. rewrite block_vmul by (rewrite ?map_length; auto). rewrite block_map. auto.
Qed.
Lemma dot_blocks : forall labels (u v : vec), length u = length labels -> length v = length labels -> dot u v = vsum (map (fun g => dot (block labels g u) (block labels g v)) (distinct labels)).
Proof.
  intros labels u v Lu Lv. unfold dot. rewrite <- (vsum_blocks labels) by (unfold vmul; rewrite vzip_length; congruence). apply vsum_map_ext. intros. rewrite block_vmul; auto.
Qed.
(** a vector supported on one group *)
Fixpoint unblock (labels : list Z) (g : Z) (v : vec) : vec :=
  match labels with
  | [] => []
  | l :: labels' => if Z.eqb g l then hd 0 v :: unblock labels' g (tl v) else 0 :: unblock labels' g v
  end.
Lemma unblock_length : forall labels g v, length (unblock labels g v) = length labels.
Proof. induction labels as [|l labels IH]; intros g v; auto. cbn [unblock]. destruct (Z.eqb g l); simpl; rewrite IH; auto. Qed.
Lemma block_unblock : forall labels g v, length v = length (block labels g (zeros (length labels))) -> block labels g (unblock labels g v) = v.
Proof.
  induction labels as [|l labels IH]; intros g v H.
  - destruct v; [auto|discriminate H].
  - cbn [unblock]. unfold zeros in *. cbn [length repeat] in H. rewrite block_cons in H. destruct (Z.eqb g l) eqn:E; rewrite block_cons, E.
    + destruct v as [|e v]; [discriminate H|]. cbn [hd tl]. rewrite IH; auto.
    + apply IH. auto.
Qed.
Lemma block_unblock_other : forall labels g h v, g <> h -> block labels h (unblock labels g v) = zeros (length (block labels h (zeros (length labels)))).
Proof.
  induction labels as [|l labels IH]; intros g h v N; [auto|]. cbn [unblock]. unfold zeros in *. cbn [length repeat]. rewrite (block_cons l labels h 0 (repeat 0 (length labels))). destruct (Z.eqb_spec g l) as [->|Hg].
  - rewrite block_cons. destruct (Z.eqb_spec h l); [congruence|]. apply IH. auto.
  - rewrite block_cons. destruct (Z.eqb_spec h l); [cbn [length repeat]; f_equal|]; apply IH; auto.
Qed.
Theorem ball_split : forall labels a w b u, length a = length labels -> length u = length labels ->
  (dual_ball (length labels) (sparse_group labels (map Fin a) w) b u <->
   forall g, In g labels -> dual_ball (length (block labels g u)) (one_group (block labels g a) (w g)) b (block labels g u)).
Proof.
  intros labels a w b u La Lu. split.
  - intros H g Hg v s Lv Ev. rewrite one_group_value in Ev. injection Ev as <-.
    assert (Lz : length v = length (block labels g (zeros (length labels)))) by (rewrite Lv; apply block_length; auto; apply zeros_length).
    specialize (H (unblock labels g v) _ (unblock_length _ _ _) (sparse_group_split labels a w _ La (unblock_length _ _ _))).
    rewrite (dot_blocks labels) in H by (auto; apply unblock_length).
    assert (K : forall (F G : Z -> R), F g = G g -> (forall h, h <> g -> F h = 0) -> vsum (map F (distinct labels)) = G g).
    { intros F F' E0 Z. rewrite <- E0. rewrite <- (vsum_map_one g (F g) (distinct labels)) by (try apply NoDup_nodup; rewrite (nodup_In Z.eq_dec); auto). apply vsum_map_ext. intros h _. destruct (Z.eqb_spec h g) as [->|N]; auto. }
    rewrite (K _ (fun h => dot (block labels h u) v)) in H; [|rewrite block_unblock; auto|intros h N; rewrite block_unblock_other by auto; apply dot_zeros_r].
    rewrite (K _ (fun h => one_value (block labels h a) (w h) v)) in H; [exact H|rewrite block_unblock; auto|].
    intros h N. rewrite block_unblock_other by auto. unfold one_value. rewrite norm_zeros. unfold zeros.
    generalize (length (block labels h (repeat 0 (length labels)))) as k. generalize (block labels h a). intros a' k. rewrite Rmult_0_r, Rplus_0_r. clear. revert k. induction a' as [|e a' IH]; intros [|k]; auto. unfold vmul in *. cbn [repeat map vzip]. rewrite vsum_cons, IH, Rabs_R0. ring.
  - intros H v s Lv Ev. rewrite sparse_group_split in Ev by auto. injection Ev as <-. rewrite (dot_blocks labels) by auto. rewrite <- vsum_map_scal. apply vsum_map_le.
    intros g Hg. apply H; [apply (nodup_In Z.eq_dec); auto|apply block_length; auto|apply one_group_value].
Qed.
Theorem sparse_ball_iff : forall labels a w b u, length a = length labels -> length u = length labels -> 0 <= b -> Forall (fun r => 0 <= r) a -> (forall g, In g labels -> 0 <= w g) ->
  (dual_ball (length labels) (sparse_group labels (map Fin a) w) b u <-> forall g, In g labels -> norm (soft_pos (block labels g a) b (block labels g u)) <= b * w g).
Proof.
  intros labels a w b u La Lu Hb Ha Hw. rewrite ball_split by auto. split; intros H g Hg; specialize (H g Hg); apply one_ball_iff; auto using block_forall; apply block_length; auto.
Qed.
(** The dual norm is the largest of the groups' *)
Theorem dual_norm_max : forall labels a w u D (d : Z -> R), length a = length labels -> length u = length labels -> Forall (fun r => 0 <= r) a -> (forall g, In g labels -> 0 <= w g) -> labels <> [] ->
  (forall g, In g labels -> is_dual_norm (length (block labels g u)) (one_group (block labels g a) (w g)) (block labels g u) (d g)) ->
  (is_dual_norm (length labels) (sparse_group labels (map Fin a) w) u D <-> (exists g, In g labels /\ D = d g) /\ forall g, In g labels -> d g <= D).
Proof.
  intros labels a w u D d La Lu Ha Hw Hne Hd.
  assert (IFF : forall t, 0 <= t -> (dual_ball (length labels) (sparse_group labels (map Fin a) w) t u <-> forall g, In g labels -> d g <= t)).
  { intros t Ht. rewrite ball_split by auto. split; intros H g Hg; specialize (H g Hg); destruct (Hd g Hg) as (A & B & C).
    - apply C; auto.
    - apply ball_mono with (d g); auto. intros v s Lv Ev. apply (one_nonneg _ _ _ v s (block_forall _ labels g a Ha) (Hw g Hg) Lv Ev). }
  assert (MX : exists g, In g labels /\ forall h, In h labels -> d h <= d g).
  { clear - Hne. induction labels as [|l labels IH]; [congruence|]. destruct labels as [|l' labels]; [exists l; split; [left; auto|intros h [->|[]]; lra]|].
    destruct IH as (g & Hg & H); [discriminate|]. destruct (Rle_dec (d l) (d g)).
    - exists g. split; [right; auto|]. intros h [<-|Hh]; auto.
    - exists l. split; [left; auto|]. intros h [<-|Hh]; [lra|]. specialize (H h Hh). lra. }
  destruct MX as (g & Hg & MX). assert (G0 : 0 <= d g) by (apply (Hd g Hg)). split.
  - intros (A & B & C). pose proof (proj1 (IFF D A) B) as B'. split; auto. exists g. split; auto. apply Rle_antisym; auto. apply C; auto. apply IFF; auto.
  - intros ((h & Hh & ->) & H). split; [apply (Hd h Hh)|]. split; [apply IFF; auto; apply (Hd h Hh)|]. intros b Hb H'. apply (proj1 (IFF b Hb) H'). auto.
Qed.
(** r ||v|| <= P(v) when every group weight is at least r *)
Theorem radius_ok : forall labels a w r v s, length v = length labels -> Forall weight_legal a -> 0 <= r -> (forall g, In g labels -> r <= w g) -> sparse_group labels a w v = Fin s -> r * norm v <= s.
Proof.
  intros labels a w r v s Lv Ha Hr Hw E. unfold sparse_group in E. rewrite glasso_value in E. destruct (wl1 a v) as [s1|] eqn:E1; [|discriminate]. injection E as <-. pose proof (wl1_nonneg a v s1 Ha E1).
  assert (r * norm v <= vsum (map (fun g => w g * norm (block labels g v)) (distinct labels))); [|lra].
  apply Rle_trans with (r * vsum (map (fun g => norm (block labels g v)) (distinct labels))).
  - apply Rmult_le_compat_l; auto. pose proof (norm_nonneg v) as N. destruct (Req_dec (norm v) 0) as [->|Hn].
    + clear. induction (distinct labels) as [|g l IH]; [unfold vsum; simpl; lra|]. cbn [map]. rewrite vsum_cons. pose proof (norm_nonneg (block labels g v)). lra.
    + apply Rmult_le_reg_l with (norm v); [lra|]. rewrite norm_sq. unfold sqn. rewrite (dot_blocks labels) by auto. rewrite <- vsum_map_scal. apply vsum_map_le. intros g _. fold (sqn (block labels g v)).
      rewrite <- norm_sq. apply Rmult_le_compat_r; [apply norm_nonneg|]. unfold norm. apply sqrt_le_1_alt.
      clear - Lv. revert v Lv. induction labels as [|l labels IH]; intros [|e v] L; try discriminate; [apply Rle_refl|]. rewrite block_cons, sqn_cons. specialize (IH v ltac:(simpl in L; congruence)). pose proof (Rle_0_sqr e). unfold Rsqr in *.
      destruct (Z.eqb g l); rewrite ?sqn_cons; nra.
  - rewrite <- vsum_map_scal. apply vsum_map_le. intros g Hg. apply Rmult_le_compat_r; [apply norm_nonneg|]. apply Hw. exact (proj1 (nodup_In Z.eq_dec _ _) Hg).
Qed.
(** terms() add up to the value *)
Theorem s_terms_sum : forall labels a given x, length a = length labels -> length x = length labels -> Forall (fun r => 0 <= r) a ->
  Fin (vsum (s_terms labels a given x)) = sparse_group labels (map Fin a) (group_weight given labels) x.
Proof.
  intros labels a given x La Lx Ha. rewrite sparse_group_split by auto. f_equal. unfold s_terms.
  assert (Q : vsum (map (fun g => one_value (block labels g a) (group_weight given labels g) (block labels g x)) (distinct labels)) = vsum (map (fun g => one_value (block labels g a) (group_weight given labels g) (block labels g x)) (g_ids labels))).
  { assert (FE : Fin (vsum (map (fun g => one_value (block labels g a) (group_weight given labels g) (block labels g x)) (distinct labels))) = Fin (vsum (map (fun g => one_value (block labels g a) (group_weight given labels g) (block labels g x)) (g_ids labels)))).
    { rewrite <- !ext_sum_fin. apply ext_sum_perm. apply Permutation_map, Permutation_map. apply Permutation_sym, ids_perm. }
    injection FE. auto. }
  rewrite Q. apply vsum_map_ext. intros g _. rewrite !zpick_block. unfold one_value. rewrite Rplus_comm, (Rmult_comm (norm _)). f_equal. f_equal.
  pose proof (block_forall _ labels g a Ha) as Hb. pose proof (block_length labels g a x La Lx) as Lb. revert Hb Lb. generalize (block labels g a) (block labels g x). clear.
  induction v as [|c v IH]; intros [|e y] Hb L; try discriminate; auto. unfold vabs, vmul in *. cbn [vzip map]. rewrite IH; [|exact (Forall_inv_tail Hb)|simpl in L; congruence].
  pose proof (Forall_inv Hb) as Hc. simpl in Hc. rewrite Rabs_mult, (Rabs_right c) by lra. f_equal. ring.
Qed.

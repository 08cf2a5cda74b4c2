(** Sparse group lasso paths. *)
From Coq Require Import Reals List Lra Lia Arith Bool ZArith Permutation Sorted.
From Verif Require Import M_affine SpecAffine P_affine P_affine2 M_loss SpecLoss SpecSmooth P_smooth Vec Spec SpecConvex M_quad M_prox M_semi M_weighted P_quad P_calc P_sep P_feas M_problem M_cv SpecCv P_cv M_path SpecPath P_path P_path2 P_path3 P_path4
  SpecPart SpecGroup SpecWeighted SpecSgl M_mixed M_group M_sgl SpecGatom P_part P_mixed P_kinds P_group P_sgl2 P_sgl3 P_sgl5 P_sgl7 M_gpath SpecGpath P_gpath P_gpath3.
Import ListNotations.
Local Open Scope R_scope.

Lemma rall_spec : forall {A B} (f : A -> res B) l rs, rall f l = Ok rs <-> Forall2 (fun a b => f a = Ok b) l rs.
Proof.
  intros A B f. induction l as [|a l IH]; intros rs; cbn [rall].
  - split; [intros E; apply Ok_inj in E; subst; constructor|intros H; inversion H; auto].
  - split.
    + destruct (f a) as [b|e] eqn:E; [|discriminate]. cbn [rbind]. destruct (rall f l) as [r|e] eqn:E'; [|discriminate]. cbn [rbind]. intros H. apply Ok_inj in H. subst rs. constructor; auto. apply IH. auto.
    + intros H. inversion H as [|? b ? r H1 H2]; subst. rewrite H1. cbn [rbind]. apply IH in H2. rewrite H2. reflexivity.
Qed.
Lemma rall_ok : forall {A B} (f : A -> res B) l, (forall a, In a l -> exists b, f a = Ok b) -> exists rs, rall f l = Ok rs.
Proof. intros A B f. induction l as [|a l IH]; intros H; cbn [rall]; [eexists; reflexivity|]. destruct (H a (or_introl eq_refl)) as (b & ->). cbn [rbind]. destruct (IH (fun x Hx => H x (or_intror Hx))) as (r & ->). eexists. reflexivity. Qed.
Lemma rall_err : forall {A B} (f : A -> res B) l rs a e, In a l -> f a = Err e -> rall f l <> Ok rs.
Proof. intros A B f l rs a e Ha Ea H. apply rall_spec in H. induction H as [|x b l rs H1 H2 IH]; [destruct Ha|]. destruct Ha as [->|Ha]; [congruence|auto]. Qed.
Lemma ext_terms_bound : forall l tol, tol < 2 -> Forall (fun a => a <= 1 + tol) (ext_terms l) <-> forall e, In e l -> exists a, e = Fin a /\ a <= 1 + tol.
Proof.
  intros l tol Ht. unfold ext_terms. set (m := fold_right _ 0 l). assert (Hm : 0 <= m). { unfold m. clear. induction l as [|e l IH]; cbn [fold_right]; [lra|]. destruct e; auto. apply Rle_trans with (Rabs r); [apply Rabs_pos|apply Rmax_l]. }
  clearbody m. rewrite Forall_forall. split.
  - intros H e He. specialize (H (match e with Fin a => a | PInf => m + 3 end)). destruct e as [a|]; [exists a; split; auto; apply H; apply in_map_iff; exists (Fin a); auto|]. exfalso. assert (m + 3 <= 1 + tol); [|lra]. apply H. apply in_map_iff. exists PInf. auto.
  - intros H x Hx. apply in_map_iff in Hx. destruct Hx as (e & <- & He). destruct (H e He) as (a & -> & Ha). auto.
Qed.
Lemma sg_passes_iff : forall groups lw weights grad s lam tol fuel rs, tol < 2 -> rall (sg_one groups lw weights grad s lam tol fuel) (g_ids groups) = Ok rs -> exists r, sg_check groups lw weights grad s lam tol fuel = Ok r /\ (passes r <-> forall q, In q rs -> fst q = false /\ exists a, snd q = Fin a /\ a <= 1 + tol).
Proof.
  intros groups lw weights grad s lam tol fuel rs Ht E. unfold sg_check. rewrite E. cbn [rmap]. eexists. split; [reflexivity|]. unfold passes. cbn [fst snd]. rewrite ranks_of_neg, ext_terms_bound, Forall_forall by auto. split.
  - intros (A & B) q Hq. split; [apply A, in_map; auto|apply B, in_map; auto].
  - intros H. split; [intros b Hb; apply in_map_iff in Hb; destruct Hb as (q & <- & Hq); apply H; auto|intros e He; apply in_map_iff in He; destruct He as (q & <- & Hq); apply H; auto].
Qed.
(** ** a group without penalty *)
Lemma vmul_zeros_r : forall (s : vec) n, vmul s (zeros n) = zeros (Nat.min (length s) n).
Proof. induction s as [|a s IH]; intros [|n]; auto. unfold vmul, zeros in *. cbn [repeat vzip length Nat.min]. rewrite IH. f_equal. ring. Qed.
Lemma vsum_zeros' : forall n, vsum (zeros n) = 0.
Proof. induction n as [|n IH]; auto. unfold zeros in *. cbn [repeat]. rewrite vsum_cons, IH. ring. Qed.
Lemma vabs_zeros : forall n, vabs (zeros n) = zeros n.
Proof. induction n as [|n IH]; auto. unfold vabs, zeros in *. cbn [repeat map]. rewrite IH, Rabs_R0. auto. Qed.
Lemma sg_one_free : forall groups lw weights grad s lam tol fuel g n, weight_of weights groups g = 0 -> zpick g groups lw = zeros n -> sg_one groups lw weights grad s lam tol fuel g = Err NameError.
Proof.
  intros groups lw weights grad s lam tol fuel g n W Z. unfold sg_one. rewrite W, Z, vmul_zeros_r, vabs_zeros, !vsum_zeros'. assert (N := norm_nonneg s). replace (gtb (norm (zpick g groups s) * 0 + 0) (/ 10 ^ 6 * norm s)) with false by (symmetry; apply gtb_false; rewrite Rmult_0_r, Rplus_0_l; apply Rmult_le_pos; lra).
  replace (gtb (0 + 0) 0) with false by (symmetry; apply gtb_false; lra). reflexivity.
Qed.
Theorem sg_check_free : forall groups lw weights grad s lam tol fuel g n r, In g groups -> weight_of weights groups g = 0 -> zpick g groups lw = zeros n -> sg_check groups lw weights grad s lam tol fuel <> Ok r.
Proof.
  intros groups lw weights grad s lam tol fuel g n r Hg W Z H. unfold sg_check in H. destruct (rall (sg_one groups lw weights grad s lam tol fuel) (g_ids groups)) as [rs|e] eqn:E; [|discriminate]. apply (rall_err _ _ rs g NameError) in E; auto; [apply sorted_unique_in; auto|]. apply (sg_one_free _ _ _ _ _ _ _ _ _ n); auto.
Qed.
Lemma scaled_zeros : forall n c, map (fun a => a * c) (zeros n) = zeros n.
Proof. induction n as [|n IH]; intros c; auto. unfold zeros in *. cbn [repeat map]. rewrite IH. f_equal. ring. Qed.
Lemma gather_all : forall (x : vec), gather (seq 0 (length x)) x = x.
Proof. intros x. apply (nth_ext _ _ 0 0); [unfold gather; rewrite map_length, seq_length; auto|]. intros j Hj. unfold gather in *. rewrite map_length, seq_length in Hj. rewrite (nth_map_seq R (fun i => nth i x 0)) by auto. reflexivity. Qed.
Lemma sg_weight_at : forall groups given a labels g, In g groups -> group_weight (sg_weights groups given a) labels g = (1 - a) * group_weight given groups g.
Proof. intros groups given a labels g H. unfold group_weight at 1. unfold sg_weights, filled. replace (existsb (Z.eqb g) groups) with true; [reflexivity|]. symmetry. apply existsb_exists. exists g. split; auto. apply Z.eqb_refl. Qed.
(** no value is accepted *)
Theorem sparse_never : forall grad func X groups lw given enet alpha l1_alpha fuel0 S chk max_tries fuel lseq g pts h n, let P := sparse_group_path grad func X groups lw given enet alpha l1_alpha fuel0 in
  good_path (gq_base P) -> length groups = lp_size (gq_base P) -> length lw = length groups -> right_size S -> In h groups -> group_weight given groups h = 0 -> block groups h lw = zeros n ->
  group_strong_rules fuel P S chk max_tries lseq (zeros (lp_size (gq_base P))) g = Ok pts -> Forall (fun pt => gp_warned pt = true) pts.
Proof.
  intros grad func X groups lw given enet alpha l1_alpha fuel0 S chk max_tries fuel lseq g pts h n P GP LG Ll RS Hh W Z E. unfold group_strong_rules in E. destruct lseq as [|l0 ls]; [apply Ok_inj in E; subst; constructor|].
  destruct (gpath_spec P GP LG S chk max_tries fuel ls l0 _ pts RS (gstart_ok P g) E) as (_ & F). apply Forall_impl with (2 := F). intros pt (_ & A & _). destruct (gp_warned pt); auto. exfalso. destruct (A eq_refl) as (r & Er & _). cbn [gq_check P sparse_group_path] in Er. rewrite <- LG, labels_all in Er.
  apply (sg_check_free groups (gather (seq 0 (length groups)) (sg_lasso lw l1_alpha)) (sg_weights groups given l1_alpha) _ _ _ _ _ h n) in Er; auto.
  - change (weight_of (sg_weights groups given l1_alpha) groups h) with (group_weight (sg_weights groups given l1_alpha) groups h). rewrite sg_weight_at, W by auto. ring.
  - rewrite zpick_block. replace (length groups) with (length (sg_lasso lw l1_alpha)) by (unfold sg_lasso; rewrite map_length; auto). rewrite gather_all. unfold sg_lasso. rewrite block_map, Z. apply scaled_zeros.
Qed.
(** ** what the property unpenalized reports *)
Theorem sg_unpenalized_iff : forall groups lw given g, In g (sg_unpenalized groups lw given) <-> In g groups /\ ((group_weight given groups g = 0 /\ Forall (fun a => a <> 0) (block groups g lw)) \/ (group_weight given groups g = 1 /\ Exists (fun a => a = 0) (block groups g lw))).
Proof.
  intros groups lw given g. unfold sg_unpenalized. rewrite filter_In. unfold g_ids. rewrite sorted_unique_in. unfold sg_unpenalized_group. change (weight_of given groups g) with (group_weight given groups g). rewrite zpick_block. set (w := group_weight given groups g). rewrite is0_true. destruct (existsb is0 (block groups g lw)) eqn:E.
  - apply existsb_exists in E. destruct E as (a & Ha & Ea). apply is0_true in Ea. subst a. split; intros (H & K); (split; [auto|]).
    + right. split; [lra|]. apply Exists_exists. exists 0. auto.
    + destruct K as [(_ & K)|(K & _)]; [|lra]. rewrite Forall_forall in K. destruct (K 0 Ha eq_refl).
  - assert (F : Forall (fun a => a <> 0) (block groups g lw)). { apply Forall_forall. intros a Ha Z. subst a. assert (existsb is0 (block groups g lw) = true); [|congruence]. apply existsb_exists. exists 0. split; auto. apply is0_true. auto. }
    split; intros (H & K); (split; [auto|]).
    + left. split; [lra|auto].
    + destruct K as [(K & _)|(_ & K)]; [lra|]. apply Exists_exists in K. destruct K as (a & Ha & Ea). rewrite Forall_forall in F. destruct (F a Ha Ea).
Qed.

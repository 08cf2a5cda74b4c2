(** The multiscale statistic, and where the transform goes wrong. *)
From Coq Require Import Reals List Lra Lia Arith ZArith.
From Verif Require Import Vec Spec SpecLoss M_quad M_slope M_affine P_quad P_sep P_cv P_fused M_multi SpecMulti P_multi P_multi2 P_multi3.
Import ListNotations.
Local Open Scope R_scope.
Local Notation center := M_affine.center (only parsing).

Lemma argmax_from_spec : forall l best a k L, (best < k)%nat -> (length L = k + length l)%nat -> nth best L 0 = a -> (forall i, (i < length l)%nat -> nth (k + i) L 0 = nth i l 0) -> (forall i, (i < k)%nat -> nth i L 0 <= a) ->
  let r := argmax_from best a k l in (r < length L)%nat /\ forall i, (i < length L)%nat -> nth i L 0 <= nth r L 0.
Proof.
  induction l as [|b l IH]; intros best a k L Hb HL Ha Hn Hm; cbn [argmax_from].
  - cbn in HL. split; [lia|]. intros i Hi. rewrite Ha. apply Hm. lia.
  - cbn [length] in HL. assert (Eb : nth k L 0 = b) by (specialize (Hn 0%nat ltac:(cbn; lia)); rewrite Nat.add_0_r in Hn; auto).
    assert (Hn' : forall i, (i < length l)%nat -> nth (S k + i) L 0 = nth i l 0) by (intros i Hi; specialize (Hn (S i) ltac:(cbn; lia)); rewrite Nat.add_succ_r in Hn; auto).
    destruct Rlt_dec as [C|C]; apply IH; auto; try lia.
    + intros i Hi. destruct (Nat.eq_dec i k) as [->|]; [lra|]. specialize (Hm i ltac:(lia)). lra.
    + intros i Hi. destruct (Nat.eq_dec i k) as [->|]; [lra|]. apply Hm. lia.
Qed.
Lemma argmax_spec : forall l, l <> [] -> exists k, argmax l = Ok k /\ (k < length l)%nat /\ forall i, (i < length l)%nat -> nth i l 0 <= nth k l 0.
Proof.
  intros [|a l] H; [congruence|]. eexists. split; [reflexivity|]. apply argmax_from_spec; auto. intros i Hi. replace i with 0%nat by lia. cbn. lra.
Qed.
Lemma center_center : forall x, (1 <= length x)%nat -> center (center x) = center x.
Proof.
  intros x H. unfold M_affine.center at 1. assert (Z : vsum (center x) = 0).
  { rewrite (vsum_index (length x)) by apply center_len. rewrite (sum_over_ext _ _ (fun i => nth i x 0 - vsum x / INR (length x))) by (intros; apply nth_center; lia). rewrite sum_over_minus, <- vsum_index by auto.
    assert (C : forall n c, sum_over n (fun _ => c) = INR n * c). { induction n as [|n IHn]; intros c; [unfold sum_over; cbn; ring|]. rewrite sum_over_S, IHn, S_INR. ring. } rewrite C. field. apply not_0_INR. lia. }
  rewrite Z. transitivity (map (fun a => a) (center x)); [apply map_ext; intros a; unfold Rdiv; ring|apply map_id].
Qed.
Lemma std_deviation : forall z, np_std z = deviation z.
Proof. intros z. unfold np_std, deviation, average, M_affine.center. rewrite map_map. rewrite map_length. reflexivity. Qed.
Lemma smuce_ok : forall M z sg, ms_ok M -> ms_ok (fst (smuce M z sg)).
Proof. intros M z sg [Hp Hs Hz Ho Hc Ha]. split; auto. cbn. rewrite map_length, Hz. apply map_length. Qed.
Lemma size_range : forall p ij, slice_ok p ij -> 0 < IZR (snd ij - fst ij) <= INR p.
Proof. intros p ij [A B]. rewrite INR_IZR_INZ. split; [apply IZR_lt; lia|apply IZR_le; lia]. Qed.
(** SMUCE_stat: the largest statistic, and an interval where it is attained. *)
Theorem smuce_value : forall M z, ms_ok M -> ms_slices M <> [] -> length z = ms_p M -> deviation z <> 0 ->
  exists t s, snd (smuce M z None) = Ok (t, s) /\ In s (ms_slices M) /\ t = interval_stat z s /\ forall s', In s' (ms_slices M) -> interval_stat z s' <= t.
Proof.
  intros M z H N L D. pose proof (smuce_ok M z None H) as H1. destruct H as [Hp Hs Hz Ho Hc Ha]. unfold smuce. cbn [snd]. rewrite linear_doc by (auto; rewrite center_len; auto). cbn [rbind ms_slices ms_scaling]. rewrite std_deviation. destruct Req_EM_T as [E|_]; [contradiction|].
  assert (Hb : existsb (fun s => if Rlt_dec (INR (length z)) s then true else false) (ms_sizes M) = false).
  { rewrite Hz. unfold sizes_of. clear -Hs L. induction (ms_slices M) as [|ij sl IH]; auto. inversion Hs as [|? ? A B]; subst. cbn [map existsb]. rewrite IH by auto. destruct Rlt_dec as [C|C]; auto. exfalso. apply size_range in A. rewrite minus_IZR in A. rewrite L in C. lra. }
  rewrite Hb. set (T := vzip Rminus _ _).
  assert (ET : T = map (interval_stat z) (ms_slices M)).
  { assert (Ls : length (map (fun s => sqrt (2 * ln (INR (length z) / s))) (ms_sizes M)) = length (ms_slices M)) by (rewrite map_length, Hz; apply map_length).
    assert (Lv : length (map (fun a => Rabs (a / deviation z)) (doc_multi (ms_slices M) (FVec (map sqrt (ms_sizes M))) (center z))) = length (ms_slices M)) by (rewrite map_length; apply doc_length).
    apply (nth_ext _ _ 0 0); [unfold T; rewrite vzip_length by (etransitivity; [exact Lv|symmetry; exact Ls]); rewrite !map_length; apply doc_length|]. intros k Hk. unfold T in Hk. rewrite vzip_length in Hk by (etransitivity; [exact Lv|symmetry; exact Ls]). unfold vec in *. rewrite Lv in Hk.
    unfold T. rewrite (nth_zip0 _ _ _ (length (ms_slices M))) by (auto; exact Ls). rewrite (nth_map_any (interval_stat z) _ k (0, 0)%Z) by auto.
    rewrite (nth_map_any _ (doc_multi (ms_slices M) (FVec (map sqrt (ms_sizes M))) (center z)) k 0) by (rewrite doc_length; auto). rewrite (nth_map_any _ (ms_sizes M) k 0) by (rewrite Hz; unfold sizes_of; rewrite map_length; auto).
    unfold doc_multi. rewrite (nth_map_seq (fun k => let (i, j) := nth k (ms_slices M) (0, 0)%Z in factor (FVec (map sqrt (ms_sizes M))) k * interval_mean (map (fun a => a - average (center z)) (center z)) (Z.to_nat i) (Z.to_nat j))) by auto.
    rewrite center_map, center_center by lia. cbn [factor]. rewrite (nth_map_any sqrt (ms_sizes M) k 0) by (rewrite Hz; unfold sizes_of; rewrite map_length; auto).
    rewrite Hz. unfold sizes_of. rewrite !(nth_map_any (fun ij : Z * Z => IZR (snd ij) - IZR (fst ij) * 1) (ms_slices M) k (0, 0)%Z) by auto. unfold interval_stat. destruct (nth k (ms_slices M) (0, 0)%Z) as [i j]. cbn [fst snd]. rewrite center_map, minus_IZR, Rmult_1_r. auto. }
  destruct (argmax_spec T) as (k & Ek & Lk & Mk); [rewrite ET; destruct (ms_slices M); [congruence|discriminate]|]. rewrite Ek. cbn [rbind]. exists (nth k T 0), (nth k (ms_slices M) (0, 0)%Z). rewrite ET in *. rewrite map_length in *. split; auto. split; [apply nth_In; auto|].
  rewrite (nth_map_any (interval_stat z) _ k (0, 0)%Z) by auto. split; auto. intros s' Hs'. apply (In_nth _ _ (0, 0)%Z) in Hs'. destruct Hs' as (i & Hi & <-). specialize (Mk i Hi). rewrite !(nth_map_any (interval_stat z) _ _ (0, 0)%Z) in Mk by auto. auto.
Qed.
(** SMUCE_stat leaves its own scaling behind; a given sigma is an error. *)
Theorem smuce_leaves : forall M z sg x, ms_ok M -> length x = ms_p M -> ms_linear (fst (smuce M z sg)) x = Ok (doc_multi (ms_slices M) (FVec (map sqrt (ms_sizes M))) x).
Proof. intros M z sg x H L. rewrite linear_doc; auto. apply smuce_ok. auto. Qed.
Theorem smuce_sigma : forall M z s, snd (smuce M z (Some s)) = Err NameError. Proof. reflexivity. Qed.
Theorem smuce_changes : exists M z x, ms_ok M /\ snd (smuce M z None) <> Err NaNResult /\ ms_linear (fst (smuce M z None)) x <> ms_linear M x.
Proof.
  exists (ms_new 3 None [(0, 2)%Z] FNone), [1; 1; 0], [1; 1; 0].
  assert (K : ms_ok (ms_new 3 None [(0, 2)%Z] FNone)). { apply new_ok; [lia|exact I|repeat constructor; cbn; lia|exact I]. }
  assert (Av : average [1; 1; 0] = 2 / 3) by (unfold average, vsum; cbn; field).
  assert (Dv : deviation [1; 1; 0] <> 0). { unfold deviation. rewrite Av. apply Rgt_not_eq. apply sqrt_lt_R0. unfold average, vsum. cbn. lra. }
  split; auto. split.
  - destruct (smuce_value _ [1; 1; 0] K) as (t & s & E & _); [discriminate|reflexivity|auto|]. rewrite E. discriminate.
  - rewrite smuce_leaves, linear_doc by auto. intros E. apply (f_equal (fun r => match r with Ok v => nth 0 v 0 | Err _ => 0 end)) in E. cbn [ms_new ms_slices ms_scaling ms_sizes] in E.
    assert (F : forall sc, nth 0 (doc_multi [(0, 2)%Z] sc [1; 1; 0]) 0 = factor sc 0 * (1 / 3)). { intros sc. unfold doc_multi. cbn [length seq map nth]. f_equal. rewrite Av. unfold interval_mean. change (Z.to_nat 2 - Z.to_nat 0)%nat with 2%nat. change (Z.to_nat 0) with 0%nat. cbn [seq map nth]. unfold vsum. cbn. field. }
    rewrite !F in E. cbn [factor sizes_of map nth fst snd] in E. assert (S2 : sqrt (2 - 0 * 1) = 1) by lra. pose proof (sqrt_sqrt (2 - 0 * 1) ltac:(lra)) as Q. rewrite S2 in Q. lra.
Qed.
(** update_slices with an empty list fails, and afterwards linear_map answers zeros. *)
Theorem multi_update_fails : forall M sc x, ms_ok M -> ms_all M = false -> x <> [] ->
  snd (ms_update M false [] sc) = Err IndexError /\ ms_linear (fst (ms_update M false [] sc)) x = Ok (zeros (length (ms_slices M))).
Proof.
  intros M sc x [Hp Hs Hz Ho Hc Ha] EA Nx. split; [reflexivity|]. unfold ms_linear. destruct x as [|x0 x]; [congruence|]. cbn [ms_update fst ms_all ms_slices ms_scaling ms_out]. rewrite EA. cbn [negb rmapM rmap rbind length app]. rewrite Nat.sub_0_r, Ho.
  rewrite rescale_ok by (rewrite zeros_length; auto). f_equal. rewrite zeros_length. apply (nth_ext _ _ 0 0); [rewrite map_length, seq_length, zeros_length; auto|]. intros k Hk. rewrite map_length, seq_length in Hk.
  rewrite (nth_map_seq (fun k => factor (ms_scaling M) k * nth k (zeros (length (ms_slices M))) 0)) by auto. unfold zeros. rewrite nth_repeat. ring.
Qed.
(** Every instance that proper uses lead to is in order. *)
Theorem multi_reachable : forall p minsize slices sc ops, (1 <= p)%nat -> size_ok minsize -> Forall (slice_ok p) slices -> scaling_fits sc (length (ms_slices (ms_new p minsize slices sc))) -> Forall (mop_ok p) ops ->
  let M0 := ms_new p minsize slices sc in let M := mrun M0 ops in ms_ok M /\ ms_p M = p /\ ms_slices M = fst (fold_left masked ops (ms_slices M0, sc)).
Proof.
  intros p minsize slices sc ops Hp Hm Hs Hc Ho M0 M. assert (K : ms_ok M0) by (apply new_ok; auto). assert (Ep : ms_p M0 = p) by (unfold M0, ms_new; destruct slices; auto). assert (Es : ms_scaling M0 = sc) by (unfold M0, ms_new; destruct slices; auto).
  destruct (run_ok ops M0 K ltac:(rewrite Ep; auto)) as (A & B & C). fold M in A, B, C. split; auto. split; [congruence|]. rewrite Es in C. rewrite <- C. auto.
Qed.

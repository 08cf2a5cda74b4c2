(** Proofs about huberized_svm: the constructor, the error of the smoothing, what is ignored. *)
From Coq Require Import Reals List Arith Lia Lra Bool Psatz.
From Verif Require Import Vec Spec M_quad M_affine SpecAffine M_loss M_smooth M_afatom M_problem M_sconj SpecConvex SpecSconj SpecLoss M_hsvm SpecHsvm P_cox3 P_hsvm P_hsvm2.
Import ListNotations.
Local Open Scope R_scope.

Lemma two_nodup : forall labels, two_labels labels -> (length (nodup Req_EM_T labels) <= 2)%nat.
Proof.
  intros labels (a & b & H). change 2%nat with (length [a; b]). apply NoDup_incl_length; [apply NoDup_nodup|]. intros l I. apply nodup_In in I. destruct (H l I) as [->| ->]; cbn; auto.
Qed.
Lemma three_nodup : forall labels, three_labels labels -> (2 < length (nodup Req_EM_T labels))%nat.
Proof.
  intros labels (a & b & c & Ia & Ib & Ic & N1 & N2 & N3). change (S (length [a; b]) <= length (nodup Req_EM_T labels))%nat. change (S (length [a; b])) with (length [a; b; c]). apply NoDup_incl_length.
  - repeat constructor; cbn; intuition.
  - intros l [<-|[<-|[<-|[]]]]; apply nodup_In; auto.
Qed.
Theorem hsvm_spec : forall X p labels s c off q, X <> [] -> Forall (fun r => length r = p) X -> length labels = length X -> two_labels labels -> 0 < s -> 0 <= c ->
  exists M, new_hsvm X p labels s c off q = Ok M /\ evaluates_affine p (hsvm_eval M) (smoothed_loss s X labels) (fun b => map (smoothed_grad s X labels b) (seq 0 p)) /\
    (forall b, hsvm_eval M b EvOther = Ok None) /\ hs_shape M = p /\ hs_quadratic M = (match q with Some q => q | None => no_quad end).
Proof.
  intros X p labels s c off q NX HX LL H2 Hs Hc. assert (NL : labels <> []) by (intros ->; destruct X; [tauto|discriminate]). destruct (np_max_spec labels NL) as (top & Et & It & Ht).
  destruct (smoothed_object X p labels s NX HX LL Hs top It Ht) as (A & C & E1 & E2 & E3 & _). unfold new_hsvm. destruct (Rlt_dec c 0); [lra|]. assert (N2 := two_nodup labels H2). destruct (Nat.ltb_spec 2 (length (nodup Req_EM_T labels))); [lia|].
  rewrite Et. cbn [rbind]. rewrite LL, Nat.eqb_refl. cbn [negb]. rewrite E1. cbn [rbind]. rewrite E2. cbn [rmap]. eexists. split; [reflexivity|]. split; [exact E3|]. split; auto.
Qed.
Theorem hsvm_smooth : forall X p labels s, X <> [] -> Forall (fun r => length r = p) X -> length labels = length X -> 0 < s ->
  convex_on p (smoothed_loss s X labels) /\ gradient_of p (smoothed_loss s X labels) (fun b => map (smoothed_grad s X labels b) (seq 0 p)) /\
  forall Lo, 0 <= Lo -> opnorm_bound (matrix X p None) Lo -> lipschitz_map p (fun b => map (smoothed_grad s X labels b) (seq 0 p)) (Lo / s).
Proof.
  intros X p labels s NX HX LL Hs. assert (NL : labels <> []) by (intros ->; destruct X; [tauto|discriminate]). destruct (np_max_spec labels NL) as (top & Et & It & Ht).
  destruct (smoothed_object X p labels s NX HX LL Hs top It Ht) as (A & C & _ & _ & _ & E3 & E4 & E5). split; auto. split; auto. intros Lo HLo HO. replace (Lo / s) with (Lo * (1 / s)) by (field; lra). auto.
Qed.
Theorem hsvm_sandwich : forall X labels s b, 0 < s -> hinge_loss X labels b - INR (length X) * s / 2 <= smoothed_loss s X labels b <= hinge_loss X labels b.
Proof.
  intros X labels s b Hs. assert (H : forall m, Rmax (1 - m) 0 - s / 2 <= smooth_hinge s m <= Rmax (1 - m) 0).
  { intros m. unfold smooth_hinge. destruct (Rle_dec 1 m); [rewrite Rmax_right by lra; lra|]. rewrite Rmax_left by lra. destruct (Rle_dec m (1 - s)); [lra|].
    set (t := 1 - m). assert (0 < t < s) by (unfold t; lra). assert (E : t * t / (2 * s) - t + s / 2 = (t - s) * (t - s) / (2 * s)) by (field; lra). assert (0 <= (t - s) * (t - s) / (2 * s)) by (apply Rmult_le_pos; [nra|apply Rlt_le, Rinv_0_lt_compat; lra]).
    assert (t * t / (2 * s) <= t). { apply Rmult_le_reg_r with (2 * s); [lra|]. unfold Rdiv. rewrite Rmult_assoc, Rinv_l by lra. nra. } lra. }
  unfold hinge_loss, smoothed_loss. split.
  - replace (sum_over (length X) (fun i => Rmax (1 - margin X labels b i) 0) - INR (length X) * s / 2) with (sum_over (length X) (fun i => Rmax (1 - margin X labels b i) 0 - s / 2)); [apply sum_over_le; intros i _; apply H|].
    unfold sum_over. generalize (length X). intros n. rewrite <- (seq_length n 0) at 3. induction (seq 0 n) as [|i l IH]; [cbn; lra|]. cbn [map length]. rewrite !vsum_cons, IH, S_INR. lra.
  - apply sum_over_le. intros i _. apply H.
Qed.
Theorem hsvm_errors : forall X p labels s c off q, (c < 0 \/ three_labels labels \/ labels = []) -> new_hsvm X p labels s c off q = Err ValueError.
Proof.
  intros X p labels s c off q H. unfold new_hsvm. destruct (Rlt_dec c 0); auto. destruct H as [H|[H|H]]; [tauto| |].
  - assert (N := three_nodup labels H). destruct (Nat.ltb_spec 2 (length (nodup Req_EM_T labels))); [auto|lia].
  - subst. reflexivity.
Qed.
Theorem hsvm_no_smoothing : forall X p labels c off q, X <> [] -> Forall (fun r => length r = p) X -> length labels = length X -> two_labels labels -> new_hsvm X p labels 0 c off q = Err ValueError.
Proof.
  intros X p labels c off q NX HX LL H2. unfold new_hsvm. destruct (Rlt_dec c 0); auto. assert (N2 := two_nodup labels H2). destruct (Nat.ltb_spec 2 (length (nodup Req_EM_T labels))); [lia|].
  assert (NL : labels <> []) by (intros ->; destruct X; [tauto|discriminate]). destruct (np_max_spec labels NL) as (top & Et & It & Ht). rewrite Et. cbn [rbind]. rewrite LL, Nat.eqb_refl. cbn [negb].
  set (Y := force_labels top labels). set (D := signed_rows Y X). assert (LY : length Y = length X) by (unfold Y, force_labels; rewrite map_length; auto). assert (LD : length D = length X) by (apply signed_length; auto).
  assert (HD : Forall (fun r => length r = p) D) by (apply signed_rows_fit; auto). assert (LA : length (const_vec (length Y) 1) = length D) by (rewrite const_vec_length; rewrite LY; symmetry; exact LD).
  destruct (P_afatom.cls_affine_spec CPosPart D p (const_vec (length Y) 1) (Lagrange 1) no_quad ltac:(cbn; lra) HD LA ltac:(split; exact Logic.I)) as (A & EA & _ & EM & W & M & K & O & Q).
  match goal with |- context[rbind ?Z _] => replace Z with (Ok A) by (symmetry; exact EA) end. cbn [rbind]. unfold aa_smoothed, aa_dual. rewrite (P_conj.copy_correct (length D) (aa_atom A) (Lagrange 1) W ltac:(cbn; lra) M). cbn [rbind].
  assert (Sh : M_semi.shape (aa_atom A) = length D) by apply W. replace (M_semi.mk_atom (M_semi.klass (aa_atom A)) (t_out (aa_map A)) (M_semi.a_lagrange (aa_atom A)) (M_semi.a_bound (aa_atom A)) (M_semi.a_offset (aa_atom A)) (M_semi.a_quadratic (aa_atom A))) with (aa_atom A)
    by (rewrite EM; cbn [t_out matrix]; rewrite <- Sh; destruct (aa_atom A); reflexivity).
  destruct (P_conj.conj_form (length D) (aa_atom A) (Lagrange 1) W ltac:(cbn; lra) M ltac:(rewrite Q; reflexivity)) as (d & Ed & Ek & Emd & Wd & _ & _ & Ecd & _). rewrite Ed. cbn [rbind snd fst].
  assert (Cd := P_sconj.conj_center _ d (length D) Ed). destruct (P_problem.add_quad (length D) (mk_iq 0 (FScal 0) (FScal 0) 0) (M_semi.a_quadratic d)) as (t & Et2 & St & Ct & Kt & _); auto; try (split; exact Logic.I); try apply Wd. { exact Logic.I || (left; reflexivity) || (cbn; auto). }
  rewrite Et2. cbn [rbind]. destruct (Req_EM_T (coef t) 0); [reflexivity|]. exfalso. cbn in Kt. lra.
Qed.
Lemma hsvm_one_label : forall labels a i, (forall l, In l labels -> l = a) -> (i < length labels)%nat -> sign_of labels i = 1.
Proof.
  intros labels a i H Hi. unfold sign_of. replace (forallb _ labels) with true; auto. symmetry. apply forallb_forall. intros l I. rewrite (H l I), (H _ (nth_In labels 0 Hi)). destruct (Rle_dec a a); auto. lra.
Qed.
Lemma small_value : forall b, smoothed_loss 1 [[1]; [1]] [0; 1] [b] = smooth_hinge 1 (- b) + smooth_hinge 1 b.
Proof.
  intros b. unfold smoothed_loss, margin, sign_of, sum_over, vsum, dot. cbn. destruct (Rle_dec 0 0); [|lra]. destruct (Rle_dec 1 0); [lra|]. destruct (Rle_dec 0 1); [|lra]. destruct (Rle_dec 1 1); [|lra]. cbn. rewrite ?Rplus_0_r, ?Rmult_1_l. f_equal; f_equal; ring.
Qed.
Lemma small_two : two_labels [0; 1].
Proof. exists 0, 1. intros l [<-|[<-|[]]]; auto. Qed.
Theorem hsvm_ignores : exists X p labels s M1 M2 b v1 v2, new_hsvm X p labels s 3 None None = Ok M1 /\ hsvm_eval M1 b EvFunc = Ok (Some (VFunc v1)) /\ v1 <> 3 * smoothed_loss s X labels b /\
  new_hsvm X p labels s 1 (Some [1]) None = Ok M2 /\ hsvm_eval M2 b EvFunc = Ok (Some (VFunc v2)) /\ v2 <> smoothed_loss s X labels (vsub b [1]).
Proof.
  assert (HX : Forall (fun r : vec => length r = 1%nat) [[1]; [1]]) by (repeat constructor).
  destruct (hsvm_spec [[1]; [1]] 1 [0; 1] 1 3 None None ltac:(discriminate) HX eq_refl small_two ltac:(lra) ltac:(lra)) as (M1 & E1 & V1 & _).
  destruct (hsvm_spec [[1]; [1]] 1 [0; 1] 1 1 (Some [1]) None ltac:(discriminate) HX eq_refl small_two ltac:(lra) ltac:(lra)) as (M2 & E2 & V2 & _).
  destruct (V1 [0] eq_refl) as (F1 & _). destruct (V2 [0] eq_refl) as (F2 & _). exists [[1]; [1]], 1%nat, [0; 1], 1, M1, M2, [0], (smoothed_loss 1 [[1]; [1]] [0; 1] [0]), (smoothed_loss 1 [[1]; [1]] [0; 1] [0]).
  assert (A : smoothed_loss 1 [[1]; [1]] [0; 1] [0] = 1). { rewrite small_value. unfold smooth_hinge. destruct (Rle_dec 1 (-0)); [lra|]. destruct (Rle_dec (-0) (1 - 1)); [|lra]. destruct (Rle_dec 1 0); [lra|]. destruct (Rle_dec 0 (1 - 1)); [|lra]. lra. }
  assert (B : smoothed_loss 1 [[1]; [1]] [0; 1] (vsub [0] [1]) = 3 / 2). { cbn [vsub vzip]. change (vsub [0] [1]) with [0 - 1]. rewrite small_value. unfold smooth_hinge. destruct (Rle_dec 1 (- (0 - 1))); [|lra]. destruct (Rle_dec 1 (0 - 1)); [lra|]. destruct (Rle_dec (0 - 1) (1 - 1)); lra. }
  rewrite B, A in *. split; auto. split; auto. split; [lra|]. split; auto. split; auto. lra.
Qed.

(** Proofs about huberized_svm: the object. *)
From Coq Require Import Reals List Arith Lia Lra Bool Psatz.
From Verif Require Import Vec Spec M_quad M_prox M_semi SpecAtom M_affine SpecAffine P_affine M_loss M_smooth M_afatom P_afatom M_shift M_cones M_problem M_sconj SpecProblem SpecConvex SpecSconj SpecLoss P_sconj M_hsvm SpecHsvm P_cox3 SpecLinear P_linear P_hsvm P_quad.
Import ListNotations.
Local Open Scope R_scope.

Lemma fold_max : forall l a, (forall b, In b (a :: l) -> b <= fold_left Rmax l a) /\ In (fold_left Rmax l a) (a :: l).
Proof.
  induction l as [|c l IH]; intros a; cbn [fold_left].
  - split; [intros b [->|[]]; lra|left; auto].
  - destruct (IH (Rmax a c)) as [H I]. split.
    + intros b [->|[->|J]]; [apply Rle_trans with (Rmax b c); [apply Rmax_l|apply H; left; auto]|apply Rle_trans with (Rmax a b); [apply Rmax_r|apply H; left; auto]|apply H; right; auto].
    + destruct I as [E|I]; [|right; right; auto]. rewrite <- E. unfold Rmax. destruct (Rle_dec a c); [right; left; auto|left; auto].
Qed.
Lemma np_max_spec : forall l, l <> [] -> exists top, np_max l = Ok top /\ In top l /\ forall b, In b l -> b <= top.
Proof. intros [|a l] N; [tauto|]. destruct (fold_max l a). eexists. split; [reflexivity|]. auto. Qed.
Lemma sign_force : forall labels top i, In top labels -> (forall b, In b labels -> b <= top) -> (i < length labels)%nat -> nth i (force_labels top labels) 0 = sign_of labels i.
Proof.
  intros labels top i I H Hi. unfold force_labels. rewrite (nth_indep _ 0 ((fun l => 2 * (if Req_EM_T l top then 1 else 0) - 1) 0)) by (rewrite map_length; auto). rewrite (map_nth (fun l => 2 * (if Req_EM_T l top then 1 else 0) - 1)).
  unfold sign_of. destruct (forallb _ labels) eqn:E.
  - rewrite forallb_forall in E. assert (T := E top I). destruct (Rle_dec top (nth i labels 0)); [|discriminate]. assert (B := H _ (nth_In labels 0 Hi)). destruct (Req_EM_T _ _); lra.
  - destruct (Req_EM_T (nth i labels 0) top) as [Z|Z]; [|lra]. exfalso. assert (T : forallb (fun l => if Rle_dec l (nth i labels 0) then true else false) labels = true); [|congruence].
    apply forallb_forall. intros b J. destruct (Rle_dec b (nth i labels 0)); auto. exfalso. apply n. rewrite Z. auto.
Qed.
Lemma sign_values : forall labels i, sign_of labels i = 1 \/ sign_of labels i = -1.
Proof. intros. unfold sign_of. destruct (forallb _ _); auto. Qed.

Section Rows.
Variables (p : nat) (X : list vec) (Y : vec).
Hypotheses (HX : Forall (fun r => length r = p) X) (LY : length Y = length X).
Lemma signed_length : length (signed_rows Y X) = length X.
Proof. unfold signed_rows. rewrite map_length, combine_length. lia. Qed.
Lemma signed_row : forall i, (i < length X)%nat -> nth i (signed_rows Y X) [] = vscal (- nth i Y 0) (nth i X []).
Proof.
  intros i Hi. unfold signed_rows. rewrite (nth_indep _ [] ((fun q => vscal (- fst q) (snd q)) (0, []))) by (rewrite map_length, combine_length; lia). rewrite (map_nth (fun q => vscal (- fst q) (snd q))). rewrite combine_nth by auto. reflexivity.
Qed.
Lemma signed_rows_fit : Forall (fun r => length r = p) (signed_rows Y X).
Proof.
  apply Forall_forall. intros r I. apply (In_nth _ _ []) in I. destruct I as (i & Hi & <-). assert (Hi2 : (i < length X)%nat) by (eapply Nat.lt_le_trans; [exact Hi|rewrite <- signed_length; apply Nat.le_refl]). rewrite signed_row by auto. unfold vscal. rewrite map_length. rewrite Forall_forall in HX. apply HX, nth_In; auto.
Qed.
Lemma signed_map : forall b i, (i < length X)%nat -> nth i (mat_vec (signed_rows Y X) b) 0 = - (nth i Y 0 * dot (nth i X []) b).
Proof.
  intros b i Hi. rewrite nth_mat_vec by (rewrite signed_length; auto). unfold row. rewrite signed_row by auto. rewrite dot_scal_l. ring.
Qed.
End Rows.
Lemma vsum_nth : forall l : vec, vsum l = sum_over (length l) (fun i => nth i l 0).
Proof. intros l. unfold sum_over. f_equal. apply (nth_ext _ _ 0 0); [rewrite map_length, seq_length; auto|]. intros i Hi. rewrite nth_seq_map by auto. auto. Qed.
Lemma sum_over_eq : forall n F G, (forall i, (i < n)%nat -> F i = G i) -> sum_over n F = sum_over n G.
Proof. intros n F G H. unfold sum_over. f_equal. apply map_ext_in. intros i I. apply in_seq in I. apply H. lia. Qed.
Lemma sum_over_le : forall n F G, (forall i, (i < n)%nat -> F i <= G i) -> sum_over n F <= sum_over n G.
Proof.
  intros n F G H. unfold sum_over. assert (K : forall i, In i (seq 0 n) -> F i <= G i) by (intros i I; apply in_seq in I; apply H; lia). induction (seq 0 n) as [|a l IH]; [cbn; lra|]. cbn [map]. rewrite !vsum_cons. assert (F a <= G a) by (apply K; left; auto). assert (vsum (map F l) <= vsum (map G l)) by (apply IH; intros; apply K; right; auto). lra.
Qed.

Lemma sqn_nth : forall (v : vec) n, length v = n -> sqn v = sum_over n (fun i => nth i v 0 * nth i v 0).
Proof. intros v n L. unfold sqn, dot, vmul. rewrite vsum_nth. rewrite vzip_length by auto. rewrite L, ?Nat.min_id. apply sum_over_eq. intros i Hi. rewrite (P_sep.nth_zip0 _ _ _ n) by auto. auto. Qed.

Section Object.
Variables (X : list vec) (p : nat) (labels : vec) (s : R).
Hypotheses (NX : X <> []) (HX : Forall (fun r => length r = p) X) (LL : length labels = length X) (Hs : 0 < s).
Variable top : R.
Hypotheses (It : In top labels) (Ht : forall b, In b labels -> b <= top).
Let Y := force_labels top labels.
Let D := signed_rows Y X.
Let LY : length Y = length X.
Proof. unfold Y, force_labels. rewrite map_length. auto. Qed.
Let LD : length D = length X.
Proof. apply signed_length; auto. Qed.
Let HD : Forall (fun r => length r = p) D.
Proof. apply signed_rows_fit; auto. Qed.
Let LDn : length (A := list R) D = length X.
Proof. exact LD. Qed.
Let nthD : forall b i, (i < length X)%nat -> nth i (mat_vec D b) 0 = - margin X labels b i.
Proof. intros b i Hi. unfold D. rewrite signed_map by auto. unfold Y. rewrite sign_force by (auto; lia). unfold margin. ring. Qed.
Lemma envs_margin : forall b, envs s (mat_vec D b) = smoothed_loss s X labels b.
Proof.
  intros b. unfold envs, smoothed_loss. rewrite vsum_nth. rewrite map_length. unfold mat_vec at 1. rewrite map_length, LD. apply sum_over_eq. intros i Hi.
  rewrite (nth_indep _ 0 ((fun a => env s (a + 1)) 0)) by (unfold mat_vec; rewrite !map_length; lia). rewrite (map_nth (fun a => env s (a + 1))). rewrite nthD by auto. unfold env. f_equal. ring.
Qed.
Lemma grad_margin : forall b, mat_tvec p D (cl s (mat_vec D b)) = map (smoothed_grad s X labels b) (seq 0 p).
Proof.
  intros b. assert (Lc : length (cl s (mat_vec D b)) = length D) by (rewrite cl_length; apply map_length). apply (nth_ext _ _ 0 0); [rewrite mat_tvec_length, map_length, seq_length; auto|]. intros j Hj. rewrite mat_tvec_length in Hj by auto.
  rewrite nth_seq_map by auto. rewrite (nth_tvec p) by auto. unfold smoothed_grad. rewrite ?LDn, ?LD. apply sum_over_eq. intros i Hi. unfold row, D. rewrite signed_row by auto. fold D.
  unfold cl. rewrite (nth_indep _ 0 ((fun a => clip1 s (a + 1)) 0)) by (unfold mat_vec; rewrite !map_length; lia). rewrite (map_nth (fun a => clip1 s (a + 1))). rewrite nthD by auto. unfold Y. rewrite sign_force by (auto; lia).
  unfold vscal. rewrite (nth_indep _ 0 ((fun b0 => - sign_of labels i * b0) 0)) by (rewrite map_length; rewrite Forall_forall in HX; rewrite HX by (apply nth_In; auto); auto). rewrite (map_nth (fun b0 => - sign_of labels i * b0)).
  unfold slope_of, clip1. replace (- margin X labels b i + 1) with (1 - margin X labels b i) by ring. ring.
Qed.
Lemma signed_opnorm : forall Lo, opnorm_bound (matrix X p None) Lo -> opnorm_bound (matrix D p None) Lo.
Proof.
  intros Lo H b Lb. cbn [t_lin matrix t_in] in *. replace (sqn (mat_vec D b)) with (sqn (mat_vec X b)); [apply H; auto|].
  rewrite !(sqn_nth _ (length X)) by (unfold mat_vec; rewrite map_length; auto). apply sum_over_eq. intros i Hi.
  rewrite nthD by auto. rewrite nth_mat_vec by auto. unfold margin, row. destruct (sign_values labels i) as [-> | ->]; ring.
Qed.
Lemma frobenius : forall A, Forall (fun r => length r = p) A -> opnorm_bound (matrix A p None) (vsum (map sqn A)).
Proof.
  intros A HA b Lb. cbn [t_lin matrix t_in] in *. induction HA as [|r A Lr HA IH]; [unfold sqn, dot; cbn; lra|]. cbn [mat_vec map]. rewrite vsum_cons. unfold sqn at 1. rewrite dot_cons. fold (mat_vec A b). fold (sqn (mat_vec A b)).
  assert (C := cauchy_schwarz_sq r b ltac:(congruence)). lra.
Qed.
Lemma frob_nonneg : forall A : list vec, 0 <= vsum (map sqn A).
Proof. induction A as [|r A IH]; [cbn; lra|]. cbn [map]. rewrite vsum_cons. pose proof (sqn_nonneg r). lra. Qed.
Lemma smoothed_object : exists A C, M_afatom.cls_affine CPosPart D p (Some (const_vec (length Y) 1)) (Some 1) None None = Ok A /\ aa_smoothed A (mk_iq s (FScal 0) (FScal 0) 0) = Ok C /\
  evaluates_affine p (asc_eval C) (smoothed_loss s X labels) (fun b => map (smoothed_grad s X labels b) (seq 0 p)) /\ convex_on p (smoothed_loss s X labels) /\
  gradient_of p (smoothed_loss s X labels) (fun b => map (smoothed_grad s X labels b) (seq 0 p)) /\
  forall Lo, 0 <= Lo -> opnorm_bound (matrix X p None) Lo -> lipschitz_map p (fun b => map (smoothed_grad s X labels b) (seq 0 p)) (Lo * (1 / s)).
Proof.
  set (n := length D). assert (Hn : (1 <= n)%nat) by (unfold n; rewrite LD; destruct X; [tauto|cbn; lia]).
  assert (LA : length (const_vec (length Y) 1) = length D) by (rewrite const_vec_length; rewrite LY; symmetry; exact LD).
  destruct (cls_affine_spec CPosPart D p (const_vec (length Y) 1) (Lagrange 1) no_quad ltac:(cbn; lra) HD LA ltac:(split; exact Logic.I)) as (A & EA & _ & EM & W & M & K & O & Q). change (length D) with n in W. assert (O' : atom_off n (aa_atom A) = vopp (const_vec (length Y) 1)) by exact O. clear O.
  exists A. assert (GM := good_matrix D p None HD ltac:(discriminate)). assert (TA : true_adjoint (matrix D p None)) by apply GM.
  assert (Main : forall Lo, 0 <= Lo -> opnorm_bound (matrix D p None) Lo -> exists C G f g F Gr, aa_smoothed A (mk_iq s (FScal 0) (FScal 0) 0) = Ok C /\ (forall u, length u = n -> is_fenchel n (atom_doc n (aa_atom A) (Lagrange 1)) u (G u)) /\
    smooth_conjugate_of n (plus_quad n G (mk_iq s (FScal 0) (FScal 0) 0)) (1 / s) f g /\ evaluates_affine p (asc_eval C) F Gr /\ (forall x, length x = p -> F x = f (mat_vec D x)) /\ convex_on p F /\ gradient_of p F Gr /\ lipschitz_map p Gr (Lo * (1 / s))).
  { intros Lo HLo HO. destruct (aa_smoothed_spec A (Lagrange 1) (mk_iq s (FScal 0) (FScal 0) 0) Lo) as (C & G & f & g & F & Gr & H); rewrite ?EM, ?K, ?Q; auto; try (cbn; lra); try (cbn; auto; fail); try exact Logic.I; try (split; exact Logic.I).
    rewrite EM in H. change (t_out (matrix D p None)) with n in H. change (t_in (matrix D p None)) with p in H. destruct H as (H1 & H2 & _ & H3 & H4 & H5 & H6 & H7 & H8). exists C, G, f, g, F, Gr. auto 20. }
  assert (DOC : forall x, length x = n -> atom_doc n (aa_atom A) (Lagrange 1) x = Fin (sum_pos (vadd x (ones n)))).
  { intros x Lx. unfold atom_doc, doc_objective. rewrite K, O', Q. unfold mode_fun, doc_seminorm, ext_scale, quad_fun. cbn [coef M_quad.center linear_term constant_term no_quad fbcast ext_add].
    rewrite vsub_vopp by (rewrite const_vec_length; rewrite LY; rewrite Lx; unfold n; auto). replace (const_vec n 0) with (zeros n) by reflexivity. rewrite (dot_comm (zeros n)), dot_zeros_r. unfold ones. replace (length Y) with n by (unfold n; rewrite LY; auto). cbn [ext_add]. f_equal. unfold Rdiv. rewrite Rmult_0_l, Rmult_0_l, Rplus_0_l, !Rplus_0_r, Rmult_1_l. reflexivity. }
  assert (CF : forall Lo, 0 <= Lo -> opnorm_bound (matrix D p None) Lo -> exists C, aa_smoothed A (mk_iq s (FScal 0) (FScal 0) 0) = Ok C /\
    evaluates_affine p (asc_eval C) (smoothed_loss s X labels) (fun b => map (smoothed_grad s X labels b) (seq 0 p)) /\ convex_on p (smoothed_loss s X labels) /\
    gradient_of p (smoothed_loss s X labels) (fun b => map (smoothed_grad s X labels b) (seq 0 p)) /\ lipschitz_map p (fun b => map (smoothed_grad s X labels b) (seq 0 p)) (Lo * (1 / s))).
  { intros Lo HLo HO. destruct (Main Lo HLo HO) as (C & G & f & g & F & Gr & H1 & H2 & H3 & H4 & H5 & H6 & H7 & H8). exists C. split; auto.
    assert (FE : forall x, length x = p -> F x = smoothed_loss s X labels x). { intros x Lx. rewrite H5 by auto. rewrite (proj1 (closed_form n s (1 / s) _ G f g Hs DOC H2 H3 (mat_vec D x) ltac:(unfold mat_vec; apply map_length))). apply envs_margin. }
    destruct (linear_pullback (matrix D p None) f g (1 / s) Lo TA ltac:(reflexivity) HLo HO) as (_ & P2 & _); [apply Rlt_le, Rdiv_lt_0_compat; lra|apply H3|apply H3|intros y Ly; apply (proj1 H3 y Ly)|apply H3|].
    change (t_in (matrix D p None)) with p in P2. cbn [t_aff matrix t_adj with_offset] in P2.
    assert (GE : forall x, length x = p -> Gr x = map (smoothed_grad s X labels x) (seq 0 p)).
    { intros x Lx. rewrite <- grad_margin. rewrite <- (proj2 (closed_form n s (1 / s) _ G f g Hs DOC H2 H3 (mat_vec D x) ltac:(unfold mat_vec; apply map_length))). apply (gradient_unique p F x); [apply H7; auto|]. destruct (P2 x Lx) as [Q1 Q2]. split; auto. intros d Ld. specialize (Q2 d Ld).
      eapply derivable_pt_lim_ext_eq; [|exact Q2]. intros t. cbn beta. symmetry. apply H5. vlen. }
    split; [|split; [|split]].
    - intros x Lx. rewrite <- FE, <- GE by auto. apply H4; auto.
    - intros x y t Lx Ly Ht'. rewrite <- !FE by (auto; unfold between; vlen). apply H6; auto.
    - intros x Lx. rewrite <- GE by auto. destruct (H7 x Lx) as [Q1 Q2]. split; auto. intros d Ld. eapply derivable_pt_lim_ext_eq; [|exact (Q2 d Ld)]. intros t. cbn beta. apply FE. vlen.
    - intros x y Lx Ly. rewrite <- !GE by auto. apply H8; auto. }
  destruct (CF _ (frob_nonneg D) (frobenius D HD)) as (C & E1 & E2 & E3 & E4 & _). exists C. split; [exact EA|]. split; auto. split; auto. split; auto. split; auto.
  intros Lo HLo HO. destruct (CF Lo HLo (signed_opnorm Lo HO)) as (C' & _ & _ & _ & _ & E5). exact E5.
Qed.
End Object.

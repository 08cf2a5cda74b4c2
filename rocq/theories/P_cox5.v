(** cox_loglike: witnesses. *)
From Coq Require Import Reals List Lra Lia Psatz Arith Bool Permutation.
From Verif Require Import M_affine P_affine P_affine2 M_buffer P_buffer Vec Spec M_quad M_loss SpecLoss SpecConvex P_quad P_calc P_sep P_loss P_loss4 P_loss5 P_cv P_path2 M_cox SpecCox SpecCoxObj P_cox P_cox2 P_cox3 P_cox4.
Import ListNotations.
Local Open Scope R_scope.

(** ** A stable sort is a sort *)
Fixpoint insert_by (T : vec) (i : nat) (l : list nat) : list nat :=
  match l with [] => [i] | j :: r => if Rle_dec (nth i T 0) (nth j T 0) then i :: l else j :: insert_by T i r end.
Definition insertion (T : vec) : list nat := fold_right (insert_by T) [] (seq 0 (length T)).
Fixpoint incr (T : vec) (l : list nat) : Prop := match l with [] => True | i :: r => Forall (fun j => nth i T 0 <= nth j T 0) r /\ incr T r end.
Lemma insert_perm : forall T i l, Permutation (insert_by T i l) (i :: l).
Proof. induction l as [|j r IH]; cbn; auto. destruct (Rle_dec _ _); auto. rewrite IH. constructor. Qed.
Lemma insert_incr : forall T i l, incr T l -> incr T (insert_by T i l).
Proof.
  induction l as [|j r IH]; cbn; auto. intros [F I]. destruct (Rle_dec _ _) as [L|L]; cbn.
  - split; [constructor; auto; rewrite Forall_forall in F |- *; intros k Ik; specialize (F k Ik); lra|auto].
  - split; [|auto]. rewrite (insert_perm T i r). constructor; auto; lra.
Qed.
Lemma incr_nth : forall T l a b, incr T l -> (a <= b < length l)%nat -> nth (nth a l 0%nat) T 0 <= nth (nth b l 0%nat) T 0.
Proof.
  induction l as [|i r IH]; intros a b I H; cbn in H; [lia|]. destruct I as [F I]. destruct a as [|a], b as [|b]; cbn; try lra; try lia.
  - rewrite Forall_forall in F. apply F, nth_In. lia.
  - apply IH; auto; lia.
Qed.
Lemma insertion_perm : forall T, Permutation (insertion T) (seq 0 (length T)).
Proof. intros T. unfold insertion. generalize (seq 0 (length T)) as l. induction l as [|i r IH]; cbn; auto. rewrite insert_perm. auto. Qed.
Theorem insertion_sorts : sorting insertion.
Proof.
  intros T. assert (P := insertion_perm T). split; auto. intros a b H. apply incr_nth; [|rewrite (Permutation_length P), seq_length; auto]. unfold insertion. generalize (seq 0 (length T)) as l.
  induction l as [|i r IH]; cbn; auto. apply insert_incr. auto.
Qed.
(** ** Two cases, at times 1 and 2, both observed *)
Definition T2 : vec := [1; 2].
Definition c2 : list nat := [1; 1]%nat.
Definition z2 : scratch := mk_scratch [0; 0] [0; 0] [0; 0] [0; 0] [0; 0].
Lemma z2_sized : sized 2 z2.
Proof. repeat split. Qed.
Lemma T2_covered : covered T2 [1; 1].
Proof. intros i Hi. exists 1%nat. cbn in Hi. destruct i as [|[|]]; cbn; repeat split; try lra; lia. Qed.
Ltac le_all := repeat match goal with |- context [Rle_dec ?a ?b] => destruct (Rle_dec a b); try lra end.
Lemma entry1 : forall a b, grad_entry T2 c2 [1; 1] [a; b] 1 = exp b / (exp a + exp b).
Proof.
  intros a b. assert (A := exp_pos a). assert (B := exp_pos b). unfold grad_entry, outer1, at_risk, sum_over. cbn. le_all. field. lra.
Qed.
Lemma entry_hess : hess_entry T2 c2 [1; 1] [0; 0] [1; 0] 0 = 1 / 4.
Proof. unfold hess_entry, outer1, outer2, riskZ, at_risk, sum_over. cbn. le_all. rewrite exp_0. field. Qed.
Section Two.
Variable argsort : vec -> list nat.
Hypothesis Arg : sorting argsort.
Definition two (c : R) : cox := mk_cox (cdata_of T2 c2 (argsort T2)) c None (mk_iq 0 (FScal 0) (FScal 0) 0) 0%nat 1%nat.
Lemma two_new : forall c, 0 <= c -> new_cox [] argsort T2 c2 c None None None = ([[1; 1]; [0; 0]], Ok (two c)).
Proof. intros c H. unfold new_cox. destruct (Rlt_dec c 0); [lra|]. reflexivity. Qed.
Lemma two_state : forall c, 0 <= c -> new_cox [] argsort T2 c2 c None None None = ([[1; 1]; [0; 0]], Ok (two c)) /\ length c2 = length T2 /\ length (cox_weights T2 None) = length T2 /\ off_fits (length T2) None /\ covered T2 (cox_weights T2 None).
Proof. intros c H. split; [apply two_new; auto|]. repeat split; auto. apply T2_covered. Qed.
Lemma N1 : nonneg [1; 1].
Proof. unfold nonneg. repeat constructor; lra. Qed.
Lemma doc_gradient : forall a b g, is_gradient 2 (cox_loss T2 c2 [1; 1]) [a; b] g -> nth 1 g 0 = exp b / (exp a + exp b).
Proof.
  intros a b g G. assert (G0 := entries_gradient T2 c2 [1; 1] eq_refl eq_refl N1 [a; b] T2_covered eq_refl). rewrite (gradient_unique _ _ _ _ _ G G0). rewrite nth_seq_map by (cbn; lia). apply entry1.
Qed.
Lemma one_doc : forall n f x g, is_gradient n (fun z => 1 * f (minus z None)) x g <-> is_gradient n f x g.
Proof. intros n f x g. split; intros [L D]; (split; [exact L|]; intros d Ld; eapply derive_ext; [|apply D; exact Ld]; intros t; cbn; ring). Qed.
Theorem alias_witness : exists T cens h k x y h1 h2 r, new_cox [] argsort T cens 1 None None None = (h, Ok k) /\ length x = length T /\ length y = length T /\
  cox_eval h k z2 None x EvGrad = (h1, Ok (KGrad r)) /\ is_gradient (length T) (cox_loss T cens (ones (length T))) x (read h1 r) /\
  fst (cox_eval h1 k z2 None y EvGrad) = h2 /\ ~ is_gradient (length T) (cox_loss T cens (ones (length T))) x (read h2 r).
Proof.
  assert (Z1 : 0 <= 1) by lra. destruct (two_state 1 Z1) as (New & Lc & Lw & Lo & Cov).
  destruct (eval_after [] argsort T2 c2 1 None None None _ (two 1) Arg New Lc Lw Lo Cov [] z2 [0; 0] (Forall_nil _) z2_sized eq_refl) as (_ & (h1 & r & E1 & G1) & _). cbn [calls fold_left] in E1.
  assert (F : Forall (fair (length T2) [k_cw (two 1); k_G (two 1)]) [CEval z2 None [0; 0] EvGrad]) by (constructor; [|constructor]; cbn; split; [apply z2_sized|split; [auto|discriminate]]).
  destruct (eval_after [] argsort T2 c2 1 None None None _ (two 1) Arg New Lc Lw Lo Cov _ z2 [1; 0] F z2_sized eq_refl) as (_ & (h2 & r2 & E2 & G2) & _).
  assert (Ec : calls (two 1) [[1; 1]; [0; 0]] [CEval z2 None [0; 0] EvGrad] = h1) by (unfold calls; cbn [fold_left do_call]; rewrite E1; auto). rewrite Ec in E2.
  apply (proj1 (one_doc (length T2) (cox_loss T2 c2 (ones (length T2))) _ _)) in G1. apply (proj1 (one_doc (length T2) (cox_loss T2 c2 (ones (length T2))) _ _)) in G2. change (ones (length T2)) with [1; 1] in *.
  exists T2, c2, [[1; 1]; [0; 0]], (two 1), [0; 0], [1; 0], h1, h2, r. change (ones (length T2)) with [1; 1]. split; [exact New|]. split; [reflexivity|]. split; [reflexivity|]. split; [exact E1|]. split; [exact G1|]. split; [rewrite E2; reflexivity|].
  assert (R1 := gradient_array _ (two 1) _ _ _ _ _ eq_refl E1). assert (R2 := gradient_array _ (two 1) _ _ _ _ _ eq_refl E2). change (length T2) with 2%nat in *.
  intros C. rewrite R1 in C. rewrite R2 in G2. apply doc_gradient in C. apply doc_gradient in G2. rewrite C in G2. rewrite exp_0 in G2.
  assert (P := exp_ineq1 1 ltac:(lra)). assert (K : 1 / (1 + 1) * (1 + exp 1) = 1 / (exp 1 + 1) * (1 + exp 1)) by congruence.
  replace (1 / (exp 1 + 1) * (1 + exp 1)) with 1 in K by (field; lra). lra.
Qed.
(** the Hessian of the documented function 2 * loss, against what hessian_mult returns *)
Theorem coef_witness : exists T cens h k x z h1 v, new_cox [] argsort T cens 2 None None None = (h, Ok k) /\ length x = length T /\ length z = length T /\
  cox_hess h k z2 None x z = (h1, Ok v) /\
  forall G H, gradient_of (length T) (fun y => 2 * cox_loss T cens (ones (length T)) y) G -> is_jacobian (length T) G x H -> v <> H z.
Proof.
  assert (Z1 : 0 <= 2) by lra. destruct (two_state 2 Z1) as (New & Lc & Lw & Lo & Cov).
  assert (Eh : cox_hessian (k_data (two 2)) z2 (zeros 2) [0; 0] [1; 0] [1; 1] = Ok (map (hess_entry T2 c2 [1; 1] [0; 0] [1; 0]) (seq 0 2))) by (apply (hessian_entries T2 c2 (argsort T2) [1; 1] (Arg T2)); auto; first [apply N1|apply T2_covered|apply z2_sized]).
  assert (Ew : vmul (ones 2) [1; 1] = [1; 1]) by (cbn; repeat (f_equal; try ring)).
  exists T2, c2, [[1; 1]; [0; 0]], (two 2), [0; 0], [1; 0]. eexists. eexists. split; auto. split; auto. split; auto. split.
  { unfold cox_hess, cox_weigh. cbn [length app k_cw two k_offset sub_offset read nth write]. unfold read. cbn [nth]. rewrite Ew. f_equal. exact Eh. }
  intros G H HG HJ C. change (ones (length T2)) with [1; 1] in HG. change (length T2) with 2%nat in *.
  assert (J : derivable_pt_lim (fun t => nth 0 (G (vadd [0; 0] (vscal t [1; 0]))) 0) 0 (nth 0 (H [1; 0]) 0)) by (apply HJ; auto; lia).
  assert (E : forall y, length y = 2%nat -> nth 0 (G y) 0 = 2 * grad_entry T2 c2 [1; 1] y 0).
  { intros y Ly. assert (G0 := entries_gradient T2 c2 [1; 1] eq_refl eq_refl N1 y T2_covered Ly). assert (G1 : is_gradient 2 (fun y => 2 * cox_loss T2 c2 [1; 1] y) y (vscal 2 (map (grad_entry T2 c2 [1; 1] y) (seq 0 2)))).
    { destruct G0 as [L0 D0]. split; [unfold vscal; rewrite map_length; auto|]. intros d Ld. rewrite dot_scal_l by congruence. apply (derivable_pt_lim_scal (fun t => cox_loss T2 c2 [1; 1] (vadd y (vscal t d)))). auto. }
    rewrite (gradient_unique _ _ _ _ _ (HG y Ly) G1). reflexivity. }
  assert (D := grad_entry_derive T2 c2 [1; 1] eq_refl eq_refl N1 [0; 0] [1; 0] 0%nat T2_covered eq_refl eq_refl ltac:(cbn; lia)). rewrite entry_hess in D.
  assert (D2 : derivable_pt_lim (fun t => nth 0 (G (vadd [0; 0] (vscal t [1; 0]))) 0) 0 (2 * (1 / 4))).
  { apply (derive_ext (fun t => 2 * grad_entry T2 c2 [1; 1] (vadd [0; 0] (vscal t [1; 0])) 0)); [intros t; rewrite E; auto|]. apply (derivable_pt_lim_scal (fun t => grad_entry T2 c2 [1; 1] (vadd [0; 0] (vscal t [1; 0])) 0)). auto. }
  assert (U := uniqueness_limite _ _ _ _ J D2). rewrite <- C in U. cbn [map seq nth] in U. rewrite entry_hess in U. lra.
Qed.
End Two.

(** Paths with an exact solver: how close the solutions are, how many tries are needed. *)
From Coq Require Import Reals List Lra Lia Arith Bool.
From Verif Require Import M_affine SpecAffine P_affine P_affine2 M_loss SpecLoss SpecSmooth P_smooth Vec Spec SpecConvex M_quad M_prox M_semi M_weighted P_quad P_calc P_sep P_feas M_problem M_cv SpecCv P_cv M_path SpecPath P_path P_path2 P_path3.
From Verif Require P_buffer P_separable.
Import ListNotations.
Local Open Scope R_scope.

Lemma scatter_gather : forall set (v x : vec), NoDup set -> Forall (fun i => (i < length x)%nat) set -> length x = length v -> (forall j, ~ In j set -> nth j x 0 = nth j v 0) -> M_affine.scatter set (gather set v) x = v.
Proof.
  induction set as [|i set IH]; intros v x N F L H; cbn [gather map M_affine.scatter].
  - apply (nth_ext _ _ 0 0); auto.
  - apply NoDup_cons_iff in N as (Ni & N). apply Forall_inv in F as Hi. apply Forall_inv_tail in F. fold (gather set v). apply IH; auto; [rewrite set_at_length; auto|rewrite set_at_length; auto|].
    intros j Nj. destruct (Nat.eq_dec j i) as [->|Ne]; [rewrite nth_set_at_same by auto; auto|]. rewrite nth_set_at_other by auto. apply H. intros [->|Hj]; [apply Ne; auto|contradiction].
Qed.
Section Path.
Variable P : lpath.
Hypothesis GP : good_path P.
Let p := lp_size P.
Let w := lp_weights P.
Lemma weight_nonneg : forall j, 0 <= nth j w 0.
Proof. intros j. destruct (gp_w _ GP) as (Lw & Nw). destruct (Nat.lt_ge_cases j (length w)) as [H|H]; [|rewrite nth_overflow by auto; lra]. unfold nonneg in Nw. rewrite Forall_forall in Nw. apply Nw, nth_In. exact H. Qed.
Lemma alpha_lam : forall lam, 0 < lam -> 0 < lp_alpha P * lam.
Proof. intros lam H. destruct (gp_alpha _ GP). apply Rmult_lt_0_compat; auto. Qed.
Lemma embed_gather : forall set v, index_set p set -> length v = p -> (forall j, ~ In j set -> nth j v 0 = 0) -> embed p set (gather set v) = v.
Proof.
  intros set v (N & F) Lv Z. assert (Lz : length (zeros p) = p) by (unfold zeros; apply repeat_length). unfold embed. apply scatter_gather; auto; [rewrite Lz; auto|congruence|]. intros j Nj. rewrite Z by auto. unfold zeros. apply nth_repeat.
Qed.
Definition grad_at (lam : R) (s : vec) : vec := path_gradient P s (t_lin (lp_X P) s) lam.
Definition stationary (lam : R) (s : vec) (j : nat) : Prop := forall c, 0 <= nth j (grad_at lam s) 0 * c + lp_alpha P * lam * (nth j w 0 * Rabs (nth j s 0 + c)) - lp_alpha P * lam * (nth j w 0 * Rabs (nth j s 0)).
Lemma exact_stationary : forall lam set b j, 0 < lam -> index_set p set -> solves P lam set b -> In j set -> stationary lam (embed p set b) j.
Proof.
  intros lam set b j Hl I (Lb & _ & M) Hj. assert (Hp : (j < p)%nat) by (destruct I as (_ & F); rewrite Forall_forall in F; auto). set (s := embed p set b) in *. assert (Ls : length s = p) by apply embed_length.
  unfold stationary. apply (coordinate_first p (smooth_part P lam) w (grad_at lam s) s (lp_alpha P * lam) j); auto; [apply (path_gradient_right P GP); auto|apply Rlt_le, alpha_lam; auto|apply weight_nonneg|].
  intros c. set (v := vadd s (vscal c (unit_vec p j))). assert (Lv : length v = p) by (unfold v, vadd; apply vzip_length2; auto; apply unit_scal_length).
  assert (E : embed p set (gather set v) = v). { apply embed_gather; auto. intros i Ni. destruct (Nat.lt_ge_cases i p) as [Hi|Hi]; [|apply nth_overflow; lia]. unfold v. assert (U := step_nth p s 1 c j i Ls Hi). replace (vscal 1 (vscal c (unit_vec p j))) with (vscal c (unit_vec p j)) in U. rewrite U. destruct (Nat.eqb_spec i j); [subst; contradiction|]. replace (nth i s 0) with 0 by (symmetry; apply (embed_outside P); auto). lra.
    unfold vscal. rewrite map_map. apply map_ext. intros; ring. }
  specialize (M (gather set v)). fold p in M. rewrite E in M. apply M. unfold gather. rewrite map_length. auto.
Qed.
(** entry i of (w, g, s) is entry j of the whole problem *)
Lemma stationary_entry : forall lam s j w' g' s' i, 0 < lam -> stationary lam s j -> nth i w' 0 = nth j w 0 -> nth i g' 0 = nth j (grad_at lam s) 0 -> nth i s' 0 = nth j s 0 ->
  active_fails w' g' s' (lp_alpha P * lam) kkt_tol i = false /\ inactive_term w' g' s' (lp_alpha P * lam) i <= 1 + kkt_tol.
Proof. intros lam s j w' g' s' i Hl St Ew Eg Es. apply stationary_passes; [apply alpha_lam; auto|apply kkt_tol_pos|rewrite Ew; apply weight_nonneg|]. intros c. rewrite Ew, Eg, Es. apply St. Qed.
Lemma failing_outside : forall chk lam set b w' g' s' i j, 0 < lam -> index_set p set -> solves P lam set b -> (i < length s')%nat -> nth i w' 0 = nth j w 0 -> nth i g' 0 = nth j (grad_at lam (embed p set b)) 0 -> nth i s' 0 = nth j (embed p set b) 0 ->
  nth i (failing chk w' g' s' (lp_alpha P * lam)) false = true -> ~ In j set.
Proof.
  intros chk lam set b w' g' s' i j Hl I So Hi Ew Eg Es F Hj. rewrite failing_nth in F by auto. destruct (stationary_entry lam (embed p set b) j w' g' s' i Hl (exact_stationary lam set b j Hl I So Hj) Ew Eg Es) as (A & B). rewrite A, andb_false_r in F. cbn in F. apply gtb_true in F. lra.
Qed.
(** ** the solution is nearly optimal *)
Theorem nearly_optimal : forall lam set b v, 0 < lam -> index_set p set -> solves P lam set b -> (forall j, (j < p)%nat -> ~ In j set -> 0 < nth j w 0) -> inactive_passes (checked P lam (embed p set b)) -> length v = p ->
  path_objective P lam (embed p set b) <= path_objective P lam v + kkt_tol * (lp_alpha P * lam * sum_over p (fun j => nth j w 0 * Rabs (nth j v 0))).
Proof.
  intros lam set b v Hl I So Pw C Lv. set (s := embed p set b) in *. assert (Ls : length s = p) by apply embed_length. assert (Al := alpha_lam lam Hl). set (al := lp_alpha P * lam) in *.
  assert (G := path_gradient_right P GP lam s Ls). fold (grad_at lam s) in G. assert (T := convex_tangent p (smooth_part P lam) s (grad_at lam s) v (smooth_convex P GP lam ltac:(lra)) G Ls Lv). destruct G as (Lg & _).
  assert (Lvs : length (vsub v s) = p) by (unfold vsub; apply vzip_length2; auto). fold p in Lg. rewrite (dot_index p) in T by auto. unfold path_objective, lasso_objective. fold p w. fold al.
  unfold checked in C. fold w al (grad_at lam s) in C. rewrite ranks_neg in C. rewrite Ls in C.
  assert (K : al * sum_over p (fun j => nth j w 0 * Rabs (nth j s 0)) <= al * sum_over p (fun j => nth j w 0 * Rabs (nth j v 0)) + sum_over p (fun i => nth i (grad_at lam s) 0 * nth i (vsub v s) 0) + kkt_tol * (al * sum_over p (fun j => nth j w 0 * Rabs (nth j v 0)))).
  { rewrite <- !sum_over_scal, <- !sum_over_plus. apply P_sep.sum_over_le. intros j Hj. unfold vsub. rewrite (nth_zip0 _ _ _ p) by auto. assert (W := weight_nonneg j). assert (Av := Rabs_pos (nth j v 0)). assert (0 <= kkt_tol) by apply kkt_tol_pos. assert (AW : 0 <= al * (nth j w 0 * Rabs (nth j v 0))) by (apply Rmult_le_pos; [lra|apply Rmult_le_pos; auto]).
    destruct (in_dec Nat.eq_dec j set) as [Hs|Ns].
    - assert (St := exact_stationary lam set b j Hl I So Hs (nth j v 0 - nth j s 0)). fold s in St. replace (nth j s 0 + (nth j v 0 - nth j s 0)) with (nth j v 0) in St by ring. fold al in St. assert (0 <= kkt_tol * (al * (nth j w 0 * Rabs (nth j v 0)))) by (apply Rmult_le_pos; auto). lra.
    - assert (Z : nth j s 0 = 0) by (apply embed_outside; auto). specialize (Pw j Hj Ns). specialize (C j Hj). unfold inactive_term in C. rewrite Z in *. replace (is0 0) with true in C by (symmetry; apply is0_true; auto). replace (gtb (nth j w 0) 0) with true in C by (symmetry; apply gtb_true; auto). cbn [andb] in C.
      apply abs_div_le in C; [|apply Rmult_lt_0_compat; auto]. rewrite Rabs_R0. assert (L := abs_lower (nth j (grad_at lam s) 0) (nth j v 0)). assert (Rabs (nth j (grad_at lam s) 0) * Rabs (nth j v 0) <= (1 + kkt_tol) * (al * nth j w 0) * Rabs (nth j v 0)) by (apply Rmult_le_compat_r; auto). lra. }
  lra.
Qed.

(** ** the number of tries *)
Definition next_set (st : pstate) : list nat := union p (s_set st) (picked (s_fail st)).
Definition mask_ok (st : pstate) : Prop := length (s_fail st) = p.
Lemma strong_grad_nth : forall strong sat sol lam i, length sat = t_out (lp_X P) -> Forall (fun j => (j < p)%nat) strong -> (i < length strong)%nat ->
  nth i (vadd (mat_vec (subsample_columns (lp_X P) strong) sat) (enet_grad P sol lam strong)) 0 = nth (nth i strong 0%nat) (vadd (t_adj (lp_X P) sat) (enet_grad P sol lam (seq 0 p))) 0.
Proof.
  intros strong sat sol lam i Ls F Hi. assert (Hj : (nth i strong 0%nat < p)%nat) by (rewrite Forall_forall in F; apply F, nth_In; auto). set (j := nth i strong 0%nat) in *. destruct (gp_X _ GP) as ((A & B & C) & _ & _).
  assert (L1 : length (mat_vec (subsample_columns (lp_X P) strong) sat) = length strong) by (unfold mat_vec, subsample_columns; rewrite !map_length; auto). assert (L2 : length (enet_grad P sol lam strong) = length strong) by (unfold enet_grad; rewrite map_length; auto).
  unfold vadd. rewrite (nth_zip0 _ _ _ (length strong)) by auto. assert (Lt : length (t_adj (lp_X P) sat) = p) by (apply B; auto). rewrite (nth_zip0 _ _ _ p) by (auto; unfold enet_grad; rewrite map_length, seq_length; auto). f_equal.
  - unfold mat_vec, subsample_columns. rewrite map_map. rewrite (nth_indep _ 0 ((fun x => dot (t_lin (lp_X P) (unit_vec (t_in (lp_X P)) x)) sat) 0%nat)) by (rewrite map_length; auto). rewrite (map_nth (fun x => dot (t_lin (lp_X P) (unit_vec (t_in (lp_X P)) x)) sat)). fold j. rewrite C by (auto; apply unit_vec_length). rewrite dot_comm. apply dot_unit. exact Lt. exact Hj.
  - unfold enet_grad. rewrite (nth_map_seq R (enet_entry P sol lam)) by auto. rewrite (nth_indep _ 0 (enet_entry P sol lam 0%nat)) by (rewrite map_length; auto). rewrite (map_nth (enet_entry P sol lam)). reflexivity.
Qed.
Lemma try_grows : forall S chk lcur lnew st ok sub linpred st1, right_size S -> exact_solver P S -> 0 < lnew -> state_ok P st -> mask_ok st -> try_once P S chk lcur lnew st = (ok, sub, linpred, st1) ->
  mask_ok st1 /\ (ok = false -> (length (s_set st1) < length (next_set st1))%nat).
Proof.
  intros S chk lcur lnew st ok sub linpred st1 RS XS Hl OK MO E. destruct (try_spec P GP S chk lcur lnew st ok sub linpred st1 RS OK E) as (OK1 & Es & Eb & Sol & Lin & _). fold p in Sol.
  assert (I1 : index_set p (s_set st1)) by apply OK1. assert (So : solves P lnew (s_set st1) sub) by (rewrite Eb; apply XS; auto). assert (L1 : length (s_sol st1) = p) by apply OK1.
  assert (Gr : forall j, (j < p)%nat -> ~ In j (s_set st1) -> nth j (s_fail st1) false = true -> mask_ok st1 -> (length (s_set st1) < length (next_set st1))%nat).
  { intros j Hj Nj Fj M1. apply (index_mono p); auto; [apply union_index| |].
    - intros k Hk. apply union_In. split; auto. destruct I1 as (_ & F). rewrite Forall_forall in F. auto.
    - exists j. split; auto. apply union_In. split; auto. right. apply picked_in. rewrite M1. auto. }
  unfold try_once in E. fold p in E. set (set := union p (s_set st) (picked (s_fail st))) in *. set (b := S (s_calls st) (s_sol st) set lnew) in *.
  set (lp := mat_tvec _ _ b) in *. set (sol := M_affine.scatter set b (s_sol st)) in *. set (strong := picked (strong_mask (lp_weights P) (s_gsol st) (lcur * lp_alpha P) (lnew * lp_alpha P))) in *.
  assert (Fs : Forall (fun j => (j < p)%nat) strong). { apply Forall_forall. intros j Hj. apply picked_in in Hj. destruct Hj as (Hj & _). unfold strong_mask in Hj. rewrite map_length, seq_length in Hj. destruct (gp_w _ GP) as (Lw & _). unfold p. lia. }
  set (sf := failing chk _ _ _ _) in E. assert (Lsf : length sf = length strong) by (unfold sf; rewrite failing_length; unfold gather; apply map_length).
  destruct (existsb (fun b0 => b0) sf) eqn:Ef; injection E as <- <- <- <-; cbn [s_sol s_set s_fail] in *.
  - assert (M1 : length (map (fun j => nth j (s_fail st) false || mem j (map fst (filter snd (combine strong sf)))) (seq 0 p)) = p) by (rewrite map_length, seq_length; auto). split; [exact M1|]. intros _.
    apply existsb_true in Ef. destruct Ef as (i & Hi & Fi). rewrite Lsf in Hi. set (j := nth i strong 0%nat). assert (Hj : (j < p)%nat) by (rewrite Forall_forall in Fs; apply Fs, nth_In; auto).
    apply (Gr j); auto.
    + apply (failing_outside chk lnew set b (gather strong (lp_weights P)) (vadd (mat_vec (subsample_columns (lp_X P) strong) (lp_grad P lp)) (enet_grad P sol lnew strong)) (gather strong sol) i j); auto.
      * unfold gather. rewrite map_length. auto.
      * unfold gather. rewrite (nth_indep _ 0 ((fun k => nth k (lp_weights P) 0) 0%nat)) by (rewrite map_length; auto). rewrite (map_nth (fun k => nth k (lp_weights P) 0)). reflexivity.
      * rewrite strong_grad_nth; auto; [|apply (proj1 (gp_grad _ GP lp ltac:(rewrite Lin; apply (lin_len P GP); auto)))]. fold j. unfold grad_at, path_gradient. rewrite <- Sol, <- Lin. reflexivity.
      * unfold gather. rewrite (nth_indep _ 0 ((fun k => nth k sol 0) 0%nat)) by (rewrite map_length; auto). rewrite (map_nth (fun k => nth k sol 0)). fold j. rewrite Sol. reflexivity.
    + rewrite (nth_map_seq bool (fun j => nth j (s_fail st) false || mem j (map fst (filter snd (combine strong sf))))) by auto. apply orb_true_iff. right. apply P_separable.mem_In. apply in_map_iff. exists (j, true). split; auto. apply filter_In. split; auto. rewrite <- Fi. unfold j. rewrite <- (combine_nth strong sf i 0%nat false) by auto. apply nth_In. rewrite combine_length. lia.
  - set (fail := failing chk (lp_weights P) (path_gradient P sol lp lnew) sol (lp_alpha P * lnew)) in *. assert (M1 : length fail = p) by (unfold fail; rewrite failing_length; auto). split; [exact M1|]. intros H. apply negb_false_iff in H. apply existsb_true in H. destruct H as (j & Hj & Fj). rewrite M1 in Hj. apply (Gr j); auto.
    apply (failing_outside chk lnew set b (lp_weights P) (path_gradient P sol lp lnew) sol j j); auto; [lia| |rewrite Sol; reflexivity]. unfold grad_at. rewrite <- Sol, <- Lin. reflexivity.
Qed.
Lemma tries_exact : forall S chk max_tries lcur lnew, right_size S -> exact_solver P S -> 0 < lnew -> forall fuel num st pt st', state_ok P st -> mask_ok st -> (num <= length (next_set st))%nat -> tries fuel P S chk max_tries lcur lnew num st = Ok (pt, st') ->
  mask_ok st' /\ (pt_tries pt <= p + 1)%nat /\ (pt_warned pt = true -> (max_tries <= p)%nat) /\ solves P lnew (pt_set pt) (pt_sub pt).
Proof.
  intros S chk max_tries lcur lnew RS XS Hl. induction fuel as [|fuel IH]; intros num st pt st' OK MO Hn E; [discriminate|]. assert (Lp := index_size p (next_set st) (union_index p _ _)). cbn [tries] in E.
  destruct (try_once P S chk lcur lnew st) as [[[ok sub] linpred] st1] eqn:T. destruct (try_spec P GP _ _ _ _ _ _ _ _ _ RS OK T) as (OK1 & Es & Eb & Sol & Lin & _). destruct (try_grows _ _ _ _ _ _ _ _ _ RS XS Hl OK MO T) as (MO1 & Gr).
  assert (I1 : index_set p (s_set st1)) by apply OK1. assert (So : solves P lnew (s_set st1) sub) by (rewrite Eb; apply XS; auto).
  destruct ok.
  - apply Ok_inj in E. injection E as <- <-. cbn [pt_tries pt_warned pt_set pt_sub]. split; auto. split; [lia|]. split; [discriminate|auto].
  - specialize (Gr eq_refl). change (s_set st1 = next_set st) in Es. rewrite Es in Gr. assert (Lp1 := index_size p (next_set st1) (union_index p _ _)). set (sol2 := M_affine.scatter (s_set st1) sub (zeros (lp_size P))) in *. assert (E2 : sol2 = s_sol st1) by (rewrite Sol; reflexivity). rewrite E2 in E. clear sol2 E2.
    destruct (Nat.eqb (Datatypes.S num mod 5) 0 && Nat.leb max_tries (Datatypes.S num)) eqn:W.
    + apply andb_true_iff in W as (W1 & W2). apply Nat.leb_le in W2. rewrite W1 in E. apply Ok_inj in E. injection E as <- <-. cbn [pt_tries pt_warned pt_set pt_sub s_set s_sol]. split; auto. split; [lia|]. split; [intros _; lia|auto].
    + assert (Inv : forall g c, state_ok P (mk_pstate (s_sol st1) g (s_fail st1) (next_set st1) c)).
      { intros g c. destruct OK1 as (L1 & _ & Z1). split; auto. split; [apply union_index|]. intros j Nj. apply Z1. intros Hj. apply Nj. apply union_In. split; auto. destruct I1 as (_ & F). rewrite Forall_forall in F. apply F. auto. }
      assert (Sz : forall g c, (Datatypes.S num <= length (next_set (mk_pstate (s_sol st1) g (s_fail st1) (next_set st1) c)))%nat).
      { intros g c. apply Nat.le_trans with (length (next_set st1)); [lia|]. apply NoDup_incl_length; [apply union_index|]. intros j Hj. unfold next_set at 1. cbn [s_set s_fail]. apply union_In. split; auto. apply union_In in Hj. tauto. }
      destruct (Nat.eqb (Datatypes.S num mod 5) 0); cbn [s_sol s_gsol s_fail s_set s_calls] in E; apply IH in E; auto; exact MO1.
Qed.
Theorem path_exact : forall S chk max_tries fuel, right_size S -> exact_solver P S -> forall ls lcur st pts, Forall (fun l => 0 < l) ls -> state_ok P st -> mask_ok st -> run_path fuel P S chk max_tries lcur ls st = Ok pts ->
  Forall (fun pt => (pt_tries pt <= p + 1)%nat /\ (pt_warned pt = true -> (max_tries <= p)%nat) /\ solves P (pt_lagrange pt) (pt_set pt) (pt_sub pt)) pts.
Proof.
  intros S chk max_tries fuel RS XS. induction ls as [|l ls IH]; intros lcur st pts Pl OK MO E; cbn [run_path] in E; [apply Ok_inj in E; subst; constructor|].
  apply Forall_inv in Pl as Pl0. apply Forall_inv_tail in Pl.
  destruct (tries fuel P S chk max_tries lcur l 0 st) as [[pt st']|e] eqn:T; [|discriminate]. cbn [rbind fst snd] in E. destruct (run_path fuel P S chk max_tries l ls st') as [pts'|e] eqn:E'; [|discriminate]. cbn [rbind] in E. apply Ok_inj in E. subst pts.
  destruct (tries_spec P GP _ _ _ _ _ _ _ _ _ _ RS OK T) as (OK' & El & _). destruct (tries_exact S chk max_tries lcur l RS XS Pl0 fuel 0 st pt st' OK MO ltac:(lia) T) as (MO' & A). constructor; [rewrite El; auto|]. apply (IH l st'); auto.
Qed.
End Path.

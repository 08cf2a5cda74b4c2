(** The problems handed to the solver are the whole problem restricted to the candidates. *)
From Coq Require Import Reals List Lra Lia Arith Bool ZArith.
From Verif Require Import M_affine SpecAffine P_affine P_affine2 M_loss SpecLoss SpecSmooth P_smooth Vec Spec SpecConvex M_quad M_prox M_semi M_weighted P_quad P_calc P_sep P_feas M_smooth M_problem M_cv SpecCv P_cv M_path SpecPath P_path P_path2 P_path3 P_path4
  SpecPart SpecGroup M_mixed M_group SpecGatom P_part P_mixed P_kinds P_group P_sgl5 M_gpath SpecGpath P_gpath P_gpath3 P_gpath4 M_subprob SpecGpath SpecSgpath SpecSubprob.
From Verif Require P_buffer P_separable.
Import ListNotations.
Local Open Scope R_scope.

Lemma scatter_sum : forall p (F : nat -> R -> R) set (c x : vec), (forall j, F j 0 = 0) -> NoDup set -> Forall (fun j => (j < p)%nat) set -> length c = length set -> length x = p -> (forall j, In j set -> nth j x 0 = 0) ->
  sum_over p (fun j => F j (nth j (M_affine.scatter set c x) 0)) = sum_over p (fun j => F j (nth j x 0)) + vsum (map (fun q => F (fst q) (snd q)) (combine set c)).
Proof.
  intros p F. induction set as [|i set IH]; intros [|a c] x F0 N B L Lx Z; try discriminate.
  - cbn [M_affine.scatter combine map]. unfold vsum. simpl. ring.
  - cbn [M_affine.scatter combine map fst snd]. rewrite vsum_cons. apply NoDup_cons_iff in N as (Ni & N). apply Forall_inv in B as Hi. apply Forall_inv_tail in B. cbn [length] in L. injection L as L.
    rewrite IH; auto; [|rewrite set_at_length; auto|].
    + rewrite (single_change p (fun j => F j (nth j x 0)) (fun j => F j (nth j (set_at i a x) 0)) i Hi).
      * rewrite nth_set_at_same by lia. rewrite (Z i) by (left; auto). rewrite F0. ring.
      * intros j Hj Nj. rewrite nth_set_at_other by auto. reflexivity.
    + intros j Hj. rewrite nth_set_at_other; [apply Z; right; auto|]. intros ->. contradiction.
Qed.
Lemma embed_sum : forall p (F : nat -> R -> R) set (c : vec), (forall j, F j 0 = 0) -> index_set p set -> length c = length set ->
  sum_over p (fun j => F j (nth j (embed p set c) 0)) = vsum (map (fun q => F (fst q) (snd q)) (combine set c)).
Proof.
  intros p F set c F0 (N & B) L. unfold embed. rewrite scatter_sum; auto; [|apply repeat_length|intros; apply nth_repeat].
  replace (sum_over p (fun j => F j (nth j (zeros p) 0))) with 0; [ring|]. unfold sum_over. symmetry. induction (seq 0 p) as [|j s IH]; auto. cbn [map]. rewrite vsum_cons, IH. unfold zeros. rewrite nth_repeat. rewrite F0. ring.
Qed.
Lemma enet_nth : forall P lam j, length (lp_enet P) = length (lp_weights P) -> nth j (enet_params P lam None) 0 = (1 - lp_alpha P) * (nth j (lp_enet P) 0 * (if Req_EM_T (nth j (lp_weights P) 0) 0 then 1 else lam)).
Proof.
  intros P lam j L. unfold enet_params. set (f := fun q : R * R => if is0 (snd q) then fst q else fst q * lam). destruct (Nat.lt_ge_cases j (length (lp_enet P))) as [H|H].
  - rewrite (nth_indep _ 0 (f (0, 0))) by (rewrite map_length, combine_length, map_length; lia). rewrite (map_nth f). rewrite combine_nth by (rewrite map_length; auto). unfold f. cbn [fst snd]. assert (E : nth j (map (fun e => e * (1 - lp_alpha P)) (lp_enet P)) 0 = nth j (lp_enet P) 0 * (1 - lp_alpha P)) by (rewrite (nth_indep _ 0 (0 * (1 - lp_alpha P))) by (rewrite map_length; lia); apply (map_nth (fun e => e * (1 - lp_alpha P)))). rewrite E. unfold is0. destruct (Req_EM_T _ _); ring.
  - rewrite nth_overflow by (rewrite map_length, combine_length, map_length; lia). rewrite (nth_overflow (lp_enet P)) by lia. ring.
Qed.
Lemma diag_value : forall q c, length q = length c -> sm_func (diag_loss q) c = / 2 * vsum (map (fun p => fst p * (snd p * snd p)) (combine q c)).
Proof.
  intros q c L. unfold diag_loss. cbn [sm_func]. unfold quad_func, scale, sub_offset. replace (dot c (vmul q c)) with (vsum (map (fun p => fst p * (snd p * snd p)) (combine q c))).
  - destruct (Req_EM_T 1 1); lra.
  - revert c L. induction q as [|a q IH]; intros [|b c] L; try discriminate; auto. cbn [combine map fst snd]. rewrite vsum_cons, IH by (cbn in L; lia). unfold dot, vmul. cbn [vzip]. rewrite vsum_cons. ring.
Qed.
Lemma enet_gather : forall P lam set, enet_params P lam (Some set) = gather set (enet_params P lam None).
Proof. reflexivity. Qed.
Lemma combine_gather : forall (F : R -> R -> R) q set (c : vec), map (fun p => F (fst p) (snd p)) (combine (gather set q) c) = map (fun p => F (nth (fst p) q 0) (snd p)) (combine set c).
Proof. intros F q. induction set as [|j set IH]; intros [|a c]; auto. cbn [gather map combine fst snd]. f_equal. apply IH. Qed.
Lemma vsum_scal_map : forall (A : Type) (f : A -> R) k l, vsum (map (fun a => k * f a) l) = k * vsum (map f l).
Proof. intros A f k. induction l as [|a l IH]; cbn [map]; [unfold vsum; simpl; ring|]. rewrite !vsum_cons, IH. ring. Qed.
Lemma sum_value : forall a b x, sm_func (smooth_sum a b) x = sm_func a x + sm_func b x.
Proof. intros. unfold smooth_sum, acc_func, const_vec. cbn. ring. Qed.

Lemma gather_nth : forall set (x : vec) i, (i < length set)%nat -> nth i (gather set x) 0 = nth (nth i set 0%nat) x 0.
Proof. intros set x i H. unfold gather. rewrite (nth_indep _ 0 (nth 0%nat x 0)) by (rewrite map_length; auto). apply (map_nth (fun i => nth i x 0)). Qed.
Section Path.
Variable P : lpath.
Hypothesis GP : good_path P.
Let p := lp_size P.
Let m := t_out (lp_X P).
Let sizes : length (lp_enet P) = length (lp_weights P).
Proof. destruct (gp_e _ GP) as (A & _), (gp_w _ GP) as (B & _). congruence. Qed.
(** ** the smooth part *)
Lemma ridge_value : forall lam set c, index_set p set -> length c = length set -> sm_func (diag_loss (enet_params P lam (Some set))) c =
  (1 - lp_alpha P) / 2 * sum_over p (fun j => nth j (lp_enet P) 0 * (if Req_EM_T (nth j (lp_weights P) 0) 0 then 1 else lam) * (nth j (embed p set c) 0 * nth j (embed p set c) 0)).
Proof.
  intros lam set c I L. rewrite diag_value by (rewrite enet_gather; unfold gather; rewrite map_length; auto). rewrite enet_gather. rewrite (combine_gather (fun a b => a * (b * b))).
  rewrite (embed_sum p (fun j a => nth j (lp_enet P) 0 * (if Req_EM_T (nth j (lp_weights P) 0) 0 then 1 else lam) * (a * a)) set c) by (auto; intros; ring).
  replace ((1 - lp_alpha P) / 2) with (/ 2 * (1 - lp_alpha P)) by lra. rewrite Rmult_assoc. f_equal. rewrite <- (vsum_scal_map _ _ (1 - lp_alpha P)). f_equal. apply map_ext. intros q. rewrite enet_nth by auto. ring.
Qed.
Lemma sub_value : forall lam set c, index_set p set -> length c = length set -> sm_func (sub_loss P set lam) c = smooth_part P lam (embed p set c).
Proof.
  intros lam set c I L. unfold sub_loss, smooth_part. fold p. assert (E : sm_func (restricted_loss P set) c = lp_func P (t_lin (lp_X P) (embed p set c))) by (unfold restricted_loss; cbn [sm_func]; rewrite (lin_embed P GP) by auto; reflexivity).
  destruct (Rlt_dec (lp_alpha P) 1) as [H|H].
  - rewrite sum_value, E, ridge_value by auto. reflexivity.
  - rewrite E. destruct (gp_alpha _ GP). replace (1 - lp_alpha P) with 0 by lra. lra.
Qed.
Lemma ridge_gradient : forall lam set c, length c = length set -> index_set p set -> sm_grad (diag_loss (enet_params P lam (Some set))) c = enet_grad P (embed p set c) lam set.
Proof.
  intros lam set c L I. unfold diag_loss. cbn [sm_grad]. unfold quad_grad, vscale, sub_offset. destruct (Req_EM_T 1 1); [|lra]. rewrite enet_gather. unfold enet_grad.
  assert (G : gather set (embed p set c) = c). { destruct I as (N & B). unfold embed. apply (P_separable.part_scatter set c); auto. eapply Forall_impl; [|exact B]. cbv beta. intros j Hj. unfold zeros. rewrite repeat_length. exact Hj. }
  apply (nth_ext _ _ 0 0); [unfold vmul; rewrite (vzip_length2 _ _ _ (length set)) by (auto; unfold gather; rewrite map_length; auto); rewrite map_length; auto|]. intros i Hi. unfold vmul in Hi. rewrite (vzip_length2 _ _ _ (length set)) in Hi by (auto; unfold gather; rewrite map_length; auto).
  unfold vmul. rewrite (nth_zip0 _ _ _ (length set)) by (auto; unfold gather; rewrite map_length; auto). rewrite (nth_indep (map (enet_entry _ _ _) set) 0 (enet_entry P (embed p set c) lam 0%nat)) by (rewrite map_length; auto). rewrite (map_nth (enet_entry P (embed p set c) lam)).
  assert (Ec : nth i c 0 = nth (nth i set 0%nat) (embed p set c) 0) by (transitivity (nth i (gather set (embed p set c)) 0); [rewrite G; reflexivity|apply gather_nth; auto]). rewrite Ec, gather_nth by auto.
  rewrite enet_nth by auto. unfold enet_entry, is0. destruct (Req_EM_T _ _); ring.
Qed.
Lemma sub_gradient : forall lam set c, index_set p set -> length c = length set -> sm_grad (sub_loss P set lam) c = at_positions set (path_gradient P (embed p set c) (t_lin (lp_X P) (embed p set c)) lam).
Proof.
  intros lam set c I L. assert (Le := embed_length P set c). fold p in Le. assert (Ll := lin_len P GP (embed p set c) Le). fold m in Ll. set (sat := lp_grad P (t_lin (lp_X P) (embed p set c))).
  assert (Ls : length sat = m) by (unfold sat; apply (gp_grad _ GP); auto).
  assert (E : vadd (mat_vec (subsample_columns (lp_X P) set) sat) (enet_grad P (embed p set c) lam set) = at_positions set (path_gradient P (embed p set c) (t_lin (lp_X P) (embed p set c)) lam)).
  { assert (L1 : length (mat_vec (subsample_columns (lp_X P) set) sat) = length set) by (unfold mat_vec, subsample_columns; rewrite !map_length; auto). assert (L2 : length (enet_grad P (embed p set c) lam set) = length set) by (unfold enet_grad; rewrite map_length; auto).
    apply (nth_ext _ _ 0 0); [unfold vadd; rewrite (vzip_length2 _ _ _ (length set)) by auto; unfold at_positions; rewrite map_length; auto|]. intros i Hi. unfold vadd in Hi. rewrite (vzip_length2 _ _ _ (length set)) in Hi by auto.
    rewrite (strong_grad_nth P GP) by (auto; apply I). symmetry. apply (gather_nth set (path_gradient P (embed p set c) (t_lin (lp_X P) (embed p set c)) lam)). auto. }
  unfold sub_loss. assert (R : sm_grad (restricted_loss P set) c = mat_vec (subsample_columns (lp_X P) set) sat) by (unfold restricted_loss; cbn [sm_grad]; rewrite (lin_embed P GP) by auto; reflexivity).
  destruct (Rlt_dec (lp_alpha P) 1) as [H|H].
  - unfold smooth_sum. cbn [sm_grad]. rewrite R, ridge_gradient by auto. rewrite <- E. unfold acc_grad, const_vec. cbn [repeat combine map fold_left fst snd].
    assert (L1 : length (mat_vec (subsample_columns (lp_X P) set) sat) = length set) by (unfold mat_vec, subsample_columns; rewrite !map_length; auto).
    assert (S1 : forall v, vscal 1 v = v) by (intros v; unfold vscal; rewrite <- (map_id v) at 2; apply map_ext; intros; ring). rewrite !S1. f_equal. rewrite vadd_comm. apply vadd_zeros_r. congruence.
  - rewrite R, <- E. symmetry. replace (enet_grad P (embed p set c) lam set) with (zeros (length set)).
    + apply vadd_zeros_r. unfold mat_vec, subsample_columns. rewrite !map_length. reflexivity.
    + unfold enet_grad. destruct (gp_alpha _ GP). generalize (embed p set c) as e. intros e. clear -H H1. induction set as [|j set IH]; auto. cbn [map length]. unfold zeros in *. cbn [repeat]. rewrite IH. f_equal. unfold enet_entry. replace (1 - lp_alpha P) with 0 by lra. destruct (is0 _); ring.
Qed.
(** ** what solve_subproblem returns *)
Lemma answer_right : forall M k pen v set lam, let a := solve_subproblem M k P pen v set lam in index_set p set -> length (an_soln a) = length set ->
  an_linpred a = t_lin (lp_X P) (embed p set (an_soln a)) /\ an_grad a = at_positions set (path_gradient P (embed p set (an_soln a)) (t_lin (lp_X P) (embed p set (an_soln a))) lam).
Proof. intros M k pen v set lam a I L. split; [apply (lin_embed P GP); auto|]. exact (sub_gradient lam set (an_soln a) I L). Qed.
(** ** lasso *)
Lemma l1_terms : forall (w : vec) (c : vec), nonneg w -> length w = length c -> vsum (map (fun q => Rabs (fst q * snd q)) (masked finiteb (map Fin w) c)) = vsum (map (fun q => fst q * Rabs (snd q)) (combine w c)).
Proof.
  induction w as [|a w IH]; intros [|b c] N L; try discriminate; auto. inversion N as [|? ? Ha N']; subst. change (masked finiteb (map Fin (a :: w)) (b :: c)) with ((b, a) :: masked finiteb (map Fin w) c). cbn [map combine fst snd]. rewrite !vsum_cons, IH by (auto; cbn in L; lia). rewrite Rabs_mult, (Rabs_right a) by lra. ring.
Qed.
Lemma lasso_pen_value : forall lam set c, 0 <= lam -> index_set p set -> length c = length set -> lasso_pen P set lam c = Ok (Fin (lp_alpha P * lam * sum_over p (fun j => nth j (lp_weights P) 0 * Rabs (nth j (embed p set c) 0)))).
Proof.
  intros lam set c Hl I L. unfold lasso_pen, w_seminorm. rewrite andb_false_l. do 2 f_equal. destruct (gp_alpha _ GP) as (A0 & A1). destruct (gp_w _ GP) as (Lw & Nw). unfold nonneg in Nw. rewrite Forall_forall in Nw.
  set (w' := map (fun a => a * lp_alpha P) (gather set (map (Rmult lam) (lp_weights P)))). assert (W : forall j, nth j (map (Rmult lam) (lp_weights P)) 0 = lam * nth j (lp_weights P) 0) by (intros j; replace 0 with (lam * 0) at 1 by ring; apply (map_nth (Rmult lam))).
  assert (N : nonneg w'). { unfold nonneg, w'. apply Forall_forall. intros a Ha. apply in_map_iff in Ha. destruct Ha as (b & <- & Hb). apply in_map_iff in Hb. destruct Hb as (j & <- & Hj). rewrite W. apply Rmult_le_pos; [|lra]. apply Rmult_le_pos; auto. apply (weight_nonneg P GP). }
  rewrite l1_terms by (auto; unfold w', gather; rewrite !map_length; auto). rewrite (embed_sum p (fun j a => nth j (lp_weights P) 0 * Rabs a) set c) by (auto; intros; rewrite Rabs_R0; ring). rewrite Rmult_1_l. rewrite <- vsum_scal_map. f_equal.
  unfold w'. clear -W L. revert c L. induction set as [|j set IH]; intros [|b c] L; try discriminate; auto. cbn [gather map combine fst snd]. f_equal; [rewrite W; ring|]. apply IH. cbn in L. lia.
Qed.
Theorem lasso_restricted : forall lam set c, 0 <= lam -> index_set p set -> length c = length set -> objective (sub_loss P set lam) (lasso_pen P set lam) c = Ok (Fin (path_objective P lam (embed p set c))).
Proof. intros lam set c Hl I L. unfold objective. rewrite lasso_pen_value by auto. rewrite sub_value by auto. reflexivity. Qed.
Lemma argmin_ext : forall n G H x, (forall c, length c = n -> G c = H c) -> is_argmin n G x -> is_argmin n H x.
Proof. intros n G H x E (L & (r & V) & M). split; auto. split; [exists r; rewrite <- E; auto|]. intros y Ly. rewrite <- !E by auto. apply M; auto. Qed.
Lemma minimized_argmin : forall M n F H k x0, minimized M n F -> (forall c, length c = n -> F c = Ok (H c)) -> is_argmin n H (M k n F x0).
Proof. intros M n F H k x0 (G & EG & Mi) E. apply (argmin_ext n G); auto. intros c Lc. apply Ok_inj. rewrite <- EG, <- E by auto. reflexivity. Qed.
Theorem lasso_exact : forall M, sized M -> (forall set l, index_set p set -> 0 < l -> minimized M (length set) (objective (sub_loss P set l) (lasso_pen P set l))) -> right_size (path_solver M P (lasso_pen P)) /\ exact_solver P (path_solver M P (lasso_pen P)).
Proof.
  intros M S1 S2. split; [intros k v set l; apply S1|]. intros k v set l I Hl. unfold solves, path_solver, solve_subproblem. cbn [an_soln]. apply minimized_argmin; [apply S2; auto|]. intros c Lc. apply lasso_restricted; auto. lra.
Qed.
(** ** the null fit of a lasso path *)
Lemma unpenalized_in : forall j, In j (unpenalized P) <-> (j < p)%nat /\ nth j (lp_weights P) 0 = 0.
Proof. intros j. unfold unpenalized. rewrite filter_In, in_seq. fold p. rewrite is0_true. split; intros (A & B); split; auto; lia. Qed.
Lemma unpenalized_index : index_set p (unpenalized P).
Proof. split; [apply NoDup_filter, seq_NoDup|]. apply Forall_forall. intros j Hj. apply unpenalized_in in Hj. tauto. Qed.
Lemma big_pos : 0 < big.
Proof. unfold big. apply pow_lt. lra. Qed.
Lemma gradient_free : forall s lam, (forall j, nth j (lp_weights P) 0 <> 0 -> nth j s 0 = 0) -> path_gradient P s (t_lin (lp_X P) s) lam = path_gradient P s (t_lin (lp_X P) s) 1.
Proof. intros s lam Z. unfold path_gradient. f_equal. unfold enet_grad. apply map_ext. intros j. unfold enet_entry. destruct (is0 (nth j (lp_weights P) 0)) eqn:E; auto. apply is0_false in E. rewrite Z by auto. ring. Qed.
Lemma null_fit_shape : forall M pen free, sized M -> index_set p free -> exists b, length b = length free /\ null_fit M P pen free = (embed p free b, path_gradient P (embed p free b) (t_lin (lp_X P) (embed p free b)) 1) /\ (free <> [] -> exists x0, b = M 0%nat (length free) (objective (sub_loss P free big) (pen free big)) x0).
Proof.
  intros M pen [|i free] S1 I.
  - exists []. split; auto. split; [|congruence]. unfold null_fit, embed. cbn [M_affine.scatter]. unfold p. rewrite (lin_zeros P GP). reflexivity.
  - set (fr := i :: free) in *. set (b := an_soln (solve_subproblem M 0 P pen (zeros p) fr big)). assert (Lb : length b = length fr) by apply S1. exists b. split; auto. split; [|intros _; eexists; reflexivity]. unfold null_fit. fold p. change (match fr with [] => _ | _ :: _ => ?x end) with x. cbv zeta. fold b. unfold embed. f_equal. f_equal. destruct (answer_right M 0 pen (zeros p) fr big I Lb) as (E & _). exact E.
Qed.
Theorem lasso_null_right : forall M, sized M -> minimized M (length (unpenalized P)) (objective (sub_loss P (unpenalized P) big) (lasso_pen P (unpenalized P) big)) ->
  let '(s, g) := lasso_null M P in null_solution P s /\ g = path_gradient P s (t_lin (lp_X P) s) 1.
Proof.
  intros M S1 S2. unfold lasso_null. destruct (null_fit_shape M (lasso_pen P) (unpenalized P) S1 unpenalized_index) as (b & Lb & -> & Hb). split; auto. set (s := embed p (unpenalized P) b).
  assert (Z : forall j, nth j (lp_weights P) 0 <> 0 -> nth j s 0 = 0). { intros j Hj. apply (embed_outside P). intros H. apply unpenalized_in in H. tauto. }
  split; [apply (embed_length P)|]. split; auto. intros j Hj. destruct (Nat.lt_ge_cases j p) as [Hp|Hp].
  - assert (Hin : In j (unpenalized P)) by (apply unpenalized_in; auto). assert (Ne : unpenalized P <> []) by (intros E; rewrite E in Hin; destruct Hin). destruct (Hb Ne) as (x0 & Eb).
    assert (So : solves P big (unpenalized P) b). { unfold solves. fold p. rewrite Eb. apply minimized_argmin; auto. intros c Lc. apply lasso_restricted; auto; [apply Rlt_le, big_pos|apply unpenalized_index]. }
    assert (St := exact_stationary P GP big (unpenalized P) b j big_pos unpenalized_index So Hin). unfold stationary, grad_at in St. fold p in St. fold s in St. rewrite Hj in St. rewrite (gradient_free s big Z) in St. set (g := nth j (path_gradient P s (t_lin (lp_X P) s) 1) 0) in *. specialize (St (- g)). nra.
  - apply nth_overflow. destruct (path_gradient_right P GP 1 s (embed_length P _ _)) as (L & _). fold p in L. lia.
Qed.
End Path.

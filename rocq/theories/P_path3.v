(** Strong rules. *)
From Coq Require Import Reals List Lra Lia Arith Bool.
From Verif Require Import M_affine SpecAffine P_affine P_affine2 M_loss SpecLoss SpecSmooth P_smooth Vec Spec SpecConvex M_quad M_prox M_semi M_weighted P_quad P_calc P_sep P_feas M_problem M_cv SpecCv P_cv M_path SpecPath P_path P_path2.
From Verif Require P_buffer P_separable.
Import ListNotations.
Local Open Scope R_scope.

Lemma union_In : forall p a b j, In j (union p a b) <-> (j < p)%nat /\ (In j a \/ In j b).
Proof. intros p a b j. unfold union. rewrite filter_In, in_seq, orb_true_iff, !P_separable.mem_In. intuition lia. Qed.
Lemma union_index : forall p a b, index_set p (union p a b).
Proof. intros p a b. split; [apply NoDup_filter, seq_NoDup|]. apply Forall_forall. intros j Hj. apply union_In in Hj. tauto. Qed.
Lemma index_size : forall p S, index_set p S -> (length S <= p)%nat.
Proof. intros p S (N & F). rewrite <- (seq_length p 0). apply NoDup_incl_length; auto. intros j Hj. apply in_seq. rewrite Forall_forall in F. specialize (F j Hj). lia. Qed.
Lemma seq_index : forall p, index_set p (seq 0 p).
Proof. intros p. split; [apply seq_NoDup|]. apply Forall_forall. intros j Hj. apply in_seq in Hj. lia. Qed.
Lemma index_mono : forall p S T, index_set p S -> index_set p T -> incl S T -> (exists j, In j T /\ ~ In j S) -> (length S < length T)%nat.
Proof.
  intros p S T (NS & _) (NT & _) I (j & Hj & Nj). assert (H : (length (j :: S) <= length T)%nat). { apply NoDup_incl_length; [constructor; auto|]. intros k [<-|Hk]; auto. } exact H.
Qed.

(** ** what the mask of failing features contains *)
Lemma kkt_tol_pos : 0 <= kkt_tol.
Proof. unfold kkt_tol. lra. Qed.
Lemma rank_sign : forall w g s lam tol j, (j < length s)%nat -> 0 <= nth j (inactive_ranks w g s lam tol) 0 <-> 1 + tol < inactive_term w g s lam j.
Proof.
  intros w g s lam tol j Hj. unfold inactive_ranks. set (terms := map (inactive_term w g s lam) (seq 0 (length s))). rewrite (nth_map_seq R (fun j => if Rle_dec (nth j terms 0) (1 + tol) then -1 else INR (length s) - rankdata terms j)) by auto.
  assert (E : nth j terms 0 = inactive_term w g s lam j) by (apply (nth_map_seq R (inactive_term w g s lam)); auto). rewrite E. destruct (Rle_dec (inactive_term w g s lam j) (1 + tol)); split; intros; try lra. assert (L : length terms = length s) by (unfold terms; rewrite map_length, seq_length; auto). assert (X := rank_le terms j ltac:(lia)). rewrite L in X. lra.
Qed.
Lemma failing_length : forall chk w g s lam, length (failing chk w g s lam) = length s.
Proof. intros. unfold failing, check_KKT. rewrite map_length, combine_length, map_length, seq_length. unfold inactive_ranks. rewrite map_length, seq_length. apply Nat.min_id. Qed.
Lemma failing_nth : forall chk w g s lam j, (j < length s)%nat -> nth j (failing chk w g s lam) false = (chk && active_fails w g s lam kkt_tol j) || gtb (inactive_term w g s lam j) (1 + kkt_tol).
Proof.
  intros chk w g s lam j Hj. unfold failing, check_KKT. set (A := map (active_fails w g s lam kkt_tol) (seq 0 (length s))). set (Rk := inactive_ranks w g s lam kkt_tol).
  assert (LA : length A = length s) by (unfold A; rewrite map_length, seq_length; auto). assert (LR : length Rk = length s) by (unfold Rk, inactive_ranks; rewrite map_length, seq_length; auto).
  set (F := fun p : bool * R => (chk && fst p) || (if Rle_dec 0 (snd p) then true else false)). rewrite (nth_indep _ false (F (false, 0))) by (rewrite map_length, combine_length; lia). rewrite (map_nth F), combine_nth by lia. unfold F. cbn [fst snd]. f_equal.
  - f_equal. apply (nth_map_seq bool (active_fails w g s lam kkt_tol)). auto.
  - assert (X := rank_sign w g s lam kkt_tol j Hj). fold Rk in X. destruct (Rle_dec 0 (nth j Rk 0)); symmetry; [apply gtb_true; tauto|]. apply gtb_false. destruct (Rle_dec (inactive_term w g s lam j) (1 + kkt_tol)); auto. exfalso. apply n. apply X. lra.
Qed.
Lemma existsb_false : forall l, existsb (fun b => b) l = false <-> forall j, (j < length l)%nat -> nth j l false = false.
Proof.
  induction l as [|b l IH]; cbn; [split; auto; intros; lia|]. rewrite orb_false_iff, IH. split.
  - intros (-> & H) [|j] Hj; auto. apply H. lia.
  - intros H. split; [apply (H 0%nat); lia|]. intros j Hj. apply (H (S j)). lia.
Qed.
Lemma existsb_true : forall l, existsb (fun b => b) l = true -> exists j, (j < length l)%nat /\ nth j l false = true.
Proof. induction l as [|b l IH]; cbn; [discriminate|]. destruct b; intros H; [exists 0%nat; split; auto; lia|]. destruct (IH H) as (j & Hj & Ej). exists (S j). split; auto. lia. Qed.
(** nothing failing is what the check says *)
Lemma none_failing : forall chk w g s lam, existsb (fun b => b) (failing chk w g s lam) = false -> inactive_passes (check_KKT w g s lam kkt_tol) /\ (chk = true -> passes (check_KKT w g s lam kkt_tol)).
Proof.
  intros chk w g s lam H. assert (A : forall j, (j < length s)%nat -> (chk = true -> active_fails w g s lam kkt_tol j = false) /\ inactive_term w g s lam j <= 1 + kkt_tol).
  { intros j Hj. rewrite existsb_false in H. specialize (H j). rewrite failing_length, failing_nth in H by auto. specialize (H Hj). apply orb_false_iff in H as (H1 & H2). apply gtb_false in H2. split; auto. intros ->. exact H1. }
  split; [apply ranks_neg; intros j Hj; apply A; auto|]. intros Hc. apply passes_iff. split; intros j Hj; apply A; auto.
Qed.

(** ** restricted solutions *)
Lemma set_at_add : forall p i a (x : vec), length x = p -> (i < p)%nat -> nth i x 0 = 0 -> set_at i a x = vadd x (vscal a (unit_vec p i)).
Proof.
  intros p i a x Lx Hi Z. assert (Lu := unit_vec_length p i). apply (nth_ext _ _ 0 0).
  - rewrite set_at_length. unfold vadd. rewrite (vzip_length2 _ _ _ p); auto. unfold vscal. rewrite map_length; auto.
  - intros j Hj. rewrite set_at_length in Hj. rewrite (line_nth p) by (auto; lia). assert (U := step_nth p x 1 a i j Lx ltac:(lia)). unfold vadd in U. destruct (Nat.eq_dec j i) as [->|N].
    + rewrite nth_set_at_same by lia. rewrite Nat.eqb_refl in U. rewrite Z in *. change (vzip Rplus) with vadd in U. rewrite (line_nth p) in U by (auto; unfold vscal; rewrite map_length; auto). rewrite Z in U. assert (V : nth i (vscal a (unit_vec p i)) 0 = a * nth i (unit_vec p i) 0) by (unfold vscal; rewrite (nth_indep _ 0 (a * 0)) by (rewrite map_length; lia); apply (map_nth (Rmult a))). rewrite V in U. lra.
    + rewrite nth_set_at_other by auto. change (vzip Rplus) with vadd in U. rewrite (line_nth p) in U by (auto; try lia; unfold vscal; rewrite map_length; auto). destruct (Nat.eqb_spec j i); [contradiction|]. assert (V : nth j (vscal a (unit_vec p i)) 0 = a * nth j (unit_vec p i) 0) by (unfold vscal; rewrite (nth_indep _ 0 (a * 0)) by (rewrite map_length; lia); apply (map_nth (Rmult a))). rewrite V in U. lra.
Qed.
(** max_tries, rounded up to a positive multiple of 5 *)
Definition bound (max_tries : nat) : nat := 5 * ((Nat.max 1 max_tries + 4) / 5).
Lemma bound_le : forall k, (Nat.max 1 k <= bound k <= Nat.max 1 k + 4)%nat.
Proof. intros k. unfold bound. assert (D := Nat.div_mod (Nat.max 1 k + 4) 5 ltac:(lia)). assert (M := Nat.mod_upper_bound (Nat.max 1 k + 4) 5 ltac:(lia)). lia. Qed.
Section Path.
Variable P : lpath.
Hypothesis GP : good_path P.
Let p := lp_size P.
Let m := t_out (lp_X P).
Lemma columns_length : forall set, Forall (fun r => length r = m) (subsample_columns (lp_X P) set).
Proof. intros set. apply Forall_forall. intros r Hr. apply in_map_iff in Hr. destruct Hr as (j & <- & _). apply (lin_len P GP). apply unit_vec_length. Qed.
Lemma lin_scatter : forall set (v x : vec), index_set p set -> length v = length set -> length x = p -> (forall i, In i set -> nth i x 0 = 0) ->
  t_lin (lp_X P) (M_affine.scatter set v x) = vadd (t_lin (lp_X P) x) (mat_tvec m (subsample_columns (lp_X P) set) v).
Proof.
  destruct (P_affine.adjoint_linear _ (proj1 (gp_X _ GP))) as (La & Ls). induction set as [|i set IH]; intros [|a v] x (N & F) Lv Lx Z; try discriminate.
  - cbn. assert (L := lin_len P GP x Lx). fold m in L. symmetry. apply vadd_zeros_r. exact L.
  - cbn [M_affine.scatter subsample_columns map mat_tvec]. apply NoDup_cons_iff in N as (Ni & N). apply Forall_inv in F as Hi. apply Forall_inv_tail in F. cbn [length] in Lv. injection Lv as Lv.
    fold (subsample_columns (lp_X P) set). rewrite IH; auto; [|split; auto|rewrite set_at_length; auto|].
    + rewrite (set_at_add p) by (auto; apply Z; left; auto). assert (Lu := unit_vec_length p i). rewrite La, Ls by (auto; unfold vscal; rewrite map_length; auto). assert (L := lin_len P GP x Lx). fold m in L. assert (Lc := lin_len P GP (unit_vec p i) Lu). fold m in Lc. assert (Lm : length (mat_tvec m (subsample_columns (lp_X P) set) v) = m) by (apply P_affine.mat_tvec_length; apply columns_length). rewrite vadd_assoc; [reflexivity| |rewrite Lm; auto]. unfold vscal. rewrite map_length, L, Lc. reflexivity.
    + intros k Hk. rewrite nth_set_at_other; [apply Z; right; auto|]. intros ->. contradiction.
Qed.
Lemma lin_zeros : t_lin (lp_X P) (zeros p) = zeros m.
Proof.
  apply P_affine.lin_zero. apply (gp_X _ GP).
Qed.
Lemma embed_length : forall set v, length (embed p set v) = p.
Proof. intros. unfold embed. rewrite P_affine.scatter_length. unfold zeros. apply repeat_length. Qed.
Lemma embed_outside : forall set v j, ~ In j set -> nth j (embed p set v) 0 = 0.
Proof. intros set v j N. unfold embed. rewrite P_buffer.scatter_outside by auto. unfold zeros. apply nth_repeat. Qed.
Lemma lin_embed : forall set v, index_set p set -> length v = length set -> mat_tvec m (subsample_columns (lp_X P) set) v = t_lin (lp_X P) (embed p set v).
Proof.
  intros set v I Lv. unfold embed. rewrite lin_scatter by (auto; unfold zeros; intros; first [apply repeat_length|apply nth_repeat]). rewrite lin_zeros. rewrite vadd_comm, vadd_zeros_r; auto. apply P_affine.mat_tvec_length, columns_length.
Qed.

(** ** one pass of the loop *)
Definition state_ok (st : pstate) : Prop := length (s_sol st) = p /\ index_set p (s_set st) /\ forall j, ~ In j (s_set st) -> nth j (s_sol st) 0 = 0.
Lemma start_ok : forall g, state_ok (start_state P (zeros p) g).
Proof. intros g. split; [apply repeat_length|]. split; [split; constructor|]. intros j _. apply nth_repeat. Qed.
Definition at_solution (lnew : R) (st : pstate) : vec := path_gradient P (s_sol st) (t_lin (lp_X P) (s_sol st)) lnew.
Lemma scatter_embed : forall set sub sol, length sub = length set -> length sol = p -> (forall j, ~ In j set -> nth j sol 0 = 0) -> M_affine.scatter set sub sol = embed p set sub.
Proof. intros set sub sol Ls Lx Z. apply P_buffer.scatter_agree; auto; [unfold zeros; rewrite repeat_length; auto|]. intros j Nj. rewrite Z by auto. unfold zeros. symmetry. apply nth_repeat. Qed.
Lemma try_spec : forall S chk lcur lnew st ok sub linpred st1, right_size S -> state_ok st -> try_once P S chk lcur lnew st = (ok, sub, linpred, st1) ->
  state_ok st1 /\ s_set st1 = union p (s_set st) (picked (s_fail st)) /\ sub = S (s_calls st) (s_sol st) (s_set st1) lnew /\ s_sol st1 = embed p (s_set st1) sub /\ linpred = t_lin (lp_X P) (s_sol st1) /\
  (ok = true -> existsb (fun b => b) (failing chk (lp_weights P) (at_solution lnew st1) (s_sol st1) (lp_alpha P * lnew)) = false).
Proof.
  intros S chk lcur lnew st ok sub linpred st1 RS (Lx & I & Z) E. unfold try_once in E. fold p in E. set (set := union p (s_set st) (picked (s_fail st))) in *. set (b := S (s_calls st) (s_sol st) set lnew) in *.
  assert (Lb : length b = length set) by apply RS. assert (Is : index_set p set) by apply union_index.
  assert (Sol : M_affine.scatter set b (s_sol st) = embed p set b). { apply scatter_embed; auto. intros j Nj. apply Z. intros Hj. apply Nj. unfold set. apply union_In. split; auto. destruct I as (_ & F). rewrite Forall_forall in F. auto. }
  assert (Lin := lin_embed set b Is Lb). fold m in E. rewrite Sol, Lin in E. set (sol := embed p set b) in *.
  assert (OK1 : forall g f c, state_ok (mk_pstate sol g f set c)). { intros g f c. split; [apply embed_length|]. split; auto. intros j Nj. apply embed_outside. exact Nj. }
  destruct (existsb (fun b0 => b0) (failing chk (gather (picked (strong_mask (lp_weights P) (s_gsol st) (lcur * lp_alpha P) (lnew * lp_alpha P))) (lp_weights P)) _ _ _)) eqn:Ef; injection E as <- <- <- <-; cbn [s_sol s_set s_calls].
  - split; [apply OK1|]. repeat split; auto. discriminate.
  - split; [apply OK1|]. repeat split; auto. unfold at_solution. cbn [s_sol]. intros H. apply negb_true_iff in H. exact H.
Qed.
(** the loop over the tries of one value *)
Lemma tries_spec : forall S chk max_tries lcur lnew fuel num st pt st', right_size S -> state_ok st -> tries fuel P S chk max_tries lcur lnew num st = Ok (pt, st') ->
  state_ok st' /\ pt_lagrange pt = lnew /\ restricted P S pt /\ (num < pt_tries pt)%nat /\
  (pt_warned pt = false -> inactive_passes (checked P lnew (pt_beta pt)) /\ (chk = true -> passes (checked P lnew (pt_beta pt)))) /\
  (pt_warned pt = true -> (max_tries <= pt_tries pt)%nat).
Proof.
  intros S chk max_tries lcur lnew. induction fuel as [|fuel IH]; intros num st pt st' RS OK E; [discriminate|]. cbn [tries] in E.
  destruct (try_once P S chk lcur lnew st) as [[[ok sub] linpred] st1] eqn:T. destruct (try_spec _ _ _ _ _ _ _ _ _ RS OK T) as (OK1 & Es & Eb & Sol & Lin & Pass). destruct OK1 as (L1 & I1 & Z1).
  assert (R1 : forall w t, restricted P S (mk_point lnew (s_sol st1) w (s_set st1) sub t)) by (intros w t; split; [exact I1|]; split; [exact Sol|]; exists (s_calls st), (s_sol st); exact Eb).
  destruct ok.
  - apply Ok_inj in E. injection E as <- <-. cbn [pt_lagrange pt_tries pt_warned pt_beta]. split; [split; auto|]. split; auto. split; auto. split; [lia|]. split; [|discriminate]. intros _. unfold checked. apply none_failing. apply Pass. auto.
  - set (sol2 := M_affine.scatter (s_set st1) sub (zeros (lp_size P))) in *. assert (E2 : sol2 = s_sol st1) by (rewrite Sol; reflexivity). rewrite E2 in E. clear sol2 E2.
    destruct (Nat.eqb (Datatypes.S num mod 5) 0 && Nat.leb max_tries (Datatypes.S num)) eqn:W.
    + apply andb_true_iff in W as (W1 & W2). rewrite W1 in E. apply Ok_inj in E. injection E as <- <-. cbn [s_sol s_set pt_lagrange pt_tries pt_warned pt_beta]. split; [split; auto|]. split; auto. split; auto. split; [lia|]. split; [discriminate|]. intros _. apply Nat.leb_le. auto.
    + apply IH in E; auto; [intuition lia|]. destruct (Nat.eqb (Datatypes.S num mod 5) 0); cbn [s_sol s_set s_fail]; (split; [auto|]; split; [apply union_index|]); intros j Nj; apply Z1; intros Hj; apply Nj; apply union_In; (split; [|auto]); destruct I1 as (_ & F); rewrite Forall_forall in F; apply F; auto.
Qed.
Lemma tries_ends : forall S chk max_tries lcur lnew fuel num st, (num < bound max_tries <= num + fuel)%nat -> exists pt st', tries fuel P S chk max_tries lcur lnew num st = Ok (pt, st') /\ (pt_tries pt <= bound max_tries)%nat.
Proof.
  intros S chk max_tries lcur lnew. induction fuel as [|fuel IH]; intros num st H; [lia|]. cbn [tries]. destruct (try_once P S chk lcur lnew st) as [[[ok sub] linpred] st1]. destruct ok; [eexists; eexists; split; [reflexivity|cbn [pt_tries]; lia]|].
  destruct (Nat.eqb (Datatypes.S num mod 5) 0 && Nat.leb max_tries (Datatypes.S num)) eqn:W; [eexists; eexists; split; [reflexivity|cbn [pt_tries]; lia]|].
  apply IH. split; [|lia]. destruct (Nat.eq_dec (Datatypes.S num) (bound max_tries)) as [E|N]; [|lia]. exfalso. apply andb_false_iff in W as [W|W].
  - apply Nat.eqb_neq in W. apply W. rewrite E. unfold bound. rewrite Nat.mul_comm. apply Nat.mod_mul. lia.
  - apply Nat.leb_gt in W. assert (B := bound_le max_tries). lia.
Qed.
Theorem path_spec : forall S chk max_tries fuel ls lcur st pts, right_size S -> state_ok st -> run_path fuel P S chk max_tries lcur ls st = Ok pts ->
  map pt_lagrange pts = ls /\ Forall (fun pt => restricted P S pt /\ (pt_warned pt = false -> inactive_passes (checked P (pt_lagrange pt) (pt_beta pt)) /\ (chk = true -> passes (checked P (pt_lagrange pt) (pt_beta pt)))) /\ (pt_warned pt = true -> (max_tries <= pt_tries pt)%nat)) pts.
Proof.
  intros S chk max_tries fuel. induction ls as [|l ls IH]; intros lcur st pts RS OK E; cbn [run_path] in E; [apply Ok_inj in E; subst; split; constructor|].
  destruct (tries fuel P S chk max_tries lcur l 0 st) as [[pt st']|e] eqn:T; [|discriminate]. cbn [rbind fst snd] in E. destruct (run_path fuel P S chk max_tries l ls st') as [pts'|e] eqn:E'; [|discriminate]. cbn [rbind] in E. apply Ok_inj in E. subst pts.
  destruct (tries_spec _ _ _ _ _ _ _ _ _ _ RS OK T) as (OK' & El & Rp & _ & Acc & Wn). destruct (IH _ _ _ RS OK' E') as (A & B). split; [cbn [map]; rewrite El, A; auto|]. constructor; auto. rewrite El. auto.
Qed.
Theorem path_ends : forall S chk max_tries fuel ls lcur st, (bound max_tries <= fuel)%nat -> exists pts, run_path fuel P S chk max_tries lcur ls st = Ok pts /\ Forall (fun pt => (pt_tries pt <= bound max_tries)%nat) pts.
Proof.
  intros S chk max_tries fuel. induction ls as [|l ls IH]; intros lcur st H; cbn [run_path]; [eexists; split; [reflexivity|constructor]|].
  destruct (tries_ends S chk max_tries lcur l fuel 0 st) as (pt & st' & T & B); [assert (X := bound_le max_tries); lia|]. rewrite T. cbn [rbind fst snd]. destruct (IH l st' H) as (pts & -> & F). eexists. split; [reflexivity|constructor; auto].
Qed.
End Path.

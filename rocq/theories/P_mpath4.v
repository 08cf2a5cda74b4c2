(** More about the path of mixed lasso problems: candidate sets, counts and deviance ratios. *)
From Coq Require Import Reals List Lra Lia Psatz Bool Permutation ZArith.
From Verif Require Import M_loss Vec Spec SpecConvex SpecFista M_quad M_prox M_semi SpecAtom M_shift SpecBase SpecMode M_mode SpecModed SpecWeighted SpecPart SpecGroup M_slope M_mixed M_group M_mixed_atom SpecGatom M_mkkt SpecMkkt M_path M_mpath SpecMpath
  P_quad P_pl P_prox P_feas P_semi P_conj P_shift P_gauge P_part P_mixed P_kinds P_group P_group2 P_calc P_problem P_fista P_sep P_path2 P_mkkt P_mkkt2 P_mpath P_mpath2.
Import ListNotations.
Local Open Scope R_scope.

Definition within (a b : list bool) : Prop := forall i, nth i a false = true -> nth i b false = true.
Lemma within_bor_l : forall a b, length a = length b -> within a (bor a b).
Proof. intros a b L i H. rewrite nth_bor by auto. rewrite H. auto. Qed.
Lemma within_bor_r : forall a b, length a = length b -> within b (bor a b).
Proof. intros a b L i H. rewrite nth_bor by auto. rewrite H. apply orb_true_r. Qed.
Lemma nth_nonzeros : forall s i, nth i s 0 <> 0 -> nth i (nonzeros s) false = true.
Proof.
  intros s i H. unfold nonzeros. destruct (lt_dec i (length s)) as [L|L]; [|exfalso; apply H; apply nth_overflow; lia]. rewrite (nth_indep _ false (nonzero 0)) by (rewrite map_length; auto). rewrite map_nth. apply nonzero_iff. auto.
Qed.
Lemma mtry_grow : forall P S lcur lnew st ok st1, grad_lengths P -> inv P st -> mtry P S lcur lnew st = (ok, st1) ->
  (exists set, within (ms_ever st) set /\ covers P set /\ ms_sol st1 = embed_mask set (S (ms_calls st) (ms_sol st) set lnew)) /\ within (ms_ever st) (ms_ever st1) /\ (ok = true -> within (nonzeros (ms_sol st1)) (ms_ever st1)).
Proof.
  intros P S lcur lnew st ok st1 Hgl (Cv & Lf & Lgs) E. unfold mtry in E. set (set := bor (ms_ever st) (ms_fail st)) in *. assert (Cs : covers P set) by (apply covers_bor; auto). assert (Le : length (ms_ever st) = mp_size P) by apply Cv.
  assert (Ws : within (ms_ever st) set) by (apply within_bor_l; lia).
  set (sub := S (ms_calls st) (ms_sol st) set lnew) in *. set (sol := embed_mask set sub) in *. assert (Lsol : length sol = mp_size P) by (unfold sol, embed_mask; rewrite put_length; apply Cs).
  set (strong := ml_strong_set _ lcur lnew (ms_gsol st) 1) in *. set (q1 := enet_access lnew (ms_enet st)) in *. set (sfail := ml_check_KKT _ _ (keep strong sol) lnew mtol) in *.
  destruct (any sfail).
  - injection E as <- <-. cbn [ms_sol ms_ever]. split; [exists set; auto|]. split; [intros i H; auto|discriminate].
  - set (q2 := enet_access lnew q1) in *. assert (Lg : length (mp_gradient P q2 sol) = mp_size P) by (unfold mp_gradient; apply enet_length; auto; rewrite Hgl; auto).
    set (fail := ml_check_KKT _ (mp_gradient P q2 sol) sol lnew mtol) in *. assert (Lfl : length fail = mp_size P) by (apply check_length; auto).
    destruct (any fail) eqn:Ea; injection E as <- <-; cbn [ms_sol ms_ever].
    + split; [exists set; auto|]. split; [apply within_bor_l; lia|discriminate].
    + assert (Ln : length (nonzeros sol) = mp_size P) by (unfold nonzeros; rewrite map_length; auto). split; [exists set; auto|]. split; [apply within_bor_l; lia|]. intros _. apply within_bor_r. lia.
Qed.
Lemma mtries_grow : forall P S lcur lnew fuel num st pt st', grad_lengths P -> inv P st -> mtries fuel P S lcur lnew num st = Ok (pt, st') ->
  inv P st' /\ mpt_lagrange pt = lnew /\ (exists set k x, within (ms_ever st) set /\ covers P set /\ mpt_sol pt = embed_mask set (S k x set lnew)) /\ within (ms_ever st) (ms_ever st') /\ (mpt_warned pt = false -> within (nonzeros (mpt_sol pt)) (ms_ever st')).
Proof.
  intros P S lcur lnew fuel. induction fuel as [|fuel IH]; intros num st pt st' Hgl I H; [discriminate|]. cbn [mtries] in H. destruct (mtry P S lcur lnew st) as [ok st1] eqn:E.
  destruct (mtry_grow P S lcur lnew st ok st1 Hgl I E) as ((set & Ws & Cs & Es) & We & Wn). destruct (mtry_spec P S lcur lnew st ok st1 Hgl I E) as (I1 & _ & Ls & _ & _). destruct ok.
  - injection H as <- <-. cbn [mpt_lagrange mpt_sol mpt_warned]. repeat split; auto; try apply I1. exists set, (ms_calls st), (ms_sol st). auto.
  - destruct (Nat.eqb (Datatypes.S num mod 5) 0) eqn:E5.
    + set (st2 := mk_mstate _ _ _ _ _ _) in *. assert (I2 : inv P st2). { destruct I1 as (A & B & C). split; auto. split; auto. cbn. unfold mp_gradient. apply enet_length; auto; apply Hgl; auto. }
      destruct (Nat.leb 10 (Datatypes.S num)) eqn:E10.
      * injection H as <- <-. cbn [mpt_lagrange mpt_sol mpt_warned]. split; auto. split; auto. split; [exists set, (ms_calls st), (ms_sol st); auto|]. split; [exact We|discriminate].
      * destruct (IH _ _ _ _ Hgl I2 H) as (A & B & (set' & k & x & Ws' & Cs' & Es') & C & D). split; [auto|]. split; [auto|]. split; [exists set', k, x; split; [intros i Hi; apply Ws'; apply We; auto|auto]|]. split; [intros i Hi; apply C; apply We; auto|auto].
    + destruct (IH _ _ _ _ Hgl I1 H) as (A & B & (set' & k & x & Ws' & Cs' & Es') & C & D). split; [auto|]. split; [auto|]. split; [exists set', k, x; split; [intros i Hi; apply Ws'; apply We; auto|auto]|]. split; [intros i Hi; apply C; apply We; auto|auto].
Qed.
Lemma mrun_grow : forall P S fuel ls lcur st pts, grad_lengths P -> inv P st -> mrun fuel P S lcur ls st = Ok pts ->
  exists sets, length sets = length pts /\ (forall j, (j < length pts)%nat -> within (ms_ever st) (nth j sets [])) /\
    (forall j, (j < length pts)%nat -> let pt := nth j pts no_point in covers P (nth j sets []) /\ exists k x, mpt_sol pt = embed_mask (nth j sets []) (S k x (nth j sets []) (mpt_lagrange pt))) /\
    forall j j' i, (j < j')%nat -> (j' < length pts)%nat -> mpt_warned (nth j pts no_point) = false -> nth i (mpt_sol (nth j pts no_point)) 0 <> 0 -> nth i (nth j' sets []) false = true.
Proof.
  intros P S fuel. induction ls as [|l ls IH]; intros lcur st pts Hgl I H; cbn [mrun] in H.
  - injection H as <-. exists []. split; auto. split; [intros j Hj; cbn in Hj; lia|]. split; [intros j Hj; cbn in Hj; lia|intros j j' i A B; cbn in B; lia].
  - destruct (mtries fuel P S lcur l 0 st) as [[pt st']|e] eqn:E; cbn [rbind fst snd] in H; [|discriminate]. destruct (mrun fuel P S l ls st') as [pts'|e] eqn:E'; cbn [rbind] in H; [|discriminate]. injection H as <-.
    destruct (mtries_grow P S lcur l fuel 0 st pt st' Hgl I E) as (I' & El & (set & k & x & Ws & Cs & Es) & We & Wn). destruct (IH l st' pts' Hgl I' E') as (sets & Ls & A & B & C).
    exists (set :: sets). split; [cbn; lia|]. split; [|split].
    + intros [|j] Hj; cbn [nth]; auto. intros i Hi. apply (A j ltac:(cbn in Hj; lia)). apply We. auto.
    + intros [|j] Hj; cbn [nth]; [split; auto; exists k, x; rewrite El; auto|apply B; cbn in Hj; lia].
    + intros [|j] [|j'] i Hj Hj' W Nz; try lia; cbn [nth] in *.
      * apply (A j' ltac:(cbn in Hj'; lia)). apply (Wn W). apply nth_nonzeros. auto.
      * apply (C j j' i); auto; cbn in Hj'; lia.
Qed.
Lemma main_grow : forall fuel P S enet null lag0 lseq out, grad_lengths P -> length null = mp_size P -> mp_main fuel P S enet null lag0 lseq = Ok out -> candidates_grow P S (mo_points out).
Proof.
  intros fuel P S enet null lag0 [|l0 [|l1 ls]] out G L E; try discriminate. unfold mp_main in E. cbn [tl] in E. destruct (mrun fuel P S l0 (l1 :: ls) _) as [pts|e] eqn:Er; cbn [rbind] in E; [|discriminate]. injection E as <-. cbn [mo_points].
  destruct (mrun_grow P S fuel _ _ _ pts G (inv_start P (enet_access lag0 enet) null 0 G L) Er) as (sets & A & _ & B & C). exists sets. auto.
Qed.
(** ** Counts and deviance ratios *)
Lemma main_df : forall fuel P S enet null lag0 lseq out, mp_main fuel P S enet null lag0 lseq = Ok out ->
  mo_df out = length (filter (fun b => b) (initial_active P)) :: repeat (mp_size P) (length (mo_points out)).
Proof.
  intros fuel P S enet null lag0 [|l0 [|l1 ls]] out E; try discriminate. unfold mp_main in E. destruct (mrun _ _ _ _ _ _) as [pts|e]; cbn [rbind] in E; [|discriminate]. injection E as <-. cbn [mo_df mo_points]. f_equal.
  induction pts as [|a pts IH]; cbn; auto. f_equal. auto.
Qed.
Lemma max_ge : forall l d a, In a l -> a <= fold_right Rmax d l.
Proof. induction l as [|b l IH]; intros d a H; [contradiction|]. cbn. destruct H as [<-|H]; [apply Rmax_l|apply Rle_trans with (fold_right Rmax d l); auto; apply Rmax_r]. Qed.
Lemma max_in : forall l d, In (fold_right Rmax d l) (d :: l).
Proof.
  induction l as [|b l IH]; intros d; [left; auto|]. cbn [fold_right]. destruct (Rle_dec b (fold_right Rmax d l)); [rewrite Rmax_right by auto|rewrite Rmax_left by lra; right; left; auto]. destruct (IH d) as [H|H]; [left; auto|right; right; auto].
Qed.
Lemma devratio_range : forall o, o <> [] -> Forall (fun a => 0 < a) o -> length (devratio o) = length o /\ Forall (fun d => 0 <= d < 1) (devratio o) /\ In 0 (devratio o) /\
  forall i j, (i < length o)%nat -> (j < length o)%nat -> nth i o 0 <= nth j o 0 -> nth j (devratio o) 0 <= nth i (devratio o) 0.
Proof.
  intros o Ne F. unfold devratio. set (M := fold_right Rmax (hd 0 o) o). rewrite Forall_forall in F.
  assert (Mi : In M o). { destruct (max_in o (hd 0 o)) as [H|H]; [|exact H]. unfold M. rewrite <- H. destruct o; [contradiction|left; auto]. }
  assert (Mp := F M Mi). assert (Mg : forall a, In a o -> a <= M) by (intros; apply max_ge; auto). split; [apply map_length|]. split; [|split].
  - apply Forall_forall. intros d Hd. apply in_map_iff in Hd. destruct Hd as (a & <- & Ha). specialize (F a Ha). specialize (Mg a Ha). assert (a / M <= 1) by (apply Rmult_le_reg_r with M; auto; unfold Rdiv; rewrite Rmult_assoc, Rinv_l by lra; lra). assert (0 < a / M) by (apply Rdiv_lt_0_compat; auto). lra.
  - apply in_map_iff. exists M. split; auto. field. lra.
  - intros i j Hi Hj H. set (D := fun a => 1 - a / M). rewrite (nth_indep (map D o) 0 (D 0)) by (rewrite map_length; auto). rewrite (nth_indep (map D o) 0 (D 0) (n := i)) by (rewrite map_length; auto). rewrite !map_nth. unfold D. assert (nth i o 0 / M <= nth j o 0 / M) by (apply Rmult_le_compat_r; auto; apply Rlt_le, Rinv_0_lt_compat; auto). lra.
Qed.

(** Unpenalized features in strong_rules; BASIL. *)
From Coq Require Import Reals List Lra Lia Arith Bool.
From Verif Require Import M_affine SpecAffine P_affine P_affine2 M_loss SpecLoss SpecSmooth P_smooth Vec Spec SpecConvex M_quad M_prox M_semi M_weighted P_quad P_calc P_sep P_feas M_problem M_cv SpecCv P_cv M_path SpecPath P_path P_path2 P_path3 P_path4.
From Verif Require P_buffer P_separable.
Import ListNotations.
Local Open Scope R_scope.

(** ** by default strong_rules never solves for an unpenalized feature *)
Section Path.
Variable P : lpath.
Let p := lp_size P.
Let w := lp_weights P.
Definition no_free (st : pstate) : Prop := (forall j, In j (s_set st) -> nth j w 0 <> 0) /\ forall j, nth j (s_fail st) false = true -> nth j w 0 <> 0.
Lemma failing_penalized : forall w' g s lam i, nth i (failing false w' g s lam) false = true -> nth i w' 0 <> 0.
Proof.
  intros w' g s lam i H. destruct (Nat.lt_ge_cases i (length s)) as [Hi|Hi]; [|rewrite nth_overflow in H by (rewrite failing_length; auto); discriminate].
  rewrite failing_nth in H by auto. cbn in H. apply gtb_true in H. unfold inactive_term in H. destruct (gtb (nth i w' 0) 0) eqn:G; [apply gtb_true in G; lra|]. rewrite andb_false_r in H. unfold kkt_tol in H. lra.
Qed.
Lemma next_penalized : forall st, no_free st -> forall j, In j (union p (s_set st) (picked (s_fail st))) -> nth j w 0 <> 0.
Proof. intros st (A & B) j Hj. apply union_In in Hj. destruct Hj as (_ & [Hj|Hj]); auto. apply picked_in in Hj. apply B. tauto. Qed.
Lemma try_penalized : forall S lcur lnew st ok sub linpred st1, no_free st -> try_once P S false lcur lnew st = (ok, sub, linpred, st1) -> no_free st1.
Proof.
  intros S lcur lnew st ok sub linpred st1 NF E. assert (N := next_penalized st NF). unfold try_once in E. fold p in E. set (set := union p (s_set st) (picked (s_fail st))) in *. set (b := S (s_calls st) (s_sol st) set lnew) in *. set (lp := mat_tvec _ _ b) in *. set (sol := M_affine.scatter set b (s_sol st)) in *. set (strong := picked (strong_mask (lp_weights P) (s_gsol st) (lcur * lp_alpha P) (lnew * lp_alpha P))) in *.
  set (sf := failing false _ _ _ _) in E. assert (Lsf : length sf = length strong) by (unfold sf; rewrite failing_length; unfold gather; apply map_length).
  destruct (existsb (fun b0 => b0) sf) eqn:Ef; injection E as <- <- <- <-; split; cbn [s_set s_fail]; auto.
  - intros j H. destruct (Nat.lt_ge_cases j p) as [Hj|Hj]; [|rewrite nth_overflow in H by (rewrite map_length, seq_length; auto); discriminate]. rewrite (nth_map_seq bool (fun j => nth j (s_fail st) false || mem j (map fst (filter snd (combine strong sf))))) in H by auto. apply orb_true_iff in H as [H|H]; [apply NF; auto|].
    apply P_separable.mem_In, in_map_iff in H. destruct H as ((j' & b') & <- & H). apply filter_In in H. destruct H as (H & Hb). cbn [fst snd] in *. subst b'. apply (In_nth _ _ (0%nat, false)) in H. destruct H as (i & Hi & Ei). rewrite combine_length, Lsf, Nat.min_id in Hi. rewrite combine_nth in Ei by auto. injection Ei as <- Ei. apply failing_penalized in Ei.
    unfold gather in Ei. rewrite (nth_indep _ 0 ((fun k => nth k (lp_weights P) 0) 0%nat)) in Ei by (rewrite map_length; auto). rewrite (map_nth (fun k => nth k (lp_weights P) 0)) in Ei. exact Ei.
  - intros j H. apply failing_penalized in H. exact H.
Qed.
Lemma tries_penalized : forall S max_tries lcur lnew fuel num st pt st', no_free st -> tries fuel P S false max_tries lcur lnew num st = Ok (pt, st') -> no_free st' /\ forall j, In j (pt_set pt) -> nth j w 0 <> 0.
Proof.
  intros S max_tries lcur lnew. induction fuel as [|fuel IH]; intros num st pt st' NF E; [discriminate|]. cbn [tries] in E. destruct (try_once P S false lcur lnew st) as [[[ok sub] linpred] st1] eqn:T. assert (N1 := try_penalized _ _ _ _ _ _ _ _ NF T).
  destruct ok; [apply Ok_inj in E; injection E as <- <-; split; auto; apply N1|]. destruct (Nat.eqb (Datatypes.S num mod 5) 0); cbn [andb] in E; [destruct (Nat.leb max_tries (Datatypes.S num)); [apply Ok_inj in E; injection E as <- <-; split; [exact N1|apply N1]|]|].
  all: apply IH in E; auto; split; cbn [s_set s_fail]; [|apply N1]; intros j Hj; apply (next_penalized st1 N1 j); exact Hj.
Qed.
Theorem never_free : forall S max_tries fuel ls lcur st pts, no_free st -> run_path fuel P S false max_tries lcur ls st = Ok pts -> Forall (fun pt => forall j, In j (pt_set pt) -> nth j w 0 <> 0) pts.
Proof.
  intros S max_tries fuel. induction ls as [|l ls IH]; intros lcur st pts NF E; cbn [run_path] in E; [apply Ok_inj in E; subst; constructor|].
  destruct (tries fuel P S false max_tries lcur l 0 st) as [[pt st']|e] eqn:T; [|discriminate]. cbn [rbind fst snd] in E. destruct (run_path fuel P S false max_tries l ls st') as [pts'|e] eqn:E'; [|discriminate]. cbn [rbind] in E. apply Ok_inj in E. subst pts.
  destruct (tries_penalized _ _ _ _ _ _ _ _ _ NF T) as (NF' & A). constructor; eauto.
Qed.
Lemma start_free : forall sol g, no_free (start_state P sol g).
Proof. intros sol g. split; cbn; [tauto|]. intros j H. rewrite nth_repeat in H. discriminate. Qed.
End Path.

(** ** positions in a decreasing sequence *)
Lemma decreasing_tail : forall a l, decreasing (a :: l) -> decreasing l.
Proof. intros a l D i j H. apply (D (S i) (S j)). cbn. lia. Qed.
Lemma decreasing_firstn : forall k l, decreasing l -> decreasing (firstn k l).
Proof.
  intros k l D i j H. rewrite firstn_length in H. assert (N : forall n, (n < k)%nat -> nth n (firstn k l) 0 = nth n l 0). { clear. revert l. induction k as [|k IH]; intros l n Hn; [lia|]. destruct l as [|a l]; [destruct n; auto|]. destruct n; cbn; auto. apply IH. lia. }
  rewrite !N by lia. apply D. lia.
Qed.
Lemma minimum_last : forall l a, decreasing (l ++ [a]) -> minimum (l ++ [a]) = a.
Proof.
  induction l as [|b l IH]; intros a D; [reflexivity|]. assert (T := IH a (decreasing_tail _ _ D)). assert (H := D 0%nat (S (length l)) ltac:(cbn [app length]; rewrite app_length; cbn; lia)). cbn [nth app] in H. rewrite app_nth2, Nat.sub_diag in H by lia. cbn in H.
  cbn [app minimum]. destruct (l ++ [a]) as [|c r] eqn:E; [destruct l; discriminate|]. rewrite T. apply Rmin_right. lra.
Qed.
Lemma filter_all : forall (A : Type) (q : A -> bool) l, (forall a, In a l -> q a = true) -> filter q l = l.
Proof. intros A q. induction l as [|a l IH]; intros H; cbn; auto. rewrite (H a) by (left; auto). f_equal. apply IH. intros b Hb. apply H. right. auto. Qed.
Lemma start_position : forall l k, decreasing l -> (k <= length l)%nat -> basil_start l (firstn k l) = k.
Proof.
  intros l k D Hk. unfold basil_start. destruct k as [|k]; [reflexivity|]. assert (S1 : firstn (S k) l = firstn k l ++ [nth k l 0]).
  { clear D. revert l Hk. induction k as [|k IH]; intros [|a l] Hk; cbn [length] in Hk; try lia; [reflexivity|]. rewrite firstn_cons, IH by lia. reflexivity. }
  assert (Mn : minimum (firstn (S k) l) = nth k l 0) by (rewrite S1; apply minimum_last; rewrite <- S1; apply decreasing_firstn; auto). rewrite Mn. destruct (firstn (S k) l) as [|b r] eqn:Ef; [destruct (firstn k l); discriminate|]. rewrite <- Ef in *. clear b r Ef.
  set (q := fun a => if Rle_dec (nth k l 0) a then true else false). rewrite <- (firstn_skipn (S k) l). rewrite filter_app, app_length.
  assert (F1 : filter q (firstn (S k) l) = firstn (S k) l). { apply filter_all. intros a Ha. apply (In_nth _ _ 0) in Ha. destruct Ha as (i & Hi & <-). assert (N : nth i (firstn (S k) l) 0 = nth i l 0). { rewrite <- (firstn_skipn (S k) l) at 2. rewrite app_nth1; auto. } rewrite N. rewrite firstn_length in Hi. unfold q. destruct (Rle_dec _ _) as [|C]; auto. exfalso. destruct (Nat.eq_dec i k) as [->|]; [lra|]. assert (X := D i k ltac:(lia)). lra. }
  assert (F2 : filter q (skipn (S k) l) = []). { destruct (filter q (skipn (S k) l)) as [|a r'] eqn:Er; auto. exfalso. assert (Ha : In a (filter q (skipn (S k) l))) by (rewrite Er; left; auto). apply filter_In in Ha. destruct Ha as (Ha & Q). apply (In_nth _ _ 0) in Ha. destruct Ha as (i & Hi & <-). assert (N : nth i (skipn (S k) l) 0 = nth (S k + i) l 0). { rewrite <- (firstn_skipn (S k) l) at 2. rewrite app_nth2; rewrite firstn_length_le by lia; [f_equal; lia|lia]. } rewrite N in Q. rewrite skipn_length in Hi. unfold q in Q. assert (X := D k (S k + i)%nat ltac:(lia)). destruct (Rle_dec _ _); [lra|discriminate]. }
  rewrite F1, F2, firstn_length. cbn [length]. lia.
Qed.

(** ** BASIL *)
Section Basil.
Variable P : lpath.
Hypothesis GP : good_path P.
Let p := lp_size P.
Let w := lp_weights P.
Variable S : solver.
Hypothesis RS : right_size S.
Lemma values_spec : forall set ls sol grad calls out g f c, index_set p set -> length sol = p -> (forall j, ~ In j set -> nth j sol 0 = 0) -> basil_values P S false set sol grad calls ls = (out, g, f, c) ->
  map fst out = firstn (length out) ls /\ (f = None -> length out = length ls) /\ Forall (fun r => exists k v, snd r = embed p set (S k v set (fst r)) /\ inactive_passes (checked P (fst r) (snd r))) out /\
  (forall fail, f = Some fail -> length fail = p /\ existsb (fun b => b) fail = true /\ exists l k v, In l ls /\ let s := embed p set (S k v set l) in fail = failing false w (grad_at P l s) s (lp_alpha P * l)).
Proof.
  intros set ls. induction ls as [|l ls IH]; intros sol grad calls out g f c I Ls Z E; cbn [basil_values] in E; [injection E as <- <- <- <-; repeat split; auto; discriminate|].
  set (b := S calls sol set l) in *. assert (Lb : length b = length set) by apply RS. assert (Sol : M_affine.scatter set b sol = embed p set b) by (apply (scatter_embed P); auto). rewrite Sol in E. rewrite (lin_embed P GP set b I Lb) in E. fold p in E. set (s1 := embed p set b) in *.
  assert (L1 : length s1 = p) by apply (embed_length P). set (fail := failing false (lp_weights P) _ s1 _) in E. destruct (existsb (fun b0 => b0) fail) eqn:Ef.
  - injection E as <- <- <- <-. cbn [map length firstn]. repeat split; auto; [discriminate| | |]; injection H as <-; [unfold fail; rewrite failing_length; auto|auto|]. exists l, calls, sol. split; [left; auto|]. reflexivity.
  - destruct (basil_values P S false set s1 _ (Datatypes.S calls) ls) as [[[out' g'] f'] c'] eqn:E'. injection E as <- <- <- <-. apply IH in E'; auto; [|intros j Nj; apply (embed_outside P); auto]. destruct E' as (A & B & C & D). split; [cbn; f_equal; auto|]. split; [intros H; cbn; rewrite B; auto|]. split.
    + constructor; auto. exists calls, sol. cbn [fst snd]. split; [reflexivity|]. exact (proj1 (none_failing _ _ _ _ _ Ef)).
    + intros fl Hf. destruct (D fl Hf) as (D1 & D2 & l' & k & v & D3 & D4). split; auto. split; auto. exists l', k, v. split; [right; auto|auto].
Qed.
Lemma set_spec : forall nvar sol grad ls cand, index_set p (basil_set P nvar sol grad ls cand) /\ (forall j, (j < p)%nat -> nth j w 0 = 0 -> In j (basil_set P nvar sol grad ls cand)) /\ (forall j, In j cand -> (j < p)%nat -> In j (basil_set P nvar sol grad ls cand)).
Proof.
  intros nvar sol grad ls cand. unfold basil_set. fold p. split; [apply union_index|]. split; intros j Hj H; apply union_In; (split; [auto|]); [|auto]. left. apply union_In. split; auto. right. unfold unpenalized. apply filter_In. split; [apply in_seq; fold p; lia|]. apply is0_true. exact H.
Qed.
Definition start_sol (sol : vec) : Prop := length sol = p /\ forall j, nth j w 0 <> 0 -> nth j sol 0 = 0.
Lemma start_zero : forall sol nvar grad ls cand, start_sol sol -> forall j, ~ In j (basil_set P nvar sol grad ls cand) -> nth j sol 0 = 0.
Proof. intros sol nvar grad ls cand (L & Z) j Nj. destruct (Nat.lt_ge_cases j p) as [Hj|Hj]; [|apply nth_overflow; lia]. destruct (Req_EM_T (nth j w 0) 0) as [E|E]; [|auto]. exfalso. apply Nj. destruct (set_spec nvar sol grad ls cand) as (_ & U & _). auto. Qed.
Lemma inner_spec : forall nvar sol grad calls ls cand out g cand' c, start_sol sol -> index_set p cand -> basil_inner P S false nvar sol grad calls ls cand = (out, g, cand', c) ->
  index_set p cand' /\ map fst out = firstn (length out) ls /\ Forall (fun r => basil_point P S (fst r) (snd r)) out /\
  (out = [] -> ls <> [] -> exact_solver P S -> Forall (fun l => 0 < l) ls -> (length cand < length cand')%nat).
Proof.
  intros nvar sol grad calls ls cand out g cand' c SS Ic E. unfold basil_inner in E. set (set := basil_set P nvar sol grad ls cand) in *. destruct (set_spec nvar sol grad ls cand) as (Is & Iu & Icd). fold set in Is, Iu, Icd.
  destruct (basil_values P S false set sol grad calls ls) as [[[out' g'] f] c'] eqn:V. injection E as <- <- <- <-. destruct (values_spec set ls sol grad calls out' g' f c' Is (proj1 SS) (start_zero sol nvar grad ls cand SS) V) as (A & B & C & D).
  split; [|split; [exact A|split]].
  - fold p. destruct f as [fail|]; [apply union_index|]. assert (X : forall (o : list (R * vec)) e, index_set p e -> index_set p (fold_left (fun e r => union p e (active_set (snd r))) o e)). { clear. induction o as [|r o IH]; intros e He; cbn; auto. apply IH. apply union_index. } apply X. unfold unpenalized. fold p. split; [apply NoDup_filter, seq_NoDup|]. apply Forall_forall. intros j Hj. apply filter_In in Hj. destruct Hj as (Hj & _). apply in_seq in Hj. lia.
  - apply Forall_impl with (2 := C). intros r (k & v & Er & Pr). exists set, k, v. auto.
  - intros E0 Nl XS Pl. subst out'. destruct f as [fail|]; [|specialize (B eq_refl); destruct ls; [tauto|discriminate]]. destruct (D fail eq_refl) as (Lf & Ef & l & k & v & Hl & Fl). apply existsb_true in Ef. destruct Ef as (j & Hj & Fj). rewrite Lf in Hj. rewrite Forall_forall in Pl. specialize (Pl l Hl). assert (So := XS k v set l Is Pl).
    set (sub := S k v set l) in *. set (s := embed p set sub) in *. assert (Nj : ~ In j set). { rewrite Fl in Fj. apply (failing_outside P GP false l set sub w (grad_at P l s) s j j); auto. unfold s. rewrite (embed_length P). exact Hj. }
    fold p. apply (index_mono p); auto; [apply union_index| |].
    + intros i Hi. assert (Hp : (i < p)%nat) by (destruct Ic as (_ & F); rewrite Forall_forall in F; auto). apply union_In. split; auto. left. apply union_In. split; auto.
    + exists j. split; [apply union_In; split; auto; right; apply picked_in; rewrite Lf; auto|]. intros Hc. apply Nj. apply Icd; auto.
Qed.
Lemma firstn_more : forall (l : list R) k n, firstn k l ++ firstn n (skipn k l) = firstn (k + n) l.
Proof. induction l as [|a l IH]; intros [|k] n; cbn; auto; [rewrite firstn_nil; auto|]. f_equal. apply IH. Qed.
Theorem loop_spec : forall nvar step lseq sol, decreasing lseq -> (0 < step)%nat -> start_sol sol -> forall fuel grad done cand calls res, index_set p cand -> map fst done = firstn (length done) lseq -> Forall (fun r => basil_point P S (fst r) (snd r)) done ->
  basil_loop fuel P S false nvar step lseq sol grad done cand calls = Ok res -> map fst res = lseq /\ Forall (fun r => basil_point P S (fst r) (snd r)) res.
Proof.
  intros nvar step lseq sol D Hs SS. induction fuel as [|fuel IH]; intros grad done cand calls res Ic A B E; [discriminate|]. cbn [basil_loop] in E.
  assert (Ld : (length done <= length lseq)%nat). { assert (X := f_equal (@length R) A). rewrite map_length, firstn_length in X. lia. }
  rewrite A, start_position in E by auto. destruct (firstn step (skipn (length done) lseq)) as [|l ls] eqn:El.
  - apply Ok_inj in E. subst res. split; auto. rewrite A. apply firstn_all2. destruct step; [lia|]. destruct (skipn (length done) lseq) eqn:Es; [|discriminate]. apply (f_equal (@length R)) in Es. rewrite skipn_length in Es. cbn in Es. lia.
  - destruct (basil_inner P S false nvar sol grad calls (l :: ls) cand) as [[[out g] cand'] c] eqn:Ei. destruct (inner_spec _ _ _ _ _ _ _ _ _ _ SS Ic Ei) as (Ic' & A' & B' & _). apply IH in E; auto; [|apply Forall_app; auto].
    rewrite map_app, app_length, A, A', <- firstn_more. f_equal. rewrite <- El. rewrite firstn_firstn. f_equal. assert (X := f_equal (@length R) A'). rewrite map_length, firstn_length in X. rewrite <- El, firstn_length in X. lia.
Qed.
Theorem loop_ends : forall nvar step lseq sol, decreasing lseq -> Forall (fun l => 0 < l) lseq -> (0 < step)%nat -> start_sol sol -> exact_solver P S -> forall fuel grad done cand calls, index_set p cand -> map fst done = firstn (length done) lseq ->
  ((length lseq - length done) * (p + 2) + (p + 1 - length cand) < fuel)%nat -> exists res, basil_loop fuel P S false nvar step lseq sol grad done cand calls = Ok res.
Proof.
  intros nvar step lseq sol D Pl Hs SS XS. induction fuel as [|fuel IH]; intros grad done cand calls Ic A Hf; [exfalso; exact (Nat.nlt_0_r _ Hf)|]. cbn [basil_loop].
  assert (Ld : (length done <= length lseq)%nat). { assert (X := f_equal (@length R) A). rewrite map_length, firstn_length in X. lia. }
  rewrite A, start_position by auto. destruct (firstn step (skipn (length done) lseq)) as [|l ls] eqn:El; [eexists; reflexivity|].
  assert (Hlt : (length done < length lseq)%nat). { apply (f_equal (@length R)) in El. rewrite firstn_length, skipn_length in El. cbn in El. lia. }
  destruct (basil_inner P S false nvar sol grad calls (l :: ls) cand) as [[[out g] cand'] c] eqn:Ei. destruct (inner_spec _ _ _ _ _ _ _ _ _ _ SS Ic Ei) as (Ic' & A' & B' & G).
  assert (Lc := index_size p cand Ic). assert (Lc' := index_size p cand' Ic'). apply IH; auto.
  - rewrite map_app, app_length, A, A', <- firstn_more. f_equal. rewrite <- El. rewrite firstn_firstn. f_equal. assert (X := f_equal (@length R) A'). rewrite map_length, firstn_length in X. rewrite <- El, firstn_length in X. lia.
  - rewrite app_length. destruct out as [|r out].
    + assert (X : (length cand < length cand')%nat). { apply G; auto; [discriminate|]. rewrite <- El. apply Forall_forall. intros a Ha. rewrite Forall_forall in Pl. apply Pl. rewrite <- (firstn_skipn (length done) lseq). apply in_or_app. right. rewrite <- (firstn_skipn step (skipn (length done) lseq)). apply in_or_app. left. auto. } cbn [length]. rewrite Nat.add_0_r. lia.
    + cbn [length]. assert (X : (length lseq - (length done + Datatypes.S (length out)) <= length lseq - length done - 1)%nat) by lia. assert (Y : ((length lseq - length done - 1) * (p + 2) + (p + 2) = (length lseq - length done) * (p + 2))%nat) by (rewrite <- Nat.mul_succ_l; f_equal; lia). assert (Zm := Nat.mul_le_mono_r _ _ (p + 2) X). lia.
Qed.
End Basil.

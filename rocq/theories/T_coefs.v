(** C101: what solve returns, where a problem starts, and what later calls do to both. *)
From Coq Require Import Reals List Lia Lra.
From Verif Require Import Vec Spec M_buffer M_fista M_coefs SpecCoefs P_coefs.
Import ListNotations.
Local Open Scope R_scope.

(** Whatever was done before, problem.coefs[:] = v followed by problem.solve() is the run that starts at v, and without the assignment
    the run that starts at the present problem.coefs. *)
Theorem C101_value : forall w p f, reachable w -> w_env w (SProb p) <> None ->
  content (step w (Solve p f)) (SProb p) = last_kept (content w (SProb p)) (f (content w (SProb p))) /\
  forall v, content (run w [Assign p v; Solve p f]) (SProb p) = last_kept v (f v).
Proof. intros w p f H B. split; [exact (solve_value w p f H B)|intros v; exact (warm_value w p v f H B)]. Qed.
Print Assumptions C101_value.
(** A problem with a new penalty starts at the initial value of the penalty. *)
Theorem C101_start : forall w a v p l, content (run w [NewAtom a v; NewProblem p l a]) (SProb p) = v.
Proof. exact new_start. Qed.
Print Assumptions C101_start.
(** The array solve returns keeps the solution for ever, whatever is done with this or other losses, penalties and problems, as long as
    nobody writes problem.coefs[:] = v for this problem or gives its penalty to another problem. *)
Theorem C101_kept_partial : forall w p f l r, reachable w -> w_env w (SProb p) <> None -> keeps_one (f (content w (SProb p))) ->
  returned (step w (Solve p f)) (Solve p f) = Some r -> Forall (leaves p (w_patom w p)) l ->
  read (w_heap (run (step w (Solve p f)) l)) r = last_kept (content w (SProb p)) (f (content w (SProb p))).
Proof. exact solve_kept. Qed.
Print Assumptions C101_kept_partial.
(** For FISTA itself: the array holds the coefficients the algorithm ends with. A run that returns always takes its first step, so the
    array is a new one. *)
Theorem C101_fista_partial : forall w p loops fuel P C old att s' l r,
  let f := fun x => fit_log loops fuel P C (fista_start P C x old att) in
  reachable w -> w_env w (SProb p) <> None -> fit loops fuel P C (content w (SProb p)) old att = Ok s' ->
  returned (step w (Solve p f)) (Solve p f) = Some r -> Forall (leaves p (w_patom w p)) l ->
  read (w_heap (run (step w (Solve p f)) l)) r = s_coefs s'.
Proof. exact fista_solve. Qed.
Print Assumptions C101_fista_partial.
(** Paths, cross-validation and the scikit-learn estimators: any number of fits of the same loss, each with a new penalty, do not
    disturb each other. *)
Theorem C101_fits : forall l js i w, reachable w -> (forall x f, In (x, f) js -> keeps_one (f x)) ->
  forall j x f, nth_error js j = Some (x, f) -> content (run w (fits l i js)) (SProb (i + j)) = last_kept x (f x).
Proof. exact fits_all. Qed.
Print Assumptions C101_fits.
(** quasi_newton.solve computes its iteration although it shares its arrays with the inner problem, the loss and the penalty. *)
Theorem C101_newton : forall w k its, reachable w -> w_env w (SInner k) <> None -> w_env w (SQn k) <> None -> its <> [] ->
  content (step w (QnSolve k its)) (SQn k) = qn_result (content w (SQn k)) its.
Proof. exact qn_value. Qed.
Print Assumptions C101_newton.

(** problem.coefs[:] = v, the way to choose a start, overwrites the solution an earlier solve of the problem returned. *)
Theorem C101_assign_refuted : forall w p f r v, reachable w -> w_env w (SProb p) <> None -> returned (step w (Solve p f)) (Solve p f) = Some r ->
  read (w_heap (run w [Solve p f; Assign p v])) r = v.
Proof. exact assign_overwrites. Qed.
Print Assumptions C101_assign_refuted.
(** A second problem with the same penalty starts at the last point the first run tried, kept or not. *)
Theorem C101_shared_start_refuted : forall w p f xs x b q l, reachable w -> w_env w (SProb p) <> None -> f (content w (SProb p)) = xs ++ [(x, b)] ->
  content (run w [Solve p f; NewProblem q l (w_patom w p)]) (SProb q) = x.
Proof. exact shared_start. Qed.
Print Assumptions C101_shared_start_refuted.
(** When that point was kept (the run used up max_its), choosing a start for the second problem overwrites the solution of the first. *)
Theorem C101_shared_penalty_refuted : forall w p f xs x q l v r, reachable w -> w_env w (SProb p) <> None -> f (content w (SProb p)) = xs ++ [(x, true)] ->
  returned (step w (Solve p f)) (Solve p f) = Some r ->
  read (w_heap (run w [Solve p f; NewProblem q l (w_patom w p)])) r = x /\
  read (w_heap (run w [Solve p f; NewProblem q l (w_patom w p); Assign q v])) r = v.
Proof. exact shared_overwrites. Qed.
Print Assumptions C101_shared_penalty_refuted.
(** The iterations of an admm_problem with the loss of a problem move the start of the problem. *)
Theorem C101_admm_refuted : forall w p l a k v, reachable w -> w_env w (SAtom a) <> None ->
  content (run w [NewProblem p l a; NewAdmm k l; AdmmUpdate k v]) (SProb p) = v.
Proof. exact admm_moves_start. Qed.
Print Assumptions C101_admm_refuted.
(** A second quasi_newton.solve that converges in its first step returns the same array as the first, with the solution overwritten. *)
Theorem C101_newton_refuted : forall w k its r f, reachable w -> w_env w (SInner k) <> None -> w_env w (SQn k) <> None ->
  returned (step w (QnSolve k its)) (QnSolve k its) = Some r -> its <> [] ->
  returned (run w [QnSolve k its; QnSolve k [(f, None)]]) (QnSolve k [(f, None)]) = Some r /\
  read (w_heap (step w (QnSolve k its))) r = qn_result (content w (SQn k)) its /\
  read (w_heap (run w [QnSolve k its; QnSolve k [(f, None)]])) r = last_kept (qn_result (content w (SQn k)) its) (f (qn_result (content w (SQn k)) its)).
Proof. exact qn_overwrites. Qed.
Print Assumptions C101_newton_refuted.

(** A program that meets the hypotheses: one loss, two penalties, two problems; the run takes two points and rejects a third. *)
Definition try3 : proposals := fun x => [(vadd x [1; 1], true); (vadd x [2; 2], true); (vadd x [3; 3], false)].
Definition world1 : world := run empty_world [NewLoss 0 2; NewAtom 0 [0; 0]; NewProblem 0 0 0; NewAtom 1 [5; 5]; NewProblem 1 0 1].
Example world1_meets : reachable world1 /\ w_env world1 (SProb 0) <> None /\ keeps_one (try3 (content world1 (SProb 0))) /\
  exists r, returned (step world1 (Solve 0 try3)) (Solve 0 try3) = Some r /\
  Forall (leaves 0 (w_patom world1 0)) [Solve 0 try3; Assign 1 [7; 7]; Solve 1 try3; NewAdmm 0 0; AdmmUpdate 0 [9; 9]].
Proof.
  split; [eexists; reflexivity|]. split; [cbn; discriminate|]. split; [eexists; left; reflexivity|]. exists 4%nat. split; [reflexivity|].
  repeat constructor. cbn. lia.
Qed.
Example world1_shared : try3 (content world1 (SProb 0)) = [(vadd [0; 0] [1; 1], true); (vadd [0; 0] [2; 2], true)] ++ [(vadd [0; 0] [3; 3], false)] /\
  content (run world1 [Solve 0 try3; NewProblem 2 0 0]) (SProb 2) = vadd [0; 0] [3; 3].
Proof. split; reflexivity. Qed.
Definition world2 : world := run empty_world [NewLoss 0 2; NewAtom 0 [0; 0]; NewQn 0 0 0].
Example world2_meets : reachable world2 /\ w_env world2 (SInner 0) <> None /\ w_env world2 (SQn 0) <> None /\
  qn_result (content world2 (SQn 0)) [(try3, Some (fun x q => q)); (try3, None)] = vadd (vadd [0; 0] [2; 2]) [2; 2].
Proof. split; [eexists; reflexivity|]. split; [cbn; discriminate|]. split; [cbn; discriminate|]. reflexivity. Qed.
Definition flat : composite := mk_composite (fun _ => Fin 0) (fun x => map (fun _ => 0) x) (fun _ _ => Fin 0) (fun _ x _ => vadd x [1; 1]) 1.
Definition one_pass : params := mk_params None None (Some 1%nat) true 1 None false true false.
Example flat_meets : exists s', fit 2 1 one_pass flat (content world1 (SProb 0)) None false = Ok s' /\ s_coefs s' = vadd [0; 0] [1; 1].
Proof.
  unfold fit. cbn [fista_loop]. change (Nat.ltb (s_it (fista_start one_pass flat (content world1 (SProb 0)) None false)) (max_of one_pass)) with true. cbv iota.
  unfold iterate at 1. cbn [one_pass p_backtrack flat c_lipschitz]. destruct (Req_EM_T 1 0) as [K|_]; [exfalso; lra|]. cbn. eexists. split; reflexivity.
Qed.

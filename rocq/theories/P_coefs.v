From Coq Require Import Reals List Arith Bool Lia.
From Verif Require Import Vec Spec M_buffer M_fista P_fista P_fista2 M_coefs SpecCoefs.
Import ListNotations.
Local Open Scope R_scope.

Lemma length_write : forall h r v, length (write h r v) = length h.
Proof. induction h as [|a h IH]; intros [|r] v; cbn; auto. Qed.
Lemma read_write_same : forall h r v, (r < length h)%nat -> read (write h r v) r = v.
Proof. unfold read. induction h as [|a h IH]; intros [|r] v H; cbn in *; try lia; auto. apply IH. lia. Qed.
Lemma read_write_other : forall h r s v, r <> s -> read (write h r v) s = read h s.
Proof. unfold read. induction h as [|a h IH]; intros [|r] [|s] v H; cbn; auto; try congruence. Qed.
Lemma read_write_id : forall h r s, read (write h r (read h r)) s = read h s.
Proof.
  intros h r s. destruct (Nat.eq_dec r s) as [<-|N]; [|apply read_write_other; auto].
  destruct (Nat.lt_ge_cases r (length h)) as [L|G]; [apply read_write_same; auto|].
  unfold read. rewrite !nth_overflow; auto. rewrite length_write. auto.
Qed.
Lemma read_old : forall h v r, (r < length h)%nat -> read (h ++ [v]) r = read h r.
Proof. intros. unfold read. apply app_nth1; auto. Qed.
Lemma read_new : forall h v, read (h ++ [v]) (length h) = v.
Proof. intros. unfold read. rewrite app_nth2, Nat.sub_diag; auto. Qed.

Definition valid (w : world) : Prop := forall s r, w_env w s = Some r -> (r < length (w_heap w))%nat.
Lemma valid_new : forall w s v, valid w -> valid (bind_new w s v).
Proof. intros w s v V t r. unfold bind_new; cbn [w_env w_heap]. rewrite app_length; cbn [length]. destruct (slot_eq_dec t s); intros E; [injection E as <-; lia|apply V in E; lia]. Qed.
Lemma valid_bind : forall w s t, valid w -> valid (bind w s (w_env w t)).
Proof. intros w s t V u r. unfold bind; cbn [w_env w_heap]. destruct (slot_eq_dec u s); apply V. Qed.
Lemma valid_store : forall w s v, valid w -> valid (store w s v).
Proof. intros w s v V t r. unfold store. destruct (w_env w s); [cbn [w_env w_heap]; rewrite length_write|]; apply V. Qed.
Lemma valid_propose : forall a s x w, valid w -> valid (propose_atom a s w x).
Proof. intros a s x w V. unfold propose_atom. destruct (snd x); [apply valid_bind|]; apply valid_new; auto. Qed.
Lemma valid_run_simple : forall a s xs w, valid w -> valid (run_simple a s xs w).
Proof. unfold run_simple. induction xs as [|x xs IH]; intros w V; cbn; auto. apply IH, valid_propose; auto. Qed.
Lemma valid_smooth : forall s xs w, valid w -> valid (fold_left (propose_smooth s) xs w).
Proof.
  induction xs as [|x xs IH]; intros w V; cbn; auto. apply IH. unfold propose_smooth. destruct (snd x); [apply valid_new; auto|].
  intros t r E. cbn [w_env w_heap] in *. rewrite app_length. apply V in E. lia.
Qed.
Lemma valid_qn_inner : forall k w f, valid w -> valid (qn_inner k w f).
Proof. intros. apply valid_run_simple, valid_store; auto. Qed.
Lemma valid_qn_loop : forall k its w, valid w -> valid (qn_loop k w its).
Proof. induction its as [|[f [g|]] its IH]; intros w V; cbn [qn_loop]; auto; [apply IH, valid_new|]; apply valid_qn_inner; auto. Qed.
Lemma valid_set : forall w p q, valid w -> valid (mk_world (w_heap w) (w_env w) p q).
Proof. intros w p q V. exact V. Qed.
Lemma valid_step : forall w o, valid w -> valid (step w o).
Proof.
  intros w o V. destruct o; cbn [step]; try (apply valid_new; exact V); try (apply valid_store; exact V).
  - destruct (w_env w (SLoss l0)) eqn:E; auto. rewrite <- E. apply valid_bind; auto.
  - destruct (w_env w (SAtom a)) eqn:E; auto. intros u r0. cbn [bind w_env w_heap]. destruct (slot_eq_dec u (SProb p)); [intros [= <-]; eapply V; eauto|].
    destruct (slot_eq_dec u (SLoss l)); [intros [= <-]; eapply V; eauto|apply V].
  - destruct (w_env w (SProb p)); auto. apply valid_run_simple; auto.
  - destruct (w_env w (SLoss l)); auto. apply valid_smooth; auto.
  - destruct (w_env w (SLoss l)) eqn:E; auto. rewrite <- E. apply valid_bind; auto.
  - destruct (w_env w (SAtom a)) eqn:E; auto. intros u r0. cbn [bind w_env w_heap]. destruct (slot_eq_dec u (SInner k)); [intros [= <-]; eapply V; eauto|].
    destruct (slot_eq_dec u (SQn k)); [intros [= <-]; eapply V; eauto|]. destruct (slot_eq_dec u (SLoss l)); [intros [= <-]; eapply V; eauto|apply V].
  - destruct (w_env w (SQn k)); auto. destruct its; auto. apply valid_store, valid_qn_loop; auto.
Qed.
Lemma valid_run : forall l w, valid w -> valid (run w l).
Proof. unfold run. induction l as [|o l IH]; intros w V; cbn; auto. apply IH, valid_step; auto. Qed.
Lemma reachable_valid : forall w, reachable w -> valid w.
Proof. intros w [l ->]. apply valid_run. intros s r E. discriminate E. Qed.
Lemma reachable_run : forall w l, reachable w -> reachable (run w l).
Proof. intros w l [l0 ->]. exists (l0 ++ l). unfold run. rewrite fold_left_app. reflexivity. Qed.
Lemma reachable_step : forall w o, reachable w -> reachable (step w o).
Proof. intros w o H. apply (reachable_run w [o] H). Qed.

(** ** An array and the slots that may be bound to it *)
Definition holds (S : slot -> Prop) (r : ref) (v : vec) (w : world) : Prop :=
  (r < length (w_heap w))%nat /\ read (w_heap w) r = v /\ forall s, w_env w s = Some r -> S s.
Section Holds.
Context (S : slot -> Prop) (r : ref) (v : vec).
Lemma holds_new : forall w s x, holds S r v w -> holds S r v (bind_new w s x).
Proof.
  intros w s x (L & E & B). unfold holds, bind_new; cbn [w_env w_heap]. split; [rewrite app_length; lia|]. split; [rewrite read_old; auto|].
  intros t. destruct (slot_eq_dec t s); [intros [= K]; lia|apply B].
Qed.
Lemma holds_bind : forall w s q, holds S r v w -> q <> Some r -> holds S r v (bind w s q).
Proof. intros w s q (L & E & B) N. split; [exact L|]. split; [exact E|]. intros t. cbn [bind w_env]. destruct (slot_eq_dec t s); [contradiction|apply B]. Qed.
Lemma holds_store : forall w s x, holds S r v w -> ~ S s -> holds S r v (store w s x).
Proof.
  intros w s x (L & E & B) N. unfold store. destruct (w_env w s) as [q|] eqn:Q; [|split; auto].
  unfold holds; cbn [w_env w_heap]. rewrite length_write. split; auto. split; auto. rewrite read_write_other; auto. intros ->. auto.
Qed.
Lemma holds_propose : forall a s x w, holds S r v w -> holds S r v (propose_atom a s w x).
Proof.
  intros a s x w H. unfold propose_atom. destruct (snd x); [|apply holds_new; auto]. apply holds_bind; [apply holds_new; auto|].
  cbn [bind_new w_env]. destruct (slot_eq_dec (SAtom a) (SAtom a)); [|congruence]. intros [= K]. destruct H as (L & _). lia.
Qed.
Lemma holds_simple : forall a s xs w, holds S r v w -> holds S r v (run_simple a s xs w).
Proof. unfold run_simple. induction xs as [|x xs IH]; intros w H; cbn; auto. apply IH, holds_propose; auto. Qed.
Lemma holds_smooth : forall s xs w, holds S r v w -> holds S r v (fold_left (propose_smooth s) xs w).
Proof.
  induction xs as [|x xs IH]; intros w H; cbn; auto. apply IH. unfold propose_smooth. destruct (snd x); [apply holds_new; auto|].
  destruct H as (L & E & B). unfold holds; cbn [w_heap w_env]. rewrite app_length, read_old; auto. repeat split; auto. lia.
Qed.
Lemma holds_inner : forall k w f, holds S r v w -> ~ S (SInner k) -> holds S r v (qn_inner k w f).
Proof. intros. apply holds_simple, holds_store; auto. Qed.
Lemma holds_loop : forall k its w, holds S r v w -> ~ S (SInner k) -> holds S r v (qn_loop k w its).
Proof. induction its as [|[f [g|]] its IH]; intros w H N; cbn [qn_loop]; auto; [apply IH; auto; apply holds_new|]; apply holds_inner; auto. Qed.
End Holds.

Definition own (p a : nat) (s : slot) : Prop := s = SProb p \/ s = SAtom a.
Lemma holds_step : forall p a r v w o, holds (own p a) r v w -> leaves p a o -> holds (own p a) r v (step w o).
Proof.
  intros p a r v w o H N. destruct o; cbn [step leaves] in *; try (apply holds_new; exact H).
  - destruct (w_env w (SLoss l0)) eqn:E; auto. apply holds_bind; auto. intros [= ->]. apply H in E. destruct E; discriminate.
  - destruct (w_env w (SAtom a0)) eqn:E; auto.
    assert (K : Some r0 <> Some r) by (intros [= ->]; apply H in E; destruct E as [E|E]; [discriminate|congruence]).
    apply (holds_bind _ _ _ (bind w (SLoss l) (Some r0)) (SProb p0) (Some r0)); auto. apply holds_bind; auto.
  - apply holds_store; auto. intros [E|E]; [injection E as ->; congruence|discriminate].
  - destruct (w_env w (SProb p0)); auto. apply holds_simple; auto.
  - destruct (w_env w (SLoss l)); auto. apply holds_smooth; auto.
  - destruct (w_env w (SLoss l)) eqn:E; auto. apply holds_bind; auto. intros [= ->]. apply H in E. destruct E; discriminate.
  - apply holds_store; auto. intros [E|E]; discriminate.
  - destruct (w_env w (SAtom a0)) eqn:E; auto.
    assert (K : Some r0 <> Some r) by (intros [= ->]; apply H in E; destruct E as [E|E]; [discriminate|congruence]).
    apply (holds_bind _ _ _ (bind (bind w (SLoss l) (Some r0)) (SQn k) (Some r0)) (SInner k) (Some r0)); auto. apply holds_bind; auto. apply holds_bind; auto.
  - destruct (w_env w (SQn k)); auto. destruct its; auto. apply holds_store; [|intros [E|E]; discriminate]. apply holds_loop; auto. intros [E|E]; discriminate.
Qed.
Lemma holds_run : forall p a r v l w, holds (own p a) r v w -> Forall (leaves p a) l -> holds (own p a) r v (run w l).
Proof. unfold run. induction l as [|o l IH]; intros w H F; cbn; auto. inversion F; subst. apply IH; auto. apply holds_step; auto. Qed.

(** ** Values *)
Lemma env_new : forall w s v, w_env (bind_new w s v) s = Some (length (w_heap w)).
Proof. intros. cbn. destruct (slot_eq_dec s s); congruence. Qed.
Lemma env_new_other : forall w s t v, t <> s -> w_env (bind_new w s v) t = w_env w t.
Proof. intros. cbn. destruct (slot_eq_dec t s); congruence. Qed.
Lemma env_bind : forall w s q, w_env (bind w s q) s = q.
Proof. intros. cbn. destruct (slot_eq_dec s s); congruence. Qed.
Lemma env_bind_other : forall w s t q, t <> s -> w_env (bind w s q) t = w_env w t.
Proof. intros. cbn. destruct (slot_eq_dec t s); congruence. Qed.
(** reading through a slot that an operation does not bind *)
Lemma content_new_other : forall w s t v, valid w -> t <> s -> content (bind_new w s v) t = content w t.
Proof. intros w s t v V N. unfold content. rewrite env_new_other; auto. destruct (w_env w t) eqn:E; auto. cbn [bind_new w_heap]. rewrite read_old; eauto. Qed.
Lemma content_new : forall w s v, content (bind_new w s v) s = v.
Proof. intros. unfold content. rewrite env_new. apply read_new. Qed.
Definition not_atom (s : slot) : Prop := match s with SAtom _ => False | _ => True end.
Lemma simple_value : forall a s, not_atom s -> forall xs w, valid w -> content (run_simple a s xs w) s = last_kept (content w s) xs.
Proof.
  intros a s NA. unfold run_simple. induction xs as [|[x b] xs IH]; intros w V; cbn [fold_left last_kept]; auto.
  assert (N : s <> SAtom a) by (intros ->; exact NA).
  rewrite IH by (apply valid_propose; auto). unfold propose_atom; cbn [fst snd]. destruct b.
  - f_equal. unfold content. rewrite env_bind, env_new. cbn [bind bind_new w_heap]. apply read_new.
  - f_equal. apply content_new_other; auto.
Qed.
Lemma simple_other : forall a s t, t <> SAtom a -> t <> s -> forall xs w, valid w -> w_env (run_simple a s xs w) t = w_env w t /\ content (run_simple a s xs w) t = content w t.
Proof.
  intros a s t N1 N2. unfold run_simple. induction xs as [|[x b] xs IH]; intros w V; cbn [fold_left]; auto.
  destruct (IH (propose_atom a s w (x, b)) (valid_propose _ _ _ _ V)) as [E1 E2]. rewrite E1, E2. unfold propose_atom; cbn [fst snd]. destruct b.
  - unfold content. rewrite env_bind_other, env_new_other by auto. split; auto. destruct (w_env w t) eqn:E; auto. cbn [bind bind_new w_heap]. rewrite read_old; eauto.
  - rewrite env_new_other by auto. split; auto. apply content_new_other; auto.
Qed.
(** after a run that keeps a proposal the coefficients are an array of their own *)
Lemma simple_own : forall a p xs w, valid w ->
  (keeps_one xs \/ exists r, w_env w (SProb p) = Some r /\ forall s, w_env w s = Some r -> own p a s) ->
  exists r, w_env (run_simple a (SProb p) xs w) (SProb p) = Some r /\ forall s, w_env (run_simple a (SProb p) xs w) s = Some r -> own p a s.
Proof.
  intros a p. unfold run_simple. induction xs as [|[x b] xs IH]; intros w V H; cbn [fold_left].
  - destruct H as [[v []]|H]; exact H.
  - apply IH; [apply valid_propose; auto|]. unfold propose_atom; cbn [fst snd]. destruct b.
    + right. exists (length (w_heap w)). rewrite env_bind, env_new. split; auto. intros s. cbn [bind bind_new w_env].
      destruct (slot_eq_dec s (SProb p)) as [->|]; [left; auto|]. destruct (slot_eq_dec s (SAtom a)) as [->|]; [right; auto|]. intros E. apply V in E. lia.
    + destruct H as [[v [E|I]]|(r & E & B)]; [discriminate|left; exists v; auto|]. right. exists r. rewrite env_new_other by discriminate. split; auto.
      intros s. cbn [bind_new w_env]. destruct (slot_eq_dec s (SAtom a)) as [->|]; [right; auto|apply B].
Qed.
Lemma simple_patom : forall a s xs w, w_patom (run_simple a s xs w) = w_patom w /\ w_qatom (run_simple a s xs w) = w_qatom w.
Proof. unfold run_simple. induction xs as [|[x b] xs IH]; intros w; cbn [fold_left]; auto. destruct (IH (propose_atom a s w (x, b))) as [-> ->]. unfold propose_atom. destruct b; auto. Qed.

Lemma solve_value : forall w p f, reachable w -> w_env w (SProb p) <> None ->
  content (step w (Solve p f)) (SProb p) = last_kept (content w (SProb p)) (f (content w (SProb p))).
Proof. intros w p f H B. cbn [step]. destruct (w_env w (SProb p)) eqn:E; [|congruence]. apply simple_value; [exact I|apply reachable_valid; auto]. Qed.
Lemma content_read : forall w s r, w_env w s = Some r -> content w s = read (w_heap w) r.
Proof. intros w s r E. unfold content. rewrite E. reflexivity. Qed.
Lemma solve_kept : forall w p f l r, reachable w -> w_env w (SProb p) <> None -> keeps_one (f (content w (SProb p))) ->
  returned (step w (Solve p f)) (Solve p f) = Some r -> Forall (leaves p (w_patom w p)) l ->
  read (w_heap (run (step w (Solve p f)) l)) r = last_kept (content w (SProb p)) (f (content w (SProb p))).
Proof.
  intros w p f l r H B K R F. cbn [returned] in R. set (w1 := step w (Solve p f)) in *.
  assert (V1 : valid w1) by (apply reachable_valid, reachable_step; auto).
  assert (Hh : holds (own p (w_patom w p)) r (last_kept (content w (SProb p)) (f (content w (SProb p)))) w1).
  { split; [eapply V1; eauto|]. split; [rewrite <- (content_read _ _ _ R); apply solve_value; auto|].
    subst w1. cbn [step] in *. destruct (w_env w (SProb p)) eqn:E; [|congruence].
    destruct (simple_own (w_patom w p) p (f (content w (SProb p))) w (reachable_valid _ H) (or_introl K)) as (r' & E1 & E2). rewrite E1 in R. injection R as <-. exact E2. }
  apply (holds_run _ _ _ _ _ _ Hh F).
Qed.
(** a new problem starts at the coefs of its atom *)
Lemma problem_start : forall w p l a r, w_env w (SAtom a) = Some r ->
  w_env (step w (NewProblem p l a)) (SProb p) = Some r /\ content (step w (NewProblem p l a)) (SProb p) = content w (SAtom a) /\
  w_heap (step w (NewProblem p l a)) = w_heap w /\ w_patom (step w (NewProblem p l a)) p = a /\ w_env (step w (NewProblem p l a)) (SAtom a) = Some r
  /\ w_env (step w (NewProblem p l a)) (SLoss l) = Some r.
Proof.
  intros w p l a r E. cbn [step]. rewrite E. assert (Q : w_env (bind (bind w (SLoss l) (Some r)) (SProb p) (Some r)) (SProb p) = Some r) by apply env_bind.
  unfold content; cbn [w_env w_heap w_patom]. rewrite Q, E, Nat.eqb_refl. repeat split; auto. rewrite env_bind_other by discriminate. apply env_bind.
Qed.
Lemma new_start : forall w a v p l, content (run w [NewAtom a v; NewProblem p l a]) (SProb p) = v.
Proof.
  intros. unfold run. cbn [fold_left]. assert (E : w_env (step w (NewAtom a v)) (SAtom a) = Some (length (w_heap w))) by apply env_new.
  destruct (problem_start _ p l a _ E) as (_ & -> & _). apply content_new.
Qed.
Lemma store_value : forall w s v, valid w -> w_env w s <> None -> content (store w s v) s = v.
Proof. intros w s v V B. unfold content, store. destruct (w_env w s) eqn:E; [|congruence]. cbn [w_env]. rewrite E. cbn [w_heap]. apply read_write_same. eapply V; eauto. Qed.
Lemma env_store : forall w s v t, w_env (store w s v) t = w_env w t.
Proof. intros. unfold store. destruct (w_env w s); auto. Qed.
Lemma warm_value : forall w p v f, reachable w -> w_env w (SProb p) <> None -> content (run w [Assign p v; Solve p f]) (SProb p) = last_kept v (f v).
Proof.
  intros w p v f H B. unfold run; cbn [fold_left]. rewrite solve_value.
  - cbn [step]. rewrite store_value; auto. apply reachable_valid; auto.
  - apply reachable_step; auto.
  - cbn [step]. rewrite env_store; auto.
Qed.

(** ** What goes wrong *)
Lemma assign_overwrites : forall w p f r v, reachable w -> w_env w (SProb p) <> None -> returned (step w (Solve p f)) (Solve p f) = Some r ->
  read (w_heap (run w [Solve p f; Assign p v])) r = v.
Proof.
  intros w p f r v H B R. unfold run; cbn [fold_left]. change (step (step w (Solve p f)) (Assign p v)) with (store (step w (Solve p f)) (SProb p) v).
  cbn [returned] in R. rewrite <- (content_read _ (SProb p)) by (rewrite env_store; exact R). apply store_value; [apply reachable_valid, reachable_step; auto|congruence].
Qed.
Lemma simple_atom_last : forall a s xs w x b, content (run_simple a s (xs ++ [(x, b)]) w) (SAtom a) = x /\
  (b = true -> s <> SAtom a -> w_env (run_simple a s (xs ++ [(x, b)]) w) s = w_env (run_simple a s (xs ++ [(x, b)]) w) (SAtom a)).
Proof.
  intros a s xs w x b. unfold run_simple. rewrite fold_left_app. cbn [fold_left]. set (u := fold_left (propose_atom a s) xs w). unfold propose_atom; cbn [fst snd].
  destruct b.
  - split.
    + unfold content. cbn [bind w_env]. destruct (slot_eq_dec (SAtom a) s); rewrite env_new; apply read_new.
    + intros _ N. rewrite env_bind, env_bind_other; auto.
  - split; [apply content_new|discriminate].
Qed.
Lemma shared_start : forall w p f xs x b q l, reachable w -> w_env w (SProb p) <> None -> f (content w (SProb p)) = xs ++ [(x, b)] ->
  content (run w [Solve p f; NewProblem q l (w_patom w p)]) (SProb q) = x.
Proof.
  intros w p f xs x b q l H B E. unfold run; cbn [fold_left].
  assert (C : content (step w (Solve p f)) (SAtom (w_patom w p)) = x) by (cbn [step]; destruct (w_env w (SProb p)); [|congruence]; rewrite E; apply simple_atom_last).
  assert (K : exists r, w_env (step w (Solve p f)) (SAtom (w_patom w p)) = Some r).
  { cbn [step]. destruct (w_env w (SProb p)); [|congruence]. rewrite E. unfold run_simple. rewrite fold_left_app. cbn [fold_left]. unfold propose_atom; cbn [fst snd].
    exists (length (w_heap (fold_left (propose_atom (w_patom w p) (SProb p)) xs w))). destruct b; [rewrite env_bind_other by discriminate|]; apply env_new. }
  destruct K as [r K]. destruct (problem_start _ q l _ _ K) as (_ & -> & _). exact C.
Qed.
Lemma shared_overwrites : forall w p f xs x q l v r, reachable w -> w_env w (SProb p) <> None -> f (content w (SProb p)) = xs ++ [(x, true)] ->
  returned (step w (Solve p f)) (Solve p f) = Some r ->
  read (w_heap (run w [Solve p f; NewProblem q l (w_patom w p)])) r = x /\
  read (w_heap (run w [Solve p f; NewProblem q l (w_patom w p); Assign q v])) r = v.
Proof.
  intros w p f xs x q l v r H B E R. unfold run; cbn [fold_left]. cbn [returned] in R. set (w1 := step w (Solve p f)) in *.
  assert (EA : w_env w1 (SAtom (w_patom w p)) = Some r).
  { rewrite <- R. subst w1. cbn [step]. destruct (w_env w (SProb p)); [|congruence]. rewrite E. symmetry. apply simple_atom_last; auto. discriminate. }
  assert (EC : content w1 (SAtom (w_patom w p)) = x) by (subst w1; cbn [step]; destruct (w_env w (SProb p)); [|congruence]; rewrite E; apply simple_atom_last).
  destruct (problem_start w1 q l _ _ EA) as (P1 & P2 & P3 & _).
  assert (H2 : reachable (step w1 (NewProblem q l (w_patom w p)))) by (subst w1; apply reachable_step, reachable_step; auto).
  set (w2 := step w1 (NewProblem q l (w_patom w p))) in *. split.
  - rewrite <- (content_read _ _ _ P1), P2. exact EC.
  - change (step w2 (Assign q v)) with (store w2 (SProb q) v). rewrite <- (content_read (store w2 (SProb q) v) (SProb q)) by (rewrite env_store; exact P1).
    apply store_value; [apply reachable_valid; auto|congruence].
Qed.
Lemma admm_moves_start : forall w p l a k v, reachable w -> w_env w (SAtom a) <> None ->
  content (run w [NewProblem p l a; NewAdmm k l; AdmmUpdate k v]) (SProb p) = v.
Proof.
  intros w p l a k v H B. destruct (w_env w (SAtom a)) as [r|] eqn:E; [|congruence]. unfold run; cbn [fold_left].
  destruct (problem_start w p l a r E) as (P1 & _ & _ & _ & _ & P6). assert (H1 : reachable (step w (NewProblem p l a))) by (apply reachable_step; auto).
  set (w1 := step w (NewProblem p l a)) in *. cbn [step]. rewrite P6.
  assert (Q : w_env (bind w1 (SAdmm k) (Some r)) (SProb p) = Some r) by (rewrite env_bind_other by discriminate; exact P1).
  rewrite (content_read _ _ r) by (rewrite env_store; exact Q).
  rewrite <- (content_read _ (SAdmm k) r) by (rewrite env_store; apply env_bind).
  apply store_value; [rewrite <- P6; apply valid_bind, reachable_valid; auto|rewrite env_bind; discriminate].
Qed.

(** ** Fits one after the other *)
Lemma fits_cons : forall l i x f js w, run w (fits l i ((x, f) :: js)) = run (run w (fits l i [(x, f)])) (fits l (S i) js).
Proof. intros. reflexivity. Qed.
Lemma fits_leave : forall l js i p a, (p < i)%nat -> (a < i)%nat -> Forall (leaves p a) (fits l i js).
Proof.
  induction js as [|[x f] js IH]; intros i p a Hp Ha; cbn [fits]; auto. constructor; [exact I|]. constructor; [cbn; lia|]. constructor; [cbn; lia|]. constructor; [exact I|].
  apply IH; lia.
Qed.
Lemma one_fit : forall w l i x f, reachable w -> keeps_one (f x) -> exists r,
  w_env (run w (fits l i [(x, f)])) (SProb i) = Some r /\ holds (own i i) r (last_kept x (f x)) (run w (fits l i [(x, f)])).
Proof.
  intros w l i x f H K. unfold run; cbn [fits fold_left]. set (w1 := step w (NewAtom i (repeat 0 (length x)))).
  assert (E1 : w_env w1 (SAtom i) = Some (length (w_heap w))) by apply env_new. destruct (problem_start w1 i l i _ E1) as (P1 & _ & _ & P4 & _).
  assert (H2 : reachable (step w1 (NewProblem i l i))) by (apply reachable_step, reachable_step; auto). set (w2 := step w1 (NewProblem i l i)) in *.
  assert (H3 : reachable (step w2 (Assign i x))) by (apply reachable_step; auto). set (w3 := step w2 (Assign i x)) in *.
  assert (C3 : content w3 (SProb i) = x) by (apply store_value; [apply reachable_valid; auto|congruence]).
  assert (B3 : w_env w3 (SProb i) <> None) by (subst w3; cbn [step]; rewrite env_store; congruence).
  assert (P3 : w_patom w3 i = i) by (subst w3; cbn [step]; unfold store; destruct (w_env w2 (SProb i)); auto).
  assert (V3 := reachable_valid _ H3). set (w4 := step w3 (Solve i f)).
  assert (S4 : w4 = run_simple i (SProb i) (f x) w3) by (subst w4; cbn [step]; destruct (w_env w3 (SProb i)); [|congruence]; rewrite P3, C3; reflexivity).
  destruct (simple_own i i (f x) w3 V3 (or_introl K)) as (r & R1 & R2). exists r. rewrite S4. split; auto. split; [eapply valid_run_simple; eauto|]. split; auto.
  rewrite <- (content_read _ _ _ R1), simple_value; auto; [|exact I]. rewrite C3. reflexivity.
Qed.
Lemma env_step_other : forall w o q, match o with NewProblem p _ _ => p <> q | Solve p _ => p <> q | _ => True end -> valid w -> w_env (step w o) (SProb q) = w_env w (SProb q).
Proof.
  assert (G : forall q k its w, valid w -> w_env (qn_loop k w its) (SProb q) = w_env w (SProb q)).
  { intros q k. assert (Gi : forall f w, valid w -> w_env (qn_inner k w f) (SProb q) = w_env w (SProb q)).
    { intros f w V. unfold qn_inner. rewrite (proj1 (simple_other _ (SInner k) (SProb q) ltac:(discriminate) ltac:(discriminate) _ _ (valid_store _ _ _ V))). apply env_store. }
    induction its as [|[f [g|]] its IH]; intros w V; cbn [qn_loop]; auto. rewrite IH by (apply valid_new, valid_qn_inner; auto). rewrite env_new_other by discriminate. auto. }
  intros w o q N V. destruct o; cbn [step]; try apply env_store; try (apply env_new_other; discriminate).
  - destruct (w_env w (SLoss l0)); auto; try (apply env_bind_other; discriminate).
  - destruct (w_env w (SAtom a)); auto. cbn [bind w_env]. destruct (slot_eq_dec (SProb q) (SProb p)) as [[= K]|]; [congruence|]. reflexivity.
  - destruct (w_env w (SProb p)); auto. apply simple_other; auto; [discriminate|congruence].
  - destruct (w_env w (SLoss l)); auto. generalize (f (content w (SLoss l))). intros xs. revert w V. induction xs as [|x xs IH]; intros w V; cbn [fold_left]; auto.
    rewrite IH by (apply (valid_smooth (SLoss l) [x]); auto). unfold propose_smooth. destruct (snd x); reflexivity.
  - destruct (w_env w (SLoss l)); auto; try (apply env_bind_other; discriminate).
  - destruct (w_env w (SAtom a)); reflexivity.
  - destruct (w_env w (SQn k)); auto. destruct its; auto. rewrite env_store. apply G; auto.
Qed.
Lemma fits_env : forall l js i q w, valid w -> (q < i)%nat -> w_env (run w (fits l i js)) (SProb q) = w_env w (SProb q).
Proof.
  induction js as [|[x f] js IH]; intros i q w V Hq; [reflexivity|]. rewrite fits_cons, IH by (try apply valid_run; auto; lia).
  unfold run; cbn [fits fold_left]. rewrite !env_step_other; auto; try lia; repeat apply valid_step; auto.
Qed.
Lemma fits_all : forall l js i w, reachable w -> (forall x f, In (x, f) js -> keeps_one (f x)) ->
  forall j x f, nth_error js j = Some (x, f) -> content (run w (fits l i js)) (SProb (i + j)) = last_kept x (f x).
Proof.
  induction js as [|[x0 f0] js IH]; intros i w H K j x f N; [destruct j; discriminate|].
  rewrite fits_cons. assert (H1 : reachable (run w (fits l i [(x0, f0)]))) by (apply reachable_run; auto). destruct j as [|j].
  - injection N as -> ->. rewrite Nat.add_0_r. destruct (one_fit w l i x f H (K _ _ (or_introl eq_refl))) as (r & R1 & R2).
    assert (R3 := holds_run i i r _ (fits l (S i) js) _ R2 (fits_leave l js (S i) i i ltac:(lia) ltac:(lia))). destruct R3 as (_ & R3 & _). rewrite <- R3.
    apply content_read. rewrite fits_env by (try apply reachable_valid; auto; lia). exact R1.
  - replace (i + S j)%nat with (S i + j)%nat by lia. apply IH; auto. intros x' f' I'. apply K. right; auto.
Qed.

(** ** Quasi-Newton *)
Lemma inner_value : forall k w f, valid w -> w_env w (SInner k) <> None -> w_env w (SQn k) <> None ->
  content (qn_inner k w f) (SInner k) = last_kept (content w (SQn k)) (f (content w (SQn k))) /\ content (qn_inner k w f) (SQn k) = content w (SQn k)
  /\ w_env (qn_inner k w f) (SQn k) = w_env w (SQn k) /\ w_env (qn_inner k w f) (SInner k) <> None.
Proof.
  intros k w f V BI BQ. unfold qn_inner. set (w1 := store w (SInner k) (content w (SQn k))). assert (V1 : valid w1) by (apply valid_store; auto).
  assert (C1 : content w1 (SInner k) = content w (SQn k)) by (apply store_value; auto).
  assert (C2 : content w1 (SQn k) = content w (SQn k)).
  { unfold w1, store. destruct (w_env w (SInner k)) as [ri|] eqn:EI; auto. unfold content; cbn [w_env w_heap]. destruct (w_env w (SQn k)) as [rq|] eqn:EQ; auto.
    destruct (Nat.eq_dec ri rq) as [->|N]; [apply read_write_id|apply read_write_other; auto]. }
  assert (O := simple_other (w_qatom w1 k) (SInner k) (SQn k) ltac:(discriminate) ltac:(discriminate) (f (content w1 (SInner k))) w1 V1). destruct O as [O1 O2].
  rewrite O1, O2, C2. split; [rewrite simple_value, C1 by (auto; exact I); reflexivity|]. split; [reflexivity|]. split; [apply env_store|].
  assert (G : forall xs u, w_env u (SInner k) <> None -> w_env (run_simple (w_qatom w1 k) (SInner k) xs u) (SInner k) <> None).
  { unfold run_simple. induction xs as [|[x b] xs IH]; intros u Hu; cbn [fold_left]; auto. apply IH. unfold propose_atom; cbn [fst snd]. destruct b; [rewrite env_bind, env_new; discriminate|].
    rewrite env_new_other by discriminate. auto. }
  apply G. unfold w1. rewrite env_store. auto.
Qed.
Lemma loop_value : forall k its w, its <> [] -> valid w -> w_env w (SInner k) <> None -> w_env w (SQn k) <> None ->
  content (qn_loop k w its) (SInner k) = qn_result (content w (SQn k)) its /\ w_env (qn_loop k w its) (SQn k) <> None.
Proof.
  induction its as [|[f g] its IH]; intros w N V BI BQ; [congruence|]. cbn [qn_loop qn_result]. destruct (inner_value k w f V BI BQ) as (I1 & I2 & I3 & I4).
  assert (V2 : valid (qn_inner k w f)) by (apply valid_qn_inner; auto). set (w2 := qn_inner k w f) in *. destruct g as [new|]; [|split; [auto|congruence]].
  set (w3 := bind_new w2 (SQn k) (new (content w2 (SQn k)) (content w2 (SInner k)))). destruct its as [|it its].
  - cbn [qn_loop]. split; [|unfold w3; rewrite env_new; discriminate]. unfold w3. rewrite content_new_other; auto. discriminate.
  - destruct (IH w3) as [J1 J2]; try (unfold w3; rewrite ?env_new, ?env_new_other by discriminate; auto; discriminate).
    + apply valid_new; auto.
    + split; auto. rewrite J1. f_equal. unfold w3. rewrite content_new, I2, I1. reflexivity.
Qed.
Lemma qn_value : forall w k its, reachable w -> w_env w (SInner k) <> None -> w_env w (SQn k) <> None -> its <> [] ->
  content (step w (QnSolve k its)) (SQn k) = qn_result (content w (SQn k)) its.
Proof.
  intros w k its H BI BQ N. cbn [step]. destruct (w_env w (SQn k)) eqn:E; [|congruence]. destruct its as [|it its]; [congruence|].
  assert (V := reachable_valid _ H). destruct (loop_value k (it :: its) w) as [J1 J2]; auto; [congruence|]. cbv zeta.
  rewrite store_value; auto. apply valid_qn_loop; auto.
Qed.
Lemma qn_overwrites : forall w k its r f, reachable w -> w_env w (SInner k) <> None -> w_env w (SQn k) <> None ->
  returned (step w (QnSolve k its)) (QnSolve k its) = Some r -> its <> [] ->
  returned (run w [QnSolve k its; QnSolve k [(f, None)]]) (QnSolve k [(f, None)]) = Some r /\
  read (w_heap (step w (QnSolve k its))) r = qn_result (content w (SQn k)) its /\
  read (w_heap (run w [QnSolve k its; QnSolve k [(f, None)]])) r = last_kept (qn_result (content w (SQn k)) its) (f (qn_result (content w (SQn k)) its)).
Proof.
  intros w k its r f H BI BQ R N. cbn [returned] in *. unfold run; cbn [fold_left]. assert (H1 : reachable (step w (QnSolve k its))) by (apply reachable_step; auto).
  assert (V1 := qn_value w k its H BI BQ N). set (w1 := step w (QnSolve k its)) in *.
  assert (BI1 : w_env w1 (SInner k) <> None).
  { subst w1. cbn [step]. destruct (w_env w (SQn k)) eqn:E; [|congruence]. destruct its as [|it its]; [congruence|]. cbv zeta. rewrite env_store.
    assert (V := reachable_valid _ H). assert (BQ' : w_env w (SQn k) <> None) by congruence. clear - V BI BQ'. revert w V BI BQ'. generalize (it :: its). intros js.
    induction js as [|[g [new|]] js IH]; intros w V BI BQ; cbn [qn_loop]; auto; destruct (inner_value k w g V BI BQ) as (_ & _ & I3 & I4); auto.
    apply IH; [apply valid_new, valid_qn_inner; auto|rewrite env_new_other by discriminate; auto|rewrite env_new; discriminate]. }
  assert (BQ1 : w_env w1 (SQn k) <> None) by congruence.
  assert (E2 : w_env (step w1 (QnSolve k [(f, None)])) (SQn k) = Some r).
  { cbn [step]. rewrite R. cbv zeta. rewrite env_store. cbn [qn_loop]. destruct (inner_value k w1 f (reachable_valid _ H1) BI1 BQ1) as (_ & _ & -> & _). exact R. }
  split; auto. split; [rewrite <- (content_read _ _ _ R); exact V1|]. rewrite <- (content_read _ _ _ E2), qn_value; auto; [|discriminate]. rewrite V1. reflexivity.
Qed.

(** ** FISTA *)
Lemma last_kept_app : forall xs ys x, last_kept x (xs ++ ys) = last_kept (last_kept x xs) ys.
Proof. induction xs as [|[v b] xs IH]; intros ys x; cbn; auto. destruct b; apply IH. Qed.
Lemma last_kept_none : forall ts x, last_kept x (map (fun v => (v, false)) ts) = x.
Proof. induction ts as [|t ts IH]; intros x; cbn; auto. Qed.
Lemma loop_tries_last : forall fuel C w g st att p st' a, backtrack_loop fuel C w g st att = Ok (p, st', a) ->
  loop_tries fuel C w g st <> [] /\ last (loop_tries fuel C w g st) [] = p.
Proof.
  induction fuel as [|fuel IH]; intros C w g st att p st' a E; [discriminate|]. cbn [backtrack_loop loop_tries] in *. destruct (Req_EM_T st 0); [discriminate|].
  cbv zeta in *. destruct (step_ok _ _ _ _ _); [injection E as <- _ _; split; [discriminate|reflexivity]|].
  destruct (Rlt_dec 0 (st / alpha)); [|discriminate]. destruct (IH _ _ _ _ _ _ _ _ E) as [J1 J2]. split; [discriminate|].
  destruct (loop_tries fuel C w g (st / alpha)) eqn:K; [congruence|]. exact J2.
Qed.
Lemma pass_spec : forall fuel P C s o, iterate fuel P C s = Ok o ->
  last_kept (s_coefs s) (pass_log fuel P C s) = s_coefs (match o with Continue s' => s' | Stop s' => s' end) /\
  (s_it s = O -> keeps_one (pass_log fuel P C s) /\ exists s', o = Continue s').
Proof.
  intros fuel P C s o E. unfold iterate in E. unfold pass_log.
  set (working := if restart_now P (s_it s) then s_coefs s else s_working s) in *.
  destruct (if p_backtrack P then backtrack fuel C (s_it s) working (s_step s) (s_attempt s)
            else if Req_EM_T (c_lipschitz C) 0 then Err ZeroDivisionError
            else Ok (c_prox C (c_lipschitz C) working (c_grad C working), 1 / c_lipschitz C, s_attempt s)) as [[[p st] att]|e] eqn:B; [|discriminate].
  assert (T : pass_tries fuel P C s <> [] /\ last (pass_tries fuel P C s) [] = p).
  { unfold pass_tries. fold working. destruct (p_backtrack P).
    - unfold backtrack in B. eapply loop_tries_last; eauto.
    - destruct (Req_EM_T (c_lipschitz C) 0); [discriminate|]. injection B as <- _ _. split; [discriminate|reflexivity]. }
  destruct T as [T1 T2]. destruct (pass_tries fuel P C s) as [|t ts] eqn:ET; [congruence|]. rewrite T2. cbn [rbind] in E.
  rewrite last_kept_app, last_kept_none. cbn [last_kept].
  assert (Hm : (1 <= min_of P)%nat) by (unfold min_of, or_nat; destruct (p_min_its P) as [[|]|]; lia).
  set (obj := ext_add (c_smooth C p) (c_nonsmooth C p false)) in *.
  unfold keeps. fold obj. cbv zeta in *.
  destruct (andb (Nat.leb (min_of P) (s_it s)) (if p_coef_stop P then small_move (tol_of P) (s_coefs s) p else small_change (tol_of P) (s_obj s) obj)) eqn:S1.
  - injection E as <-. cbn [negb andb]. split; [reflexivity|]. intros Z. rewrite Z in S1. apply andb_prop in S1. destruct S1 as [S1 _]. apply Nat.leb_le in S1. lia.
  - cbn [negb andb]. destruct (update_working (p_FISTA P) (s_weight s) p (s_coefs s)) as [wn wk].
    destruct (andb (Nat.ltb 1 (s_it s)) (andb (worse (s_obj s) obj) (p_monotonicity P))) eqn:S2; cbn [negb].
    + split.
      * destruct (andb _ _) in E; injection E as <-; reflexivity.
      * intros Z. rewrite Z in S2. discriminate.
    + injection E as <-. split; [reflexivity|]. intros _. split; [|eauto]. exists p. apply in_or_app. right. left. reflexivity.
Qed.
Lemma fit_log_value : forall loops fuel P C s s', fista_loop loops fuel P C s = Ok s' -> last_kept (s_coefs s) (fit_log loops fuel P C s) = s_coefs s'.
Proof.
  induction loops as [|loops IH]; intros fuel P C s s' E; cbn [fista_loop fit_log] in *.
  - destruct (Nat.ltb (s_it s) (max_of P)); [discriminate|]. injection E as <-. reflexivity.
  - destruct (Nat.ltb (s_it s) (max_of P)); [|injection E as <-; reflexivity].
    destruct (iterate fuel P C s) as [o|e] eqn:Ei; [|discriminate]. cbn [rbind] in E. destruct (pass_spec _ _ _ _ _ Ei) as [S1 _]. rewrite last_kept_app, S1. destruct o; [apply IH; auto|].
    injection E as <-. reflexivity.
Qed.
Lemma fit_log_keeps : forall loops fuel P C s s', fista_loop loops fuel P C s = Ok s' -> s_it s = O -> keeps_one (fit_log loops fuel P C s).
Proof.
  intros loops fuel P C s s' E Z. assert (Hm : (1 <= max_of P)%nat) by (unfold max_of, or_nat; destruct (p_max_its P) as [[|n]|]; [apply Nat.leb_le; reflexivity|lia|apply Nat.leb_le; reflexivity]).
  assert (L : Nat.ltb (s_it s) (max_of P) = true) by (apply Nat.ltb_lt; rewrite Z; exact Hm).
  destruct loops as [|loops]; cbn [fista_loop fit_log] in *; rewrite L in *; [discriminate|].
  destruct (iterate fuel P C s) as [o|e] eqn:Ei; [|discriminate]. destruct (pass_spec _ _ _ _ _ Ei) as [_ S2]. destruct (S2 Z) as [[v I] _]. exists v. apply in_or_app. auto.
Qed.
Lemma fista_solve : forall w p loops fuel P C old att s' l r,
  let f := fun x => fit_log loops fuel P C (fista_start P C x old att) in
  reachable w -> w_env w (SProb p) <> None -> fit loops fuel P C (content w (SProb p)) old att = Ok s' ->
  returned (step w (Solve p f)) (Solve p f) = Some r -> Forall (leaves p (w_patom w p)) l ->
  read (w_heap (run (step w (Solve p f)) l)) r = s_coefs s'.
Proof.
  intros w p loops fuel P C old att s' l r f H B E R F. rewrite solve_kept; auto.
  - apply (fit_log_value _ _ _ _ _ _ E).
  - eapply fit_log_keeps; [exact E|reflexivity].
Qed.

(** What the constructor of a stack of losses refuses. *)
From Coq Require Import Reals List Lra Lia Arith Bool.
From Verif Require Import M_affine M_buffer M_loss Vec Spec M_quad M_mglm.
Import ListNotations.
Local Open Scope R_scope.

Definition same_shapes (losses : list loss) : Prop := exists n, Forall (fun l => l_shape l = n) losses.
(** Non-negative weights, one for each case of the first loss *)
Definition weights_proper (h : heap) (losses : list loss) (weights : option ref) : Prop :=
  forall w l0 rest, weights = Some w -> losses = l0 :: rest -> length (read h w) = l_shape l0 /\ Forall (fun a => 0 <= a) (read h w).
Lemma any_neg_false : forall v, any_neg v = false <-> Forall (fun a => 0 <= a) v.
Proof.
  unfold any_neg. induction v as [|a v IH]; cbn; [split; auto|]. rewrite orb_false_iff, IH. destruct (Rlt_dec a 0); split.
  - intros [C _]. discriminate.
  - intros H. inversion H; subst. lra.
  - intros [_ H]. constructor; auto. lra.
  - intros H. inversion H; subst. auto.
Qed.
Theorem new_stacked_refuses : forall h losses c off qd weights,
  ((exists h' s, new_stacked h losses c off qd weights = (h', Ok s)) <-> losses <> [] /\ 0 <= c /\ same_shapes losses /\ weights_proper h losses weights) /\
  (losses = [] -> new_stacked h losses c off qd weights = (h, Err IndexError)) /\
  (losses <> [] -> c < 0 -> new_stacked h losses c off qd weights = (h, Err ValueError)) /\
  (0 <= c -> ~ same_shapes losses -> new_stacked h losses c off qd weights = (h, Err AssertionError)) /\
  (losses <> [] -> 0 <= c -> same_shapes losses -> ~ weights_proper h losses weights -> new_stacked h losses c off qd weights = (h, Err ValueError)).
Proof.
  intros h losses c off qd weights. unfold new_stacked. destruct losses as [|l0 rest].
  { split; [split; [intros (h' & s & E); discriminate|intros [N _]; contradiction]|]. split; auto. split; [intros N; contradiction|]. split; [intros _ N; exfalso; apply N; exists 0%nat; constructor|intros N; contradiction]. }
  set (n := l_shape l0). set (losses := l0 :: rest).
  assert (B : forallb (fun l => Nat.eqb (l_shape l) n) losses = true <-> same_shapes losses).
  { rewrite forallb_forall. split; intros H.
    - exists n. apply Forall_forall. intros l Hl. apply Nat.eqb_eq. auto.
    - destruct H as [m H]. rewrite Forall_forall in H. intros l Hl. apply Nat.eqb_eq. rewrite (H l Hl). symmetry. apply H. left. auto. }
  assert (W : (match weights with Some r => any_neg (read h r) || negb (Nat.eqb (length (read h r)) n) | None => false end) = false <-> weights_proper h losses weights).
  { destruct weights as [w|].
    - rewrite orb_false_iff, any_neg_false, negb_false_iff, Nat.eqb_eq. split.
      + intros [H1 H2] w' l' r' E E'. injection E as <-. injection E' as <- <-. auto.
      + intros H. destruct (H w l0 rest eq_refl eq_refl). auto.
    - split; auto. intros _ w l' r' E. discriminate. }
  destruct (Rlt_dec c 0) as [C|C]; [split; [split; [intros (h' & s & E); discriminate|intros (_ & P & _); lra]|split; [discriminate|]; split; auto; split; intros; lra]|].
  destruct (forallb _ losses) eqn:EB; cbn [negb].
  - assert (SB : same_shapes losses) by (apply B; auto). destruct (match weights with Some _ => _ | None => false end) eqn:EW.
    + assert (NW : ~ weights_proper h losses weights) by (intros H; apply W in H; congruence). split; [split; [intros (h' & s & E); discriminate|tauto]|]. split; [discriminate|]. split; [intros; lra|]. split; [contradiction|auto].
    + assert (PW : weights_proper h losses weights) by (apply W; auto). split; [split; [intros _; split; [discriminate|]; split; [lra|auto]|intros _; eexists; eexists; reflexivity]|]. split; [discriminate|]. split; [intros; lra|]. split; contradiction.
  - assert (NB : ~ same_shapes losses) by (intros H; apply B in H; congruence). split; [split; [intros (h' & s & E); discriminate|tauto]|]. split; [discriminate|]. split; [intros; lra|]. split; auto. contradiction.
Qed.

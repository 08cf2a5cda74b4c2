(** Closed bounded sets of vectors are compact, and maxima over them are attained (no choice needed). *)
From Coq Require Import Reals List Lra Lia Classical.
From Verif Require Import Vec.
Import ListNotations.
Local Open Scope R_scope.

Definition close (d : R) (x y : vec) : Prop := length y = length x /\ forall i, (i < length x)%nat -> Rabs (nth i y 0 - nth i x 0) < d.
Definition inbox (n : nat) (M : R) (x : vec) : Prop := length x = n /\ forall i, (i < n)%nat -> Rabs (nth i x 0) <= M.

(** A property of sets that passes to subsets and finite unions and holds near every point of [a,b] holds of [a,b] *)
Lemma heine1 : forall (Q : (R -> Prop) -> Prop) a b, a <= b ->
  (forall S S' : R -> Prop, (forall t, S t -> S' t) -> Q S' -> Q S) -> (forall S S' : R -> Prop, Q S -> Q S' -> Q (fun t => S t \/ S' t)) ->
  (forall t, a <= t <= b -> exists d, 0 < d /\ Q (fun s => Rabs (s - t) < d)) -> Q (fun s => a <= s <= b).
Proof.
  intros Q a b Hab Mono Union Loc. set (E := fun s => a <= s <= b /\ Q (fun t => a <= t <= s)).
  assert (Ea : E a). { split; [lra|]. destruct (Loc a ltac:(lra)) as (d & Hd & HQ). apply (Mono _ _) with (2 := HQ). intros t Ht. replace (t - a) with 0 by lra. rewrite Rabs_R0. auto. }
  destruct (completeness E) as [m [UB LUB]]; [exists b; intros s [H _]; lra|exists a; auto|].
  assert (Ham : a <= m) by (apply UB; auto). assert (Hmb : m <= b) by (apply LUB; intros s [H _]; lra).
  destruct (Loc m ltac:(lra)) as (d & Hd & HQ).
  assert (exists s, E s /\ m - d < s) as (s & Es & Hs).
  { apply NNPP. intros N. assert (m <= m - d); [|lra]. apply LUB. intros s Hs. destruct (Rle_dec s (m - d)); auto. exfalso. apply N. exists s. split; auto. lra. }
  assert (K : Q (fun t => a <= t <= Rmin b (m + d / 2))).
  { destruct Es as [_ Qs]. apply (Mono _ (fun t => a <= t <= s \/ Rabs (t - m) < d)); [|apply Union; auto].
    intros t [H1 H2]. pose proof (Rmin_r b (m + d / 2)). destruct (Rle_dec t s); [left; lra|right]. apply Rabs_def1; lra. }
  destruct (Rle_dec b (m + d / 2)) as [H|H].
  - rewrite Rmin_left in K by auto. auto.
  - rewrite Rmin_right in K by lra. assert (m + d / 2 <= m); [|lra]. apply UB. split; [lra|auto].
Qed.

Theorem heine : forall n M (Q : (vec -> Prop) -> Prop), 0 <= M ->
  (forall S S' : vec -> Prop, (forall t, S t -> S' t) -> Q S' -> Q S) -> (forall S S' : vec -> Prop, Q S -> Q S' -> Q (fun t => S t \/ S' t)) ->
  (forall x, inbox n M x -> exists d, 0 < d /\ Q (close d x)) -> Q (inbox n M).
Proof.
  induction n as [|n IH]; intros M Q HM Mono Union Loc.
  - destruct (Loc []) as (d & Hd & HQ); [split; auto; intros; lia|]. apply (Mono _ _) with (2 := HQ). intros x [Lx _]. split; auto. cbn. intros; lia.
  - set (Q1 := fun S : R -> Prop => Q (fun x => exists a y, x = a :: y /\ S a /\ inbox n M y)).
    assert (K : Q1 (fun s => - M <= s <= M)).
    { apply heine1; [lra| | |].
      - intros S S' H. apply Mono. intros x (a & y & E & Sa & By). exists a, y. auto.
      - intros S S' H H'. apply (Mono _ _) with (2 := Union _ _ H H'). intros x (a & y & E & [Sa|Sa] & By); [left|right]; exists a, y; auto.
      - intros t Ht. assert (Z : exists d, 0 < d /\ Q (fun x => exists a y, x = a :: y /\ Rabs (a - t) < d /\ inbox n M y)); [|exact Z].
        apply (IH M (fun S => exists d, 0 < d /\ Q (fun x => exists a y, x = a :: y /\ Rabs (a - t) < d /\ S y))); auto.
        + intros S S' H (d & Hd & HQ). exists d. split; auto. apply (Mono _ _) with (2 := HQ). intros x (a & y & E & Sa & By). exists a, y. auto.
        + intros S S' (d & Hd & HQ) (d' & Hd' & HQ'). exists (Rmin d d'). split; [apply Rmin_pos; auto|]. apply (Mono _ _) with (2 := Union _ _ HQ HQ').
          intros x (a & y & E & Sa & By). pose proof (Rmin_l d d'). pose proof (Rmin_r d d'). destruct By; [left|right]; exists a, y; repeat split; auto; lra.
        + intros y [Ly By]. destruct (Loc (t :: y)) as (d & Hd & HQ).
          { split; [cbn; lia|]. intros [|i] Hi; cbn [nth]; [apply Rabs_le; lra|apply By; lia]. }
          exists d. split; auto. exists d. split; auto. apply (Mono _ _) with (2 := HQ). intros x (a & z & E & Sa & [Lz Bz]). subst x. split; [cbn; lia|]. intros [|i] Hi; cbn [nth]; auto. apply Bz. cbn in Hi. lia. }
    apply (Mono _ _) with (2 := K). intros [|a y] [Lx Bx]; [discriminate|]. exists a, y. split; auto. split.
    + pose proof (Bx 0%nat ltac:(lia)) as H. cbn in H. unfold Rabs in H. destruct (Rcase_abs a); lra.
    + split; [cbn in Lx; lia|]. intros i Hi. apply (Bx (S i)). lia.
Qed.

(** A function that is upper semicontinuous on a nonempty closed bounded set attains its maximum there *)
Theorem attains : forall n M (K : vec -> Prop) (f : vec -> R), 0 <= M -> (exists x, K x) -> (forall x, K x -> inbox n M x) ->
  (forall x, inbox n M x -> ~ K x -> exists d, 0 < d /\ forall y, close d x y -> ~ K y) ->
  (forall x, K x -> forall e, 0 < e -> exists d, 0 < d /\ forall y, close d x y -> K y -> f y < f x + e) ->
  exists x, K x /\ forall y, K y -> f y <= f x.
Proof.
  intros n M K f HM [x0 K0] Box Closed Usc.
  assert (Bd : exists B, forall y, inbox n M y -> K y -> f y <= B).
  { apply (heine n M (fun S => exists B, forall y, S y -> K y -> f y <= B)); auto.
    - intros S S' H (B & HB). exists B. auto.
    - intros S S' (B & HB) (B' & HB'). exists (Rmax B B'). intros y [Sy|Sy] Ky; [pose proof (HB y Sy Ky); pose proof (Rmax_l B B')|pose proof (HB' y Sy Ky); pose proof (Rmax_r B B')]; lra.
    - intros x Bx. destruct (classic (K x)) as [Kx|Kx].
      + destruct (Usc x Kx 1 ltac:(lra)) as (d & Hd & H). exists d. split; auto. exists (f x + 1). intros y Cy Ky. left. auto.
      + destruct (Closed x Bx Kx) as (d & Hd & H). exists d. split; auto. exists 0. intros y Cy Ky. elim (H y Cy Ky). }
  destruct Bd as [B HB]. set (E := fun s => exists y, K y /\ s = f y).
  destruct (completeness E) as [m [UB LUB]]; [exists B; intros s (y & Ky & ->); auto|exists (f x0), x0; auto|].
  apply NNPP. intros N.
  assert (Lt : forall x, K x -> f x < m).
  { intros x Kx. destruct (Rtotal_order (f x) m) as [H|[H|H]]; auto.
    - exfalso. apply N. exists x. split; auto. intros y Ky. rewrite H. apply UB. exists y. auto.
    - assert (f x <= m) by (apply UB; exists x; auto). lra. }
  assert (G : exists e, 0 < e /\ forall y, inbox n M y -> K y -> f y <= m - e).
  { apply (heine n M (fun S => exists e, 0 < e /\ forall y, S y -> K y -> f y <= m - e)); auto.
    - intros S S' H (e & He & H'). exists e. auto.
    - intros S S' (e & He & H) (e' & He' & H'). exists (Rmin e e'). split; [apply Rmin_pos; auto|]. pose proof (Rmin_l e e'). pose proof (Rmin_r e e').
      intros y [Sy|Sy] Ky; [specialize (H y Sy Ky)|specialize (H' y Sy Ky)]; lra.
    - intros x Bx. destruct (classic (K x)) as [Kx|Kx].
      + pose proof (Lt x Kx). destruct (Usc x Kx ((m - f x) / 2) ltac:(lra)) as (d & Hd & H1). exists d. split; auto. exists ((m - f x) / 2). split; [lra|]. intros y Cy Ky. specialize (H1 y Cy Ky). lra.
      + destruct (Closed x Bx Kx) as (d & Hd & H). exists d. split; auto. exists 1. split; [lra|]. intros y Cy Ky. elim (H y Cy Ky). }
  destruct G as (e & He & H). assert (m <= m - e); [|lra]. apply LUB. intros s (y & Ky & ->). auto.
Qed.

(** The bracketing search of sparse_group_lasso.py: it terminates and ends in a bracket of relative width rtol. *)
From Coq Require Import Reals List Lra Lia Psatz Bool.
From Verif Require Import Vec Spec M_quad M_sgl.
Import ListNotations.
Local Open Scope R_scope.

Section Search.
Variables (inside : R -> res bool) (f : R -> bool) (rtol : R).
Hypothesis Hi : forall t, 0 < t -> inside t = Ok (f t).
Hypothesis Hr : 0 < rtol < 2 / 3.

(** lo is rejected, hi accepted, and they are close *)
Definition bracket (lo hi m : R) : Prop := 0 < lo < hi /\ f lo = false /\ f hi = true /\ lo <= m <= hi /\ hi - lo <= rtol * (1 / 2) * (hi + lo).

Lemma bisect_ok : forall n fuel lo hi mid, (n < fuel)%nat -> 0 < lo < hi -> f lo = false -> f hi = true -> hi - lo <= rtol * lo * 2 ^ n ->
  match mid with None => rtol * (1 / 2) * (hi + lo) < hi - lo | Some m => lo <= m <= hi end ->
  exists m lo' hi', bisect inside rtol fuel lo hi mid = Ok m /\ bracket lo' hi' m /\ lo <= lo' /\ hi' <= hi.
Proof.
  induction n as [|n IH]; intros [|fuel] lo hi mid Hf Hl Flo Fhi Hw Hmid; try lia.
  - cbn [bisect]. simpl in Hw. destruct (Rlt_dec _ _) as [L|L].
    + exfalso. assert (rtol * lo <= rtol * (1 / 2) * (hi + lo)) by nra. lra.
    + destruct mid as [m|]; [|lra]. exists m, lo, hi. split; auto. split; [|lra]. unfold bracket. repeat split; auto; lra.
  - cbn [bisect]. destruct (Rlt_dec _ _) as [L|L].
    + set (m := 1 / 2 * (hi + lo)). rewrite Hi by (unfold m; lra). cbn [rbind]. cbn [pow] in Hw.
      assert (P2 : 0 < 2 ^ n) by (apply pow_lt; lra).
      destruct (f m) eqn:Fm.
      * destruct (IH fuel lo m (Some m)) as (r & lo' & hi' & E & B & H1 & H2); auto; try lia; try (unfold m; lra).
        exists r, lo', hi'. split; auto. split; auto. unfold m in H2. lra.
      * destruct (IH fuel m hi (Some m)) as (r & lo' & hi' & E & B & H1 & H2); auto; try lia; try (unfold m; lra).
        { apply Rle_trans with (rtol * lo * 2 ^ n); [unfold m; lra|]. apply Rmult_le_compat_r; [lra|]. apply Rmult_le_compat_l; unfold m; lra. }
        exists r, lo', hi'. split; auto. split; auto. unfold m in H1. lra.
    + destruct mid as [m|]; [|lra]. exists m, lo, hi. split; auto. split; [|lra]. unfold bracket. repeat split; auto; lra.
Qed.

Lemma halve_ok : forall k lo, 0 < lo -> f lo = true -> (0 < k)%nat ->
  (halve inside k lo lo = Ok None /\ f (lo * (1 / 2) ^ k) = true) \/
  (exists l, halve inside k lo lo = Ok (Some (l, 2 * l)) /\ f l = false /\ f (2 * l) = true /\ lo * (1 / 2) ^ k <= l /\ 2 * l <= lo).
Proof.
  induction k as [|k IH]; intros lo Hlo Ft Hk; [lia|]. cbn [halve]. rewrite Hi by lra. cbn [rbind].
  assert (P : 0 < (1 / 2) ^ k) by (apply pow_lt; lra).
  assert (P1 : (1 / 2) ^ k <= 1) by (rewrite <- (pow1 k) at 2; apply pow_incr; lra).
  destruct (f (lo / 2)) eqn:E; cbn [negb].
  - destruct k as [|k].
    + left. split; auto. rewrite <- E. f_equal. simpl. lra.
    + destruct (IH (lo / 2)) as [[H1 H2]|(l & H1 & H2 & H3 & H4 & H5)]; auto; try lra; try lia.
      * left. split; auto. rewrite <- H2. f_equal. simpl. lra.
      * right. exists l. split; auto. split; auto. split; auto. split; [|lra].
        replace (lo * (1 / 2) ^ S (S k)) with (lo / 2 * (1 / 2) ^ S k) by (simpl; lra). auto.
  - right. exists (lo / 2). replace (2 * (lo / 2)) with lo by field. split; auto. split; auto. split; auto. split; [|lra]. simpl.
    assert (lo * (1 / 2 * (1 / 2) ^ k) <= lo * (1 / 2 * 1)) by (apply Rmult_le_compat_l; lra). lra.
Qed.
Lemma double_ok : forall k up, 0 < up -> f up = false -> (0 < k)%nat ->
  (double inside k up up = Ok None /\ f (up * 2 ^ k) = false) \/
  (exists l, double inside k up up = Ok (Some (l, 2 * l)) /\ f l = false /\ f (2 * l) = true /\ up <= l /\ 2 * l <= up * 2 ^ k).
Proof.
  induction k as [|k IH]; intros up Hup Ft Hk; [lia|]. cbn [double]. rewrite Hi by lra. cbn [rbind].
  assert (P : 1 <= 2 ^ k) by (apply pow_R1_Rle; lra).
  destruct (f (up * 2)) eqn:E.
  - right. exists up. rewrite (Rmult_comm 2 up). split; auto. split; auto. split; auto. split; [lra|]. simpl. rewrite Rmult_comm, (Rmult_comm up).
    assert (2 * up * 1 <= 2 * up * 2 ^ k) by (apply Rmult_le_compat_l; lra). lra.
  - destruct k as [|k].
    + left. split; auto. rewrite <- E. f_equal. simpl. lra.
    + destruct (IH (up * 2)) as [[H1 H2]|(l & H1 & H2 & H3 & H4 & H5)]; auto; try lra; try lia.
      * left. split; auto. rewrite <- H2. f_equal. simpl. lra.
      * right. exists l. split; auto. split; auto. split; auto. split; [lra|].
        replace (up * 2 ^ S (S k)) with (up * 2 * 2 ^ S k) by (simpl; lra). auto.
Qed.

Theorem search_ok : forall k n fuel, (0 < k)%nat -> (n < fuel)%nat -> 1 <= rtol * 2 ^ n ->
  exists e, search inside rtol k fuel = Ok e /\
    match e with
    | PInf => f (2 ^ k) = false
    | Fin m => (m = 0 /\ f ((1 / 2) ^ k) = true) \/ exists lo hi, bracket lo hi m /\ (1 / 2) ^ k <= lo /\ hi <= 2 ^ k /\ (f 1 = true -> hi <= 1) /\ (f 1 = false -> 1 <= lo)
    end.
Proof.
  intros k n fuel Hk Hf Hn. unfold search. rewrite Hi by lra. cbn [rbind].
  assert (P1 : (1 / 2) ^ k <= 1) by (rewrite <- (pow1 k) at 2; apply pow_incr; lra).
  assert (P2 : 1 <= 2 ^ k) by (apply pow_R1_Rle; lra).
  assert (FIN : forall l, 0 < l -> f l = false -> f (2 * l) = true -> exists m lo' hi',
    rbind (check (inside l) false) (fun _ => rbind (check (inside (2 * l)) true) (fun _ => rmap Fin (bisect inside rtol fuel l (2 * l) None))) = Ok (Fin m) /\
    bracket lo' hi' m /\ l <= lo' /\ hi' <= 2 * l).
  { intros l Hl Fl F2. destruct (bisect_ok n fuel l (2 * l) None) as (m & lo & hi & E & B & H1 & H2); auto; try lra.
    - replace (2 * l - l) with (l * 1) by ring. replace (rtol * l * 2 ^ n) with (l * (rtol * 2 ^ n)) by ring. apply Rmult_le_compat_l; lra.
    - assert (rtol * l < 2 / 3 * l) by (apply Rmult_lt_compat_r; lra). lra.
    - exists m, lo, hi. rewrite !Hi by lra. unfold check. cbn [rbind]. rewrite Fl, F2. cbn [Bool.eqb]. rewrite E. auto. }
  destruct (f 1) eqn:F1.
  - destruct (halve_ok k 1 Rlt_0_1 F1 Hk) as [[E H]|(l & E & H2 & H3 & H4 & H5)]; rewrite E; cbn [rbind].
    + exists (Fin 0). split; auto. left. split; auto. rewrite <- H. f_equal. ring.
    + rewrite Rmult_1_l in H4. assert (0 < (1 / 2) ^ k) by (apply pow_lt; lra). destruct (FIN l) as (m & lo & hi & Q & B & L1 & L2); auto; try lra.
      exists (Fin m). split; auto. right. exists lo, hi. split; auto. split; [lra|]. split; [lra|]. split; [lra|discriminate].
  - destruct (double_ok k 1 Rlt_0_1 F1 Hk) as [[E H]|(l & E & H2 & H3 & H4 & H5)]; rewrite E; cbn [rbind].
    + exists PInf. split; auto. rewrite <- H. f_equal. ring.
    + rewrite Rmult_1_l in H5. destruct (FIN l) as (m & lo & hi & Q & B & L1 & L2); auto; try lra.
      exists (Fin m). split; auto. right. exists lo, hi. split; auto. split; [lra|]. split; [lra|]. split; [discriminate|lra].
Qed.
End Search.

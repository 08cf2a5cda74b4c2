(** C110: strong_set for the group lasso atom. *)
From Coq Require Import Reals List Lra Lia Arith Bool ZArith Sorted.
From Verif Require Import Vec Spec SpecConvex SpecFista M_quad SpecGroup M_group SpecGatom SpecGpath SpecSbpath P_sbpath2 P_mkkt2 P_gstrong.
Import ListNotations.
Local Open Scope R_scope.

(** A group is returned exactly when ||g_h|| / w_h reaches new - slope (cur - new); without weight, when it has a gradient or that bound is not positive. *)
Theorem C110_meaning : forall labels given cur new slope grad h, In h (g_strong_set labels (filled given labels) cur new slope grad) <-> In h labels /\ let w := group_weight given labels h in let m := norm (block labels h grad) in
  ((0 < w /\ (new - slope * (cur - new)) * w <= m) \/ (w <= 0 /\ (m <> 0 \/ new - slope * (cur - new) <= 0))).
Proof. exact strong_set_meaning. Qed.
Print Assumptions C110_meaning.
(** Each label once, in increasing order. *)
Theorem C110_sorted : forall labels given cur new slope grad, StronglySorted Z.lt (g_strong_set labels (filled given labels) cur new slope grad).
Proof. intros. apply strong_set_sorted. Qed.
Print Assumptions C110_sorted.
(** A discarded group with a weight is at zero at every minimizer for the new value, if the gradient of the group moves by at most slope times the change of the value, times its weight. *)
Theorem C110_safe_partial : forall labels given f g gn s cur new slope h, let w := group_weight given labels in (forall k, In k labels -> 0 <= w k) -> In h labels -> 0 < w h -> 0 < new -> length g = length labels -> is_gradient (length labels) f s gn -> length s = length labels ->
  (forall v, length v = length labels -> group_objective labels f w new s <= group_objective labels f w new v) -> norm (block labels h (vsub gn g)) <= slope * (cur - new) * w h ->
  ~ In h (g_strong_set labels (filled given labels) cur new slope g) -> forall j, (j < length labels)%nat -> nth j labels 0%Z = h -> nth j s 0 = 0.
Proof. exact strong_set_safe. Qed.
Print Assumptions C110_safe_partial.
(** Groups without weight are discarded at the gradient of every minimizer for the current value, as it is zero there ... *)
Theorem C110_unpenalized_refuted : forall labels given f g s cur new slope h, let w := group_weight given labels in (forall k, In k labels -> 0 <= w k) -> In h labels -> w h = 0 -> 0 <= cur -> is_gradient (length labels) f s g -> length s = length labels ->
  (forall v, length v = length labels -> group_objective labels f w cur s <= group_objective labels f w cur v) -> 0 < new - slope * (cur - new) -> ~ In h (g_strong_set labels (filled given labels) cur new slope g).
Proof. exact unpenalized_discarded. Qed.
Print Assumptions C110_unpenalized_refuted.
(** ... though their coefficients can be anything: one feature without weight, whose coefficient at the only minimizer is c for every value of the parameter. *)
Theorem C110_lost_refuted : forall c cur new, 0 < new <= cur -> cur < 2 * new -> is_gradient 1 (half_dist [c]) [c] [0] /\
  (forall lam v, length v = 1%nat -> v <> [c] -> group_objective [1%Z] (half_dist [c]) (group_weight (fun _ => Some 0) [1%Z]) lam [c] < group_objective [1%Z] (half_dist [c]) (group_weight (fun _ => Some 0) [1%Z]) lam v) /\
  g_strong_set [1%Z] (filled (fun _ => Some 0) [1%Z]) cur new 1 [0] = [].
Proof. exact free_lost. Qed.
Print Assumptions C110_lost_refuted.
(** Two groups of one feature: at cur = 5/4 the gradient is (-5/4, -1/2), at new = 1 it is (-1, -1/2); the second group is discarded, the first kept. *)
Example C110_case : let given := fun _ : Z => Some 1 in let labels := [1; 2]%Z in
  is_gradient 2 (half_dist [3; / 2]) [2; 0] [-1; - / 2] /\ (forall v, length v = 2%nat -> group_objective labels (half_dist [3; / 2]) (group_weight given labels) 1 [2; 0] <= group_objective labels (half_dist [3; / 2]) (group_weight given labels) 1 v) /\
  norm (block labels 2 (vsub [-1; - / 2] [- (5 / 4); - / 2])) <= 1 * (5 / 4 - 1) * 1 /\ g_strong_set labels (filled given labels) (5 / 4) 1 1 [- (5 / 4); - / 2] = [1%Z].
Proof.
  cbv zeta. split; [|split; [|split]].
  - assert (G := half_dist_gradient [3; / 2] [2; 0] eq_refl). cbn in G. replace (2 - 3) with (-1) in G by ring. replace (0 - / 2) with (- / 2) in G by ring. exact G.
  - intros [|a [|b [|]]] L; try discriminate. unfold group_objective, group_penalty, half_dist, group_weight. cbn. rewrite !norm1. unfold sqn, dot. cbn. rewrite (Rabs_right 2), Rabs_R0 by lra.
    unfold Rabs. destruct (Rcase_abs a), (Rcase_abs b); assert (Qa := Rle_0_sqr (a - 2)); assert (Qb := Rle_0_sqr b); unfold Rsqr in *; lra.
  - cbn. rewrite norm1. replace (- / 2 - - / 2) with 0 by ring. rewrite Rabs_R0. lra.
  - unfold g_strong_set, g_terms. cbn. rewrite !norm1, !Rabs_Ropp, !Rabs_right by lra. destruct (Rlt_dec 0 1); [|lra]. cbn. destruct (Rle_dec _ (5 / 4 / 1)); [|lra]. cbn. destruct (Rle_dec _ (/ 2 / 1)); [lra|]. reflexivity.
Qed.

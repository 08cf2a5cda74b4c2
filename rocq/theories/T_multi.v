(** C75: the multiscale transform. *)
From Coq Require Import Reals List Lra Lia Arith ZArith.
From Verif Require Import Vec Spec SpecLoss M_quad M_slope M_affine P_quad P_sep P_cv P_fused M_multi SpecMulti P_multi P_multi2 P_multi3 P_multi4.
Import ListNotations.
Local Open Scope R_scope.

(** After any proper updates, copies and evaluations, an instance computes what was asked for last: the centered signal averaged over the intervals, times the scaling; the adjoint is the adjoint. *)
Theorem C75_history : forall p minsize slices sc ops x v,
  (1 <= p)%nat -> size_ok minsize -> Forall (slice_ok p) slices -> scaling_fits sc (length (ms_slices (ms_new p minsize slices sc))) -> Forall (mop_ok p) ops ->
  let M0 := ms_new p minsize slices sc in let M := mrun M0 ops in let asked := fold_left masked ops (ms_slices M0, sc) in
  length x = p -> length v = length (fst asked) ->
  let y := doc_multi (fst asked) (snd asked) x in
  ms_linear M x = Ok y /\ ms_affine M x = Ok y /\ exists a, ms_adjoint M v = Ok a /\ length a = p /\ dot y v = dot x a.
Proof. exact multi_history. Qed.
Print Assumptions C75_history.
Example C75_instance : let ops := [MCopy; MUpdate true [(1, 4); (0, 2)]%Z (FScal 2); MLinear [1; 2; 3; 4]] in
  size_ok (Some 2%Z) /\ Forall (slice_ok 4) [(0, 2)%Z] /\ scaling_fits (FVec [3]) (length (ms_slices (ms_new 4 (Some 2%Z) [(0, 2)%Z] (FVec [3])))) /\ Forall (mop_ok 4) ops /\
  fold_left masked ops ([(0, 2)%Z], FVec [3]) = ([(1, 4); (0, 2)]%Z, FScal 2).
Proof.
  cbv zeta. split; [unfold size_ok; lia|]. split; [repeat constructor; cbn; lia|]. split; [reflexivity|]. split; [|reflexivity].
  repeat (apply Forall_cons || apply Forall_nil); unfold mop_ok; auto. split; [discriminate|]. split; [|exact I]. repeat constructor; cbn; lia.
Qed.
(** The instances of the theorems below, ms_ok, are those that proper uses lead to. *)
Theorem C75_reachable : forall p minsize slices sc ops, (1 <= p)%nat -> size_ok minsize -> Forall (slice_ok p) slices -> scaling_fits sc (length (ms_slices (ms_new p minsize slices sc))) -> Forall (mop_ok p) ops ->
  let M0 := ms_new p minsize slices sc in let M := mrun M0 ops in ms_ok M /\ ms_p M = p /\ ms_slices M = fst (fold_left masked ops (ms_slices M0, sc)).
Proof. exact multi_reachable. Qed.
Print Assumptions C75_reachable.
(** Without intervals, the constructor takes those of at least the minimal size that end before the last point, each once. *)
Theorem C75_all_slices : forall p minsize sc, let M := ms_new p minsize [] sc in
  NoDup (ms_slices M) /\ forall i j, In (i, j) (ms_slices M) <-> (0 <= i < Z.of_nat p /\ 0 <= j < Z.of_nat p /\ ms_minsize M <= j - i)%Z.
Proof. exact all_slices. Qed.
Print Assumptions C75_all_slices.
(** The default minimal size is the integer nearest to the cube root. *)
Theorem C75_default_size : forall p, (1 <= p)%nat -> let k := round_cbrt p in (1 <= k)%Z /\ ((2 * k - 1) ^ 3 < 8 * Z.of_nat p < (2 * k + 1) ^ 3)%Z.
Proof. exact round_cbrt_spec. Qed.
Print Assumptions C75_default_size.
(** An interval that ends with the signal is never among them. *)
Theorem C75_last_refuted : forall p m sc, (1 <= m <= Z.of_nat p)%Z ->
  let last := (Z.of_nat p - m, Z.of_nat p)%Z in slice_ok p last /\ ~ In last (ms_slices (ms_new p (Some m) [] sc)).
Proof. exact multi_last_missing. Qed.
Print Assumptions C75_last_refuted.
(** The code for all intervals and the code for a list of intervals agree, ... *)
Theorem C75_same : forall p minsize sc x v, (1 <= p)%nat -> size_ok minsize ->
  let A := ms_new p minsize [] sc in let B := ms_new p minsize (ms_slices A) sc in
  ms_slices A <> [] -> scaling_fits sc (length (ms_slices A)) -> length x = p -> length v = length (ms_slices A) -> ms_linear A x = ms_linear B x /\ ms_adjoint A v = ms_adjoint B v.
Proof. exact multi_same. Qed.
Print Assumptions C75_same.
Example C75_all_instance : In (0, 3)%Z (ms_slices (ms_new 4 (Some 2%Z) [] FNone)) /\ In (1, 3)%Z (ms_slices (ms_new 4 (Some 2%Z) [] FNone)).
Proof. split; vm_compute; auto. Qed.
(** ... a constant signal is mapped to zero, and the adjoint has mean zero. *)
Theorem C75_constants : forall M c v, ms_ok M -> length v = length (ms_slices M) ->
  ms_linear M (const_vec (ms_p M) c) = Ok (zeros (length (ms_slices M))) /\ exists a, ms_adjoint M v = Ok a /\ vsum a = 0.
Proof. exact multi_constants. Qed.
Print Assumptions C75_constants.
(** form_matrix gives the rows of the transform whose scaling is the square root of the sizes. *)
Theorem C75_matrix : forall p slices cols len, (1 <= p)%nat -> slices <> [] -> Forall (slice_ok p) slices -> form_matrix p slices = Ok (cols, len) ->
  len = sizes_of slices /\ Forall (fun c => length c = p) cols /\
  forall minsize x, length x = p -> ms_linear (ms_new p minsize slices (FVec (map sqrt len))) x = Ok (map (fun c => dot c x) cols).
Proof. exact multi_matrix. Qed.
Print Assumptions C75_matrix.
(** SMUCE_stat returns the largest interval statistic and an interval that attains it, ... *)
Theorem C75_smuce : forall M z, ms_ok M -> ms_slices M <> [] -> length z = ms_p M -> deviation z <> 0 ->
  exists t s, snd (smuce M z None) = Ok (t, s) /\ In s (ms_slices M) /\ t = interval_stat z s /\ forall s', In s' (ms_slices M) -> interval_stat z s' <= t.
Proof. exact smuce_value. Qed.
Print Assumptions C75_smuce.
(** ... but leaves the instance with another scaling, ... *)
Theorem C75_smuce_scaling_refuted : forall M z sg x, ms_ok M -> length x = ms_p M -> ms_linear (fst (smuce M z sg)) x = Ok (doc_multi (ms_slices M) (FVec (map sqrt (ms_sizes M))) x).
Proof. exact smuce_leaves. Qed.
Print Assumptions C75_smuce_scaling_refuted.
Theorem C75_smuce_changes_refuted : exists M z x, ms_ok M /\ snd (smuce M z None) <> Err NaNResult /\ ms_linear (fst (smuce M z None)) x <> ms_linear M x.
Proof. exact smuce_changes. Qed.
Print Assumptions C75_smuce_changes_refuted.
(** ... and fails when a noise level is given. *)
Theorem C75_sigma_refuted : forall M z s, snd (smuce M z (Some s)) = Err NameError.
Proof. exact smuce_sigma. Qed.
Print Assumptions C75_sigma_refuted.
(** An update with an empty list fails, and leaves an instance that answers zeros of the old length. *)
Theorem C75_update_refuted : forall M sc x, ms_ok M -> ms_all M = false -> x <> [] ->
  snd (ms_update M false [] sc) = Err IndexError /\ ms_linear (fst (ms_update M false [] sc)) x = Ok (zeros (length (ms_slices M))).
Proof. exact multi_update_fails. Qed.
Print Assumptions C75_update_refuted.
Example C75_ok_instance : ms_ok (ms_new 4 (Some 2%Z) [(0, 2)%Z] FNone) /\ ms_all (ms_new 4 (Some 2%Z) [(0, 2)%Z] FNone) = false.
Proof. split; auto. apply new_ok; [lia|unfold size_ok; lia| |exact I]. repeat constructor; cbn; lia. Qed.

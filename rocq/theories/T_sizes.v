(** C106: a transform given a vector that does not have its input_shape (or output_shape, for the adjoint). *)
From Coq Require Import Reals List Lra Lia Arith Bool.
From Verif Require Import Vec Spec M_affine SpecAffine M_dense SpecDense P_dense P_sizes.
Import ListNotations.
Local Open Scope R_scope.

(** hstack, product and selector, and the adjoints of vstack and product, ignore the entries after the last one they expect:
    whatever those are the answer is the one for the first entries. *)
Theorem C106_long_refuted : forall (x z : vec),
  (forall ts, length x = list_sum (map e_in ts) -> (forall m, m <> Adj -> ap m (EHstack ts) (A1 (x ++ z)) = ap m (EHstack ts) (A1 x)) /\ (forall m, m <> Adj -> ap m (EProduct ts) (A1 (x ++ z)) = ap m (EProduct ts) (A1 x))) /\
  (forall ts, length x = list_sum (map e_out ts) -> ap Adj (EVstack ts) (A1 (x ++ z)) = ap Adj (EVstack ts) (A1 x) /\ ap Adj (EProduct ts) (A1 (x ++ z)) = ap Adj (EProduct ts) (A1 x)) /\
  (forall idx t m, m <> Adj -> Forall (fun i => (i < length x)%nat) idx -> ap m (ESelector idx (length x) t) (A1 (x ++ z)) = ap m (ESelector idx (length x) t) (A1 x)).
Proof. exact long_ignored. Qed.
Print Assumptions C106_long_refuted.
(** identity and centering take vectors of any length; scaler and a one-entry diagonal or offset stretch to the other's length. *)
Theorem C106_any_length_refuted : forall m (x : vec) a,
  (forall n, ap m (EIdentity n) (A1 x) = Ok (A1 x) /\ ap m (ECentering n) (A1 x) = Ok (A1 (center x))) /\
  ap m (EScaler x) (A1 [a]) = Ok (A1 (map (fun c => c * a) x)) /\ ap m (EDiagonal [a] None) (A1 x) = Ok (A1 (map (fun c => a * c) x)) /\
  ap Aff (EShift [a]) (A1 x) = Ok (A1 (map (fun c => a + c) x)).
Proof. exact any_length. Qed.
Print Assumptions C106_any_length_refuted.
(** Everything that is refused: a matrix or diagonal of another size, an offset of another size, a selector of a missing position, a sum of no transforms, *)
Theorem C106_sizes_partial : forall (x : vec),
  (forall D n o m, length x <> (match m with Adj => length D | _ => n end) -> ap m (EMatrix D n o) (A1 x) = Err ValueError) /\
  (forall d o m, length x <> length d -> length d <> 1%nat -> ap m (EDiagonal d o) (A1 x) = Err ValueError) /\
  (forall a, length x <> length a -> length a <> 1%nat -> ap Aff (EShift a) (A1 x) = Err ValueError) /\
  (forall n m, length x <> n -> ap m (EReshape n) (A1 x) = Err ValueError) /\
  (forall idx n t m i, m <> Adj -> In i idx -> (length x <= i)%nat -> ap m (ESelector idx n t) (A1 x) = Err IndexError) /\
  (forall w m, ap m (ESum [] w) (A1 x) = Err IndexError).
Proof.
  intros x. split; [intros; apply matrix_raises; auto|]. split; [intros; apply diagonal_raises; auto|]. split; [intros; apply shift_raises; auto|]. split; [intros; apply flat_bad; auto|].
  split; [intros idx n t m i; apply selector_raises|]. intros [|a w] m; reflexivity.
Qed.
Print Assumptions C106_sizes_partial.
(** and a vector too short for a stack, however it is nested and whatever its parts. *)
Theorem C106_short_partial :
  (forall t S x m, denotes t S -> (exists ts, t = EHstack ts \/ t = EProduct ts) -> m <> Adj -> (length x < src m S)%nat -> ap m t (A1 x) = Err ValueError) /\
  (forall ts S x, denotes (EVstack ts) S -> (length x < t_out S)%nat -> ap Adj (EVstack ts) (A1 x) = Err ValueError).
Proof. split; [exact short_raises|exact short_adjoint_raises]. Qed.
Print Assumptions C106_short_partial.
(** hstack of a 1 x 2 matrix and an identity: three entries expected, the fourth is ignored, two raise *)
Example C106_case : exists S, denotes (EHstack [EMatrix [[1; 2]] 2 None; EIdentity 1]) S /\ t_in S = 3%nat /\
  ap Lin (EHstack [EMatrix [[1; 2]] 2 None; EIdentity 1]) (A1 [1; 2; 3; 100]) = ap Lin (EHstack [EMatrix [[1; 2]] 2 None; EIdentity 1]) (A1 [1; 2; 3]) /\
  ap Lin (EHstack [EMatrix [[1; 2]] 2 None; EIdentity 1]) (A1 [1; 2]) = Err ValueError.
Proof.
  assert (E : exists S, hstack [matrix [[1; 2]] 2 None; identity 1] = Ok S /\ t_in S = 3%nat) by (unfold hstack; cbn; eexists; split; reflexivity). destruct E as (S & E & L). exists S.
  assert (D : denotes (EHstack [EMatrix [[1; 2]] 2 None; EIdentity 1]) S).
  { apply (d_hstack [(EMatrix [[1; 2]] 2 None, matrix [[1; 2]] 2 None); (EIdentity 1, identity 1)]); auto. intros p [<- | [<- | []]]; cbn [fst snd]; constructor; auto; discriminate. }
  split; [exact D|]. split; [exact L|]. split.
  - apply (proj1 (long_ignored [1; 2; 3] [100])); [reflexivity|discriminate].
  - apply (short_raises _ S); eauto; [discriminate|]. cbn [src]. rewrite L. cbn. lia.
Qed.

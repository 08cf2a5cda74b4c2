(** C103: transforms applied to two-dimensional arrays, and todense. *)
From Coq Require Import Reals List Lra Lia Arith Bool.
From Verif Require Import Vec Spec M_affine SpecAffine P_affine P_affine2 M_dense SpecDense P_dense P_dense1 P_dense2 P_dense3.
Import ListNotations.
Local Open Scope R_scope.

(** On a vector of the right length, every expression used legally gives what M_affine's transform gives. *)
Theorem C103_vectors : forall t T, denotes t T -> built T /\ e_in t = t_in T /\ e_out t = t_out T /\
  forall m x, length x = src m T -> ap m t (A1 x) = Ok (A1 (act m T x)) /\ length (act m T x) = dst m T.
Proof. intros t T D. split; [apply (denotes_built t); auto|]. split; [apply denotes_sizes; auto|]. split; [apply denotes_sizes; auto|]. intros m x L. split; [apply ap_vec; auto|apply (act_length m t); auto]. Qed.
Print Assumptions C103_vectors.
(** On a matrix, the map is applied to each column, whatever the number of columns. *)
Theorem C103_columns_partial : forall t T m c U, denotes t T -> columnwise m t = true -> is_matrix (src m T) c U ->
  exists V, ap m t (A2 c U) = Ok (A2 c V) /\ is_matrix (dst m T) c V /\ by_columns (act m T) c U V.
Proof. intros t T m c U D W M. exact (ap_mat t T D m W c U M). Qed.
Print Assumptions C103_columns_partial.
(** todense is the matrix of linear_map, and its transpose that of adjoint_map. *)
Theorem C103_todense_partial : forall t T, denotes t T -> columnwise Lin t = true -> exists V, todense t = Ok (A2 (t_in T) V) /\ is_matrix (t_out T) (t_in T) V /\
  (forall x, length x = t_in T -> t_lin T x = mat_vec V x) /\ (forall u, length u = t_out T -> t_adj T u = mat_tvec (t_in T) V u).
Proof. exact dense_matrix. Qed.
Print Assumptions C103_todense_partial.
(** tensorize: the transform itself, applied to a matrix *)
Theorem C103_tensorize_partial : forall t T q S, denotes t T -> columnwise Lin t = true -> tensorize T q = Ok S -> forall U, is_matrix (t_in T) q U ->
  exists V, ap Lin t (A2 q U) = Ok (A2 q V) /\ is_matrix (t_out T) q V /\ t_lin S (flattened q U) = flattened q V.
Proof. exact tensor_columns. Qed.
Print Assumptions C103_tensorize_partial.

(** Stacks raise on every matrix that does not have a single column. *)
Theorem C103_stacks_refuted :
  (forall t T ts c U, denotes t T -> columnwise Lin t = true -> is_matrix (t_in T) c U -> c <> 1%nat -> ap Lin (EVstack (t :: ts)) (A2 c U) = Err ValueError) /\
  (forall t ts c U, (1 <= e_in t)%nat -> (e_in t <= length U)%nat -> c <> 1%nat -> ap Lin (EHstack (t :: ts)) (A2 c U) = Err ValueError /\ ap Lin (EProduct (t :: ts)) (A2 c U) = Err ValueError) /\
  (forall t ts c U, (1 <= e_out t)%nat -> (e_out t <= length U)%nat -> c <> 1%nat -> ap Adj (EVstack (t :: ts)) (A2 c U) = Err ValueError) /\
  (forall t T ts c U, denotes t T -> columnwise Adj t = true -> is_matrix (t_out T) c U -> (1 <= t_in T)%nat -> (2 <= c)%nat -> ap Adj (EHstack (t :: ts)) (A2 c U) = Err ValueError) /\
  (forall t T ts n c U, denotes t T -> columnwise Adj t = true -> is_matrix n c U -> (t_out T <= n)%nat -> (1 <= t_in T)%nat -> (2 <= c)%nat -> ap Adj (EProduct (t :: ts)) (A2 c U) = Err ValueError).
Proof.
  split; [intros t T ts c U D W M H; apply (vstack_raises t T); auto|]. split; [exact hstack_raises|]. split; [exact vstack_adj_raises|]. split; [exact hstack_adj_raises|exact product_adj_raises].
Qed.
Print Assumptions C103_stacks_refuted.
(** So do the adjoints of add_intercept and selector, and reshape. *)
Theorem C103_adjoints_refuted :
  (forall t T c U, denotes t T -> columnwise Adj t = true -> is_matrix (t_out T) c U -> ap Adj (EIntercept t) (A2 c U) = Err ValueError) /\
  (forall idx n t T c U, denotes t T -> columnwise Adj t = true -> t_in T = length idx -> is_matrix (t_out T) c U -> c <> 1%nat -> ap Adj (ESelector idx n t) (A2 c U) = Err ValueError) /\
  (forall m n c U, is_matrix n c U -> (1 <= n)%nat -> c <> 1%nat -> ap m (EReshape n) (A2 c U) = Err ValueError).
Proof. split; [exact intercept_adj_raises|]. split; [exact selector_adj_raises|exact reshape_raises]. Qed.
Print Assumptions C103_adjoints_refuted.
(** scaler multiplies the columns of a matrix by the scalings, not its rows, or raises. *)
Theorem C103_scaler_refuted :
  (forall m s n U, is_matrix n (length s) U -> exists V, ap m (EScaler s) (A2 (length s) U) = Ok (A2 (length s) V) /\ is_matrix n (length s) V /\
     forall j, (j < length s)%nat -> column V j = vscal (nth j s 0) (column U j)) /\
  (forall m s c U, length s <> 1%nat -> c <> 1%nat -> c <> length s -> ap m (EScaler s) (A2 c U) = Err ValueError).
Proof. split; [exact scaler_columns|exact scaler_raises]. Qed.
Print Assumptions C103_scaler_refuted.
(** todense of a scaler composed with a square matrix: column j is s[j] times that of the matrix, when it should be s times it. *)
Theorem C103_scaled_todense_refuted : forall s D, Forall (fun r => length r = length s) D -> length D = length s ->
  exists V T, denotes (EComposition [EScaler s; EMatrix D (length s) None]) T /\ todense (EComposition [EScaler s; EMatrix D (length s) None]) = Ok (A2 (length s) V) /\
    forall j, (j < length s)%nat -> column V j = vscal (nth j s 0) (column D j) /\ column_of T j = vmul s (column D j).
Proof. exact scaled_dense. Qed.
Print Assumptions C103_scaled_todense_refuted.
(** todense of stacks, and of aslinear of a matrix that is not square *)
Theorem C103_todense_refuted :
  (forall t T ts, denotes t T -> columnwise Lin t = true -> t_in T <> 1%nat -> todense (EVstack (t :: ts)) = Err ValueError) /\
  (forall t ts, (1 <= e_in t)%nat -> list_sum (map e_in (t :: ts)) <> 1%nat -> todense (EHstack (t :: ts)) = Err ValueError /\ todense (EProduct (t :: ts)) = Err ValueError) /\
  (forall D n o, length D <> n -> todense (EAslinear (EMatrix D n o)) = Err ValueError).
Proof. split; [exact stacks_dense|]. split; [exact hstacks_dense|exact aslinear_dense]. Qed.
Print Assumptions C103_todense_refuted.

(** normalize(M) with an intercept is such an expression; so is the adjoint of a residual of a sum. *)
Example C103_case : let M := EMatrix [[1; 2]; [3; 5]; [4; 4]] 2 None in
  let t := EIntercept (EComposition [ECentering 3; M; EDiagonal [1; 2] None]) in
  (exists T, denotes t T /\ t_in T = 3%nat /\ t_out T = 3%nat) /\ columnwise Lin t = true /\ columnwise Aff t = true.
Proof.
  cbv zeta. split; [|split; reflexivity]. set (M := matrix [[1; 2]; [3; 5]; [4; 4]] 2 None). destruct (composition [centering 3; M; diagonal [1; 2] None]) as [C|] eqn:E; [|discriminate].
  assert (S : t_in C = 2%nat /\ t_out C = 3%nat) by (injection E as <-; auto). exists (add_intercept C). split; [|cbn; destruct S as [-> ->]; auto]. apply d_intercept.
  apply (d_composition [(ECentering 3, centering 3); (EMatrix [[1; 2]; [3; 5]; [4; 4]] 2 None, M); (EDiagonal [1; 2] None, diagonal [1; 2] None)]); [|cbn; auto|exact E].
  intros p [<-|[<-|[<-|[]]]]; [apply d_centering|apply d_matrix; [repeat constructor|discriminate]|apply d_diagonal; discriminate].
Qed.
Example C103_adjoint_case : let t := EAdjoint (EResidual (ESum [EMatrix [[1; 2]; [3; 5]] 2 (Some [1; 1]); EShift [7; 8]] [2; 3])) in
  (exists T, denotes t T) /\ forall m, columnwise m t = true.
Proof.
  cbv zeta. split; [|intros [| |]; reflexivity]. set (A := matrix [[1; 2]; [3; 5]] 2 (Some [1; 1])). destruct (affine_sum [A; shift_only [7; 8]] (Some [2; 3])) as [S|] eqn:E; [|discriminate].
  assert (Z : t_in S = 2%nat /\ t_out S = 2%nat). { unfold affine_sum in E. cbn [length Nat.eqb negb] in E. injection E as <-. auto. }
  destruct (residual S) as [Q|] eqn:EQ; [|exfalso; destruct Z as [Z1 Z2]; unfold residual in EQ; rewrite Z1, Z2 in EQ; discriminate]. exists (adjoint Q). apply d_adjoint. apply (d_residual _ S); auto.
  apply (d_sum [(EMatrix [[1; 2]; [3; 5]] 2 (Some [1; 1]), A); (EShift [7; 8], shift_only [7; 8])]); [| |exact E].
  - intros p [<-|[<-|[]]]; [apply d_matrix; [repeat constructor|intros a H; injection H as <-; reflexivity]|apply d_shift].
  - intros t t' [<-|[<-|[]]] [<-|[<-|[]]]; auto.
Qed.
(** the dense matrix of scaler([1, 2]) after [[1, 1], [1, 1]]: [[1, 2], [1, 2]], when the transform is [[1, 1], [2, 2]] *)
Example C103_scaled_case : exists V, todense (EComposition [EScaler [1; 2]; EMatrix [[1; 1]; [1; 1]] 2 None]) = Ok (A2 2 V) /\ column V 1 = [2; 2].
Proof.
  destruct (scaled_dense [1; 2] [[1; 1]; [1; 1]]) as (V & T & _ & E & C); [repeat constructor|reflexivity|]. exists V. split; [exact E|]. destruct (C 1%nat) as [-> _]; [cbn; lia|]. cbn. repeat f_equal; lra.
Qed.

(** What a transform does to a two-dimensional array, and which expressions stand for which transforms. *)
From Coq Require Import Reals List Arith Bool.
From Verif Require Import Vec Spec M_affine SpecAffine M_dense.
Import ListNotations.
Local Open Scope R_scope.

(** The expression, used legally, builds a transform whose maps on vectors are those of T. *)
Inductive denotes : tr -> transform -> Prop :=
| d_matrix : forall D n o, Forall (fun r => length r = n) D -> (forall a, o = Some a -> length a = length D) -> denotes (EMatrix D n o) (matrix D n o)
| d_diagonal : forall d o, (forall a, o = Some a -> length a = length d) -> denotes (EDiagonal d o) (diagonal d o)
| d_shift : forall a, denotes (EShift a) (shift_only a)
| d_wrap : forall t T o, denotes t T -> wraps T -> (forall a, o = Some a -> length a = t_out T) -> denotes (EWrap t o) (wrap T o)
| d_selector : forall idx n t T S, denotes t T -> NoDup idx -> Forall (fun i => (i < n)%nat) idx -> t_in T = length idx -> selector idx n T = Ok S ->
    denotes (ESelector idx n t) S
| d_scaler : forall s, denotes (EScaler s) (scaler s)
| d_reshape : forall n, denotes (EReshape n) (reshape n)
| d_intercept : forall t T, denotes t T -> denotes (EIntercept t) (add_intercept T)
| d_centering : forall n, denotes (ECentering n) (centering n)
| d_identity : forall n, denotes (EIdentity n) (identity n)
| d_vstack : forall ps S, (forall p, In p ps -> denotes (fst p) (snd p)) -> vstack (map snd ps) = Ok S -> denotes (EVstack (map fst ps)) S
| d_hstack : forall ps S, (forall p, In p ps -> denotes (fst p) (snd p)) -> hstack (map snd ps) = Ok S -> denotes (EHstack (map fst ps)) S
| d_product : forall ps, (forall p, In p ps -> denotes (fst p) (snd p)) -> denotes (EProduct (map fst ps)) (product (map snd ps))
| d_aslinear : forall t T, denotes t T -> t_in T = t_out T -> denotes (EAslinear t) (aslinear T)
| d_adjoint : forall t T, denotes t T -> denotes (EAdjoint t) (adjoint T)
| d_residual : forall t T S, denotes t T -> residual T = Ok S -> denotes (EResidual t) S
| d_composition : forall ps S, (forall p, In p ps -> denotes (fst p) (snd p)) -> chained (map snd ps) -> composition (map snd ps) = Ok S -> denotes (EComposition (map fst ps)) S
| d_sum : forall ps w S, (forall p, In p ps -> denotes (fst p) (snd p)) ->
    (forall t t', In t (map snd ps) -> In t' (map snd ps) -> t_in t = t_in t' /\ t_out t = t_out t') -> affine_sum (map snd ps) (Some w) = Ok S -> denotes (ESum (map fst ps) w) S
| d_scalar : forall t T a, denotes t T -> denotes (EScalar t a) (scalar_multiply T a).

(** linear_map, affine_map or adjoint_map of a vector, the length it expects and the length of its result *)
Definition act (m : mode) (T : transform) : vec -> vec := match m with Lin => t_lin T | Aff => t_aff T | Adj => t_adj T end.
Definition src (m : mode) (T : transform) : nat := match m with Adj => t_out T | _ => t_in T end.
Definition dst (m : mode) (T : transform) : nat := match m with Adj => t_in T | _ => t_out T end.
(** rows of a two-dimensional array of shape (n, c) *)
Definition is_matrix (n c : nat) (U : list vec) : Prop := length U = n /\ Forall (fun r => length r = c) U.
(** The map f applied to every column of U gives V. *)
Definition by_columns (f : vec -> vec) (c : nat) (U V : list vec) : Prop := forall j, (j < c)%nat -> column V j = f (column U j).
(** Expressions whose map is claimed to act on two-dimensional arrays column by column: no stack, scaler or reshape, and no
    selector or intercept whose adjoint is used. *)
Fixpoint columnwise (m : mode) (t : tr) : bool :=
  match t with
  | EMatrix _ _ _ | EDiagonal _ _ | EShift _ | ECentering _ | EIdentity _ => true
  | EWrap t _ => columnwise m t
  | ESelector _ _ t | EIntercept t => match m with Adj => false | _ => columnwise m t end
  | EScaler _ | EReshape _ | EVstack _ | EHstack _ | EProduct _ => false
  | EAslinear t => columnwise (match m with Adj => Adj | _ => Lin end) t
  | EAdjoint t => columnwise (match m with Adj => Lin | _ => Adj end) t
  | EResidual t => columnwise m t
  | EComposition ts => forallb (columnwise m) ts
  | ESum ts _ => forallb (columnwise m) ts
  | EScalar t _ => columnwise m t
  end.
(** the columns of a two-dimensional array, one after the other *)
Definition flattened (c : nat) (U : list vec) : vec := concat (map (column U) (seq 0 c)).

(** What an affine transform should satisfy, and the transforms a user can build. *)
From Coq Require Import Reals List Arith.
From Verif Require Import Vec Spec M_affine.
Import ListNotations.
Local Open Scope R_scope.

(** adjoint_map is the adjoint of linear_map, and both map between the reported shapes. *)
Definition true_adjoint (t : transform) : Prop :=
  (forall x, length x = t_in t -> length (t_lin t x) = t_out t) /\
  (forall u, length u = t_out t -> length (t_adj t u) = t_in t) /\
  forall x u, length x = t_in t -> length u = t_out t -> dot (t_lin t x) u = dot x (t_adj t u).
(** linear_map is linear. *)
Definition linear (t : transform) : Prop :=
  (forall x y, length x = t_in t -> length y = t_in t -> t_lin t (vadd x y) = vadd (t_lin t x) (t_lin t y)) /\
  (forall c x, length x = t_in t -> t_lin t (vscal c x) = vscal c (t_lin t x)).
(** affine_map differs from linear_map by the constant affine_map(0). *)
Definition affine (t : transform) : Prop :=
  length (t_aff t (zeros (t_in t))) = t_out t /\
  forall x, length x = t_in t -> t_aff t x = vadd (t_lin t x) (t_aff t (zeros (t_in t))).
(** affine_map(x) = linear_map(x) + affine_offset, None standing for 0. *)
Definition reports_offset (t : transform) : Prop :=
  match t_off t with
  | None => False
  | Some None => forall x, length x = t_in t -> t_aff t x = t_lin t x
  | Some (Some a) => forall x, length x = t_in t -> t_aff t x = vadd (t_lin t x) a
  end.
(** Consecutive transforms fit, for execution from right to left. *)
Fixpoint chained (ts : list transform) : Prop :=
  match ts with
  | t :: ((t' :: _) as rest) => t_in t = t_out t' /\ chained rest
  | _ => True
  end.
(** Legal use of the constructors, to any depth. *)
Inductive built : transform -> Prop :=
| b_matrix : forall D n o, Forall (fun r => length r = n) D -> (forall a, o = Some a -> length a = length D) -> built (matrix D n o)
| b_diagonal : forall d o, (forall a, o = Some a -> length a = length d) -> built (diagonal d o)
| b_shift_only : forall a, built (shift_only a)
| b_wrap : forall t o, built t -> wraps t -> (forall a, o = Some a -> length a = t_out t) -> built (wrap t o)
| b_selector : forall idx n t T, built t -> NoDup idx -> Forall (fun i => (i < n)%nat) idx -> t_in t = length idx -> selector idx n t = Ok T -> built T
| b_scaler : forall s, built (scaler s)
| b_reshape : forall n, built (reshape n)
| b_add_intercept : forall t, built t -> built (add_intercept t)
| b_centering : forall n, built (centering n)
| b_identity : forall n, built (identity n)
| b_vstack : forall ts T, (forall t, In t ts -> built t) -> vstack ts = Ok T -> built T
| b_hstack : forall ts T, (forall t, In t ts -> built t) -> hstack ts = Ok T -> built T
| b_product : forall ts, (forall t, In t ts -> built t) -> built (product ts)
| b_aslinear : forall t, built t -> t_in t = t_out t -> built (aslinear t)
| b_adjoint : forall t, built t -> built (adjoint t)
| b_tensorize_matrix : forall D n o q T, built (matrix D n o) -> tensorize (matrix D n o) q = Ok T -> built T
| b_tensorize_diagonal : forall d o q T, built (diagonal d o) -> tensorize (diagonal d o) q = Ok T -> built T
| b_residual : forall t T, built t -> residual t = Ok T -> built T
| b_composition : forall ts T, (forall t, In t ts -> built t) -> chained ts -> composition ts = Ok T -> built T
| b_affine_sum : forall ts w T, (forall t, In t ts -> built t) -> (forall t t', In t ts -> In t' ts -> t_in t = t_in t' /\ t_out t = t_out t') ->
    affine_sum ts w = Ok T -> built T
| b_scalar_multiply : forall t c, built t -> built (scalar_multiply t c)
| b_posneg : forall t, built t -> built (posneg t)
| b_block_columns : forall ts T, (forall t, In t ts -> built t) -> block_columns ts = Ok T -> built T
| b_block_rows : forall ts T, (forall t, In t ts -> built t) -> block_rows ts = Ok T -> built T.

(** Transforms whose affine_offset is the constant they add: the library's other constructors read it wrongly. *)
Inductive reported : transform -> Prop :=
| r_matrix : forall D n o, built (matrix D n o) -> reported (matrix D n o)
| r_diagonal : forall d o, built (diagonal d o) -> reported (diagonal d o)
| r_shift_only : forall a, reported (shift_only a)
| r_wrap : forall t o, built (wrap t o) -> reported t -> t_off t = Some None -> reported (wrap t o)
| r_selector : forall idx n t T, built T -> t_in t = length idx -> reported t -> selector idx n t = Ok T -> reported T
| r_centering : forall n, reported (centering n)
| r_identity : forall n, reported (identity n)
| r_vstack : forall ts T, (forall t, In t ts -> built t) -> vstack ts = Ok T -> reported T
| r_hstack : forall ts T, (forall t, In t ts -> built t) -> hstack ts = Ok T -> reported T
| r_product : forall ts, (forall t, In t ts -> built t) -> reported (product ts)
| r_aslinear : forall t, reported (aslinear t)
| r_adjoint : forall t, reported (adjoint t)
| r_tensorize_matrix : forall D n o q T, built (matrix D n o) -> tensorize (matrix D n o) q = Ok T -> reported T
| r_tensorize_diagonal : forall d o q T, built (diagonal d o) -> tensorize (diagonal d o) q = Ok T -> reported T
| r_residual : forall t T, reported t -> t_off t = Some None -> residual t = Ok T -> reported T
| r_composition : forall ts T, (forall t, In t ts -> built t) -> (forall t, In t ts -> reported t) -> (forall t, In t ts -> t_off t = Some None) -> chained ts -> composition ts = Ok T -> reported T
| r_affine_sum : forall ts w T, (forall t, In t ts -> built t) -> (forall t, In t ts -> reported t) -> (forall t, In t ts -> t_off t = Some None) ->
    (forall t t', In t ts -> In t' ts -> t_in t = t_in t' /\ t_out t = t_out t') -> affine_sum ts w = Ok T -> reported T
| r_scalar_multiply : forall t c, reported t -> t_off t = Some None -> reported (scalar_multiply t c)
| r_posneg : forall t, reported (posneg t).

(** Column j of the matrix a transform stands for. *)
Definition column_of (t : transform) (j : nat) : vec := t_lin t (unit_vec (t_in t) j).
Definition mean (v : vec) : R := vsum v / INR (length v).
(** L bounds the squared operator norm of the linear part. *)
Definition opnorm_bound (t : transform) (L : R) : Prop := forall x, length x = t_in t -> sqn (t_lin t x) <= L * sqn x.

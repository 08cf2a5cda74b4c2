(** Model of regreg/affine/fused_lasso.py. *)
From Coq Require Import Reals List Arith.
From Verif Require Import Vec Spec M_affine M_slope.
Import ListNotations.
Local Open Scope R_scope.

(** inv_steps, regreg/affine/fused_lasso.py:42-43 *)
Definition inv_step (s : R) : R := if Req_EM_T s 0 then 0 else 1 / s.
(** D of pass j, regreg/affine/fused_lasso.py:40-44: rows inv_steps[i] * (e_{i+1} - e_i) *)
Definition diff_step (X : vec) (j : nat) : list vec :=
  let n := length X in
  map (fun i => vscal (inv_step (nth (i + j) X 0 - nth i X 0)) (vsub (unit_vec (n - j + 1) (S i)) (unit_vec (n - j + 1) i))) (seq 0 (n - j)).
(** np.dot of two matrices, the second one with p columns *)
Definition mat_mul (A B : list vec) (p : nat) : list vec := map (mat_tvec p B) A.
(** Dfinal after [order] passes, regreg/affine/fused_lasso.py:38-45 *)
Fixpoint diff_matrix (X : vec) (order : nat) : list vec :=
  match order with
  | O => map (unit_vec (length X)) (seq 0 (length X))
  | S k => mat_mul (diff_step X (S k)) (diff_matrix X k) (length X)
  end.
(** difference_transform, regreg/affine/fused_lasso.py:7-49, as a transform; an order above the number of points fails in
    np.ones(n-j) *)
Definition difference_transform (X : vec) (order : nat) (sorted : bool) : res transform :=
  let X := if sorted then X else np_sort X in
  if Nat.leb order (length X) then Ok (matrix (diff_matrix X order) (length X) None) else Err ValueError.
(** trend_filter, regreg/affine/fused_lasso.py:51-74: the knots are handed on unsorted with sorted=True *)
Definition trend_filter (knots : vec) (order : nat) : res transform :=
  rbind (difference_transform knots order true) (fun D => Ok (mk_transform (t_lin D) (t_lin D) (t_adj D) (Some None) (t_in D) (t_out D))).
Definition steps_of (X : vec) : vec := vsub (tl X) (removelast X).
(** trend_filter_inverse, regreg/affine/fused_lasso.py:77-124, one-dimensional arguments *)
Definition tfi_linear (steps x : vec) : vec := center (0 :: cumsum (vmul x steps)).
Definition tfi_adjoint (steps u : vec) : vec := vmul (rev (cumsum (rev (tl (center u))))) steps.
Definition trend_filter_inverse (knots : vec) (order : nat) : res transform :=
  if negb (Nat.eqb order 1) then Err ValueError else
  rbind (difference_transform knots order true) (fun D =>
  let steps := steps_of (np_sort knots) in
  Ok (mk_transform (tfi_linear steps) (tfi_linear steps) (tfi_adjoint steps) (Some None) (t_out D) (t_in D))).
(** Two-dimensional arguments, as the list of their columns, regreg/affine/fused_lasso.py:104-109, 119-124. The running sum of
    adjoint_map runs along the rows (axis 1), so over the columns before. *)
Definition tfi_linear2 (steps : vec) (X : list vec) : list vec := map (tfi_linear steps) X.
Fixpoint sum_columns (acc : option vec) (l : list vec) : list vec :=
  match l with
  | [] => []
  | c :: l' => let s := match acc with Some a => vadd a c | None => c end in s :: sum_columns (Some s) l'
  end.
Definition tfi_adjoint2 (steps : vec) (U : list vec) : list vec :=
  map (fun c => vmul c steps) (sum_columns None (map (fun u => tl (center u)) U)).

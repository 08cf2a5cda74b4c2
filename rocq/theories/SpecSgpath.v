(** How far from optimal a point accepted by the optimality check of sparse group lasso paths can be. *)
From Coq Require Import Reals List Arith Bool ZArith.
From Verif Require Import M_affine SpecAffine Vec Spec SpecConvex M_loss SpecLoss SpecSmooth M_path SpecPath SpecGroup M_group M_gpath SpecGpath.
Import ListNotations.
Local Open Scope R_scope.

(** the penalty of one group: sum_j a_j |x_j| + w ||x|| *)
Definition group_pen (a : vec) (w : R) (x : vec) : R := vsum (vmul a (map Rabs x)) + w * norm x.
(** A group that counts as active may be off by this much per unit of distance; c is a lower bound for the feature weights a *)
Definition active_error (a : vec) (w c lam tol : R) (s : vec) : R :=
  let d := tol * Rmax 1 (norm s) in
  d * (1 + norm a / c) + 2 * tol * lam * w + d / c * w + (lam + d / c) * (/ 10 ^ 5 + 2 / 10 ^ 6 * (w + / 10 ^ 5 + norm a)).
(** a group that counts as inactive; d is the difference from s *)
Definition inactive_error (a : vec) (w lam tol : R) (s d : vec) : R :=
  2 * lam * group_pen a w s + (lam * (1 + tol) * (1 + 2 / 10 ^ 6) * group_pen a (w + / 10 ^ 5) d - lam * group_pen a w d).
(** sparse group lasso: a group counts as active when its penalty is above 10^-6 times the norm of the solution *)
Definition sparse_error (labels : list Z) (lw : vec) (w : Z -> R) (c lam tol : R) (s v : vec) (g : Z) : R :=
  let a := block labels g lw in let sg := block labels g s in let d := block labels g (vsub v s) in
  if Rlt_dec (/ 10 ^ 6 * norm s) (group_pen a (w g) sg) then active_error a (w g) c lam tol sg * norm d else inactive_error a (w g) lam tol sg d.
(** relative error of the dual norms computed for a group of weight w *)
Definition resolution (w : R) : R := / 10 ^ 5 / w + 2 / 10 ^ 6.
(** weights for which that error is below the tolerance of the check *)
Definition resolved (a : vec) (w lam tol : R) : Prop :=
  0 < w /\ resolution w <= tol /\ resolution w <= 1 / 2 /\ resolution w * lam * norm a <= tol /\ 2 * resolution w * norm a <= tol * w.
(** the answer for the candidate groups S is exact *)
Definition sparse_solves (B : lpath) (labels : list Z) (lw : vec) (w : Z -> R) (lam : R) (S : list Z) (b : vec) : Prop :=
  is_argmin (length (features labels S)) (fun c => let v := embed (lp_size B) (features labels S) c in Fin (smooth_part B lam v + lp_alpha B * lam * sparse_penalty labels lw w v)) b.

(** The problems solved along sparse group block paths, and how far from optimal a point accepted by their optimality check can be. *)
From Coq Require Import Reals List Arith Bool ZArith Permutation.
From Verif Require Import M_affine SpecAffine Vec Spec SpecAtom SpecConvex M_loss SpecLoss SpecSmooth M_path SpecPath SpecBlock SpecGroup M_group M_gpath SpecGpath SpecSgpath M_sbpath.
Import ListNotations.
Local Open Scope R_scope.

(** l1 sum_ij |x_ij| + l2 sum_i ||x_i|| for a matrix with r rows and c columns *)
Definition block_pen (r c : nat) (l1 l2 : R) (x : vec) : R := l1 * ell1 x + l2 * vsum (map ell2 (rows r c x)).
(** one row, at s and moved by d; [total] is the sum of the norms of the rows: rows above tol max(total, 1) are tested as active ones *)
Definition row_error (l1 l2 lam tol total : R) (s d : vec) : R :=
  let a := repeat l1 (length s) in
  if Rlt_dec (tol * Rmax total 1) (norm s) then active_error a l2 l1 lam tol s * norm d else inactive_error a l2 lam tol s d.
Definition block_error (r c : nat) (l1 l2 lam tol : R) (s v : vec) : R :=
  vsum (map (fun p => row_error l1 l2 lam tol (vsum (map norm (rows r c s))) (fst p) (snd p)) (combine (rows r c s) (rows r c (vsub v s)))).
(** half the squared distance to y *)
Definition half_dist (y v : vec) : R := / 2 * sqn (vsub v y).
(** order l sorts the list l *)
Definition sorts (order : list ext -> list nat) : Prop := forall l, Permutation (order l) (seq 0 (length l)) /\
  forall i j, (i <= j < length l)%nat -> ext_le (nth (nth i (order l) 0%nat) l (Fin 0)) (nth (nth j (order l) 0%nat) l (Fin 0)).
(** the elastic net: f(X v) + (1-alpha)/2 lam sum_j e_j v_j^2 + alpha lam (l1 sum |v_ij| + l2 sum_i ||v_i||) *)
Definition block_objective (B : lpath) (r c : nat) (l1 l2 lam : R) (v : vec) : R := smooth_part B lam v + lp_alpha B * lam * block_pen r c l1 l2 v.
(** the answer for the candidate rows S is exact *)
Definition block_solves (B : lpath) (r c : nat) (l1 l2 lam : R) (S : list Z) (b : vec) : Prop :=
  is_argmin (length (features (row_labels r c) S)) (fun b => Fin (block_objective B r c l1 l2 lam (embed (lp_size B) (features (row_labels r c) S) b))) b.

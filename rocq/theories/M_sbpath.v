(** Model of regreg/paths/sparse_group_block.py: paths for p-by-q coefficients, and strong_rules run on them (M_gpath). Matrices are flattened by rows;
    the groups are the rows, so [X] maps p*q numbers to n*q. Simplifications: those of M_gpath; l1_penalty and l2_penalty are floats (an array would be
    changed in place by the augmented assignments); the search inside dual norms takes [fuel] steps; np.argsort is a parameter [order]. *)
From Coq Require Import Reals List Arith Bool ZArith.
From Verif Require Import M_affine Vec Spec M_quad M_prox M_semi M_loss M_problem M_path M_group M_sgl SpecBlock M_block M_sgb M_gpath.
Import ListNotations.
Local Open Scope R_scope.

(** _check_KKT 523-577, one row: [total] is norm_soln.sum(0). An active row 548-566 is tested like an active group of a sparse group lasso path; an
    inactive row 568-572 gives its dual norm over lagrange *)
Definition sb_row_check (l1 l2 total lagrange tol : R) (fuel : nat) (p : vec * vec) : res (bool * ext) :=
  let '(grad, s) := p in
  let lw := repeat l1 (length s) in
  if gtb (norm s) (tol * Rmax total 1) then rmap (fun b => (b, Fin 0)) (sg_active_check (vopp grad) lw l2 s lagrange tol fuel)
  else rmap (fun r => (false, match fst r with Fin a => Fin (a / lagrange) | PInf => PInf end)) (gauge_function_dual_strong (vopp grad) lw l2 fuel).
(** inactive_ranks 574-575: shape[0] - argsort, -1 where nothing fails *)
Definition sb_ranks (order : list ext -> list nat) (terms : list ext) (tol : R) : vec :=
  map (fun j => let rank := INR (length terms) - INR (nth j (order terms) 0%nat) in
                match nth j terms (Fin 0) with Fin a => if Rle_dec a (1 + tol) then -1 else rank | PInf => rank end) (seq 0 (length terms)).
Definition sb_check (order : list ext -> list nat) (r c : nat) (l1 l2 : R) (grad s : vec) (lagrange tol : R) (fuel : nat) : res (list bool * vec) :=
  let S := rows r c s in
  rmap (fun rs => (map fst rs, sb_ranks order (map snd rs) tol)) (rall (sb_row_check l1 l2 (vsum (map norm S)) lagrange tol fuel) (combine (rows r c grad) S)).
(** _strong_set 501-521 with slope_estimate = 1 *)
Definition sb_strong (r c : nat) (l1 l2 : R) (grad : vec) (lagrange_cur lagrange_new : R) : list bool :=
  map (fun g => negb (inside_set_strong g ((1 + 1) * lagrange_new - 1 * lagrange_cur) (repeat l1 c) l2)) (rows r c grad).
(** the row of each entry; rows are named by their index *)
Definition row_labels (r c : nat) : list Z := flat_map (fun i => repeat (Z.of_nat i) c) (seq 0 r).
(** __init__ 36-103: (l1_penalty, l2_penalty) as attributes 55-59, and the weights of the penalty 64-67, which is built from the arguments *)
Definition sb_weights (l1 l2 : R) (l1_alpha : option R) : (R * R) * (R * R) :=
  (match l1_alpha with Some a => (l1 * a, l2 * (1 - a)) | None => (l1, l2) end, (l1, l2)).
(** _penalized_vars 81 is all True; check_KKT 170-212 ignores the penalty it is given: every row has the same weights *)
Definition sb_path (order : list ext -> list nat) (grad : vec -> vec) (func : vec -> R) (X : transform) (r c : nat) (l1_penalty l2_penalty : R) (l1_alpha : option R) (enet : vec) (alpha : R) (fuel : nat) : gpath :=
  let '(l1, l2) := snd (sb_weights l1_penalty l2_penalty l1_alpha) in
  mk_gpath (mk_lpath grad func X (repeat 1 (r * c)) enet alpha) (row_labels r c) (sb_strong r c l1 l2)
    (fun vars g s lam => sb_check order (Nat.div (length vars) c) c l1 l2 g s lam kkt_tol fuel).
(** subsample 135-168 (and 385-418): the constructor is given the attributes, and no l1_alpha *)
Definition sb_subsample (order : list ext -> list nat) (grad' : vec -> vec) (func' : vec -> R) (X : transform) (r c : nat) (l1_penalty l2_penalty : R) (l1_alpha : option R) (enet : vec) (alpha : R) (fuel : nat) : gpath :=
  let '(l1, l2) := fst (sb_weights l1_penalty l2_penalty l1_alpha) in
  sb_path order grad' func' X r c l1 l2 None enet alpha fuel.
(** default_lagrange_sequence, regreg/paths/__init__.py:206-215, with the dual of sparse_group_block; an infinite maximum gives a sequence of inf *)
Definition sb_lagrange_sequence (r c : nat) (l1 l2 : R) (null_grad : vec) (proportion : R) (nstep : nat) (alpha : R) (fuel : nat) : res (list R) :=
  rbind (sgb_gauge r c l1 l2 null_grad fuel) (fun e =>
  match e with
  | Fin m => Ok (map (fun a => a / alpha) (rev (map (fun t => m * exp t) (linspace (ln proportion) 0 nstep))))
  | PInf => Err NaNResult
  end).

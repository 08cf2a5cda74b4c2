(** Model of strong_set and check_KKT of regreg/atoms/mixed_lasso.py and of the cython functions they call. The arrays are as in M_mixed.
    Divisions by [lagrange] are real divisions (lagrange is positive in every theorem). *)
From Coq Require Import Reals List Bool ZArith.
From Verif Require Import M_loss Vec Spec M_quad M_prox M_semi M_shift M_mixed M_group M_mixed_atom.
Import ListNotations.
Local Open Scope R_scope.

Definition ltb (a b : R) : bool := if Rlt_dec a b then true else false.
Definition leb (a b : R) : bool := if Rle_dec a b then true else false.
Definition nonzero (a : R) : bool := if Req_EM_T a 0 then false else true.
(** One entry of [value], regreg/atoms/mixed_lasso_cython.pyx:153-169: discarded. Unpenalized entries stay at 0. *)
Definition discarded (weights norms : vec) (lagrange_new lagrange_cur slope : R) (k : kind) (a : R) : bool :=
  match k with
  | MGroup j => ltb (nth j norms 0) (nth j weights 0 * (slope + 1) * lagrange_new - slope * lagrange_cur)
  | ML1 => ltb (Rabs a) ((slope + 1) * lagrange_new - slope * lagrange_cur)
  | MPos => ltb (- a) ((slope + 1) * lagrange_new - slope * lagrange_cur)
  | MNonneg => ltb (- a) (- Rabs (lagrange_new - lagrange_cur) * slope)
  | MUnpen => false
  end.
(** strong_set_mixed_lasso, regreg/atoms/mixed_lasso_cython.pyx:138-171: 1 - value, as booleans *)
Definition strong_mixed (kinds : list kind) (weights x : vec) (lagrange_new lagrange_cur slope : R) : list bool :=
  let norms := group_norms kinds (length weights) x in
  map (fun p => negb (discarded weights norms lagrange_new lagrange_cur slope (fst p) (snd p))) (combine kinds x).
(** strong_set, regreg/atoms/mixed_lasso.py:406-430: the mask of the kept coordinates *)
Definition ml_strong_set (a : mlatom) (lagrange_cur lagrange_new : R) (grad : vec) (slope_estimate : R) : list bool :=
  strong_mixed (ml_kinds (ml_labels a) (ml_ids a)) (ml_warr (ml_labels a) (ml_ids a) (ml_weights a)) grad lagrange_new lagrange_cur slope_estimate.

(** One entry of [failing] > 0, regreg/atoms/mixed_lasso_cython.pyx:194-273: l1 194-208, positive part 217-230, nonnegative 236-249, groups 254-271 *)
Definition kkt_entry (weights norms snorms : vec) (lagrange tol nntol : R) (k : kind) (g s : R) : bool :=
  match k with
  | ML1 => ltb (lagrange * (1 + tol)) (Rabs g) || (nonzero s && leb tol (Rabs (- g / lagrange - np_sign s)))
  | MPos => ltb (lagrange * (1 + tol)) (- g) || (nonzero s && leb tol (Rabs (- g / lagrange - 1)))
  | MNonneg => ltb (lagrange * tol) (- g) || (nonzero s && ltb (- g) (- nntol))
  | MGroup j => ltb (nth j weights 0 * lagrange * (1 + tol)) (nth j norms 0) ||
                (nonzero (nth j snorms 0) && ltb (nth j norms 0) (nth j weights 0 * lagrange * (1 - tol)))
  | MUnpen => false
  end.
(** check_KKT_mixed_lasso, regreg/atoms/mixed_lasso_cython.pyx:173-273 *)
Definition kkt_mixed (kinds : list kind) (weights grad solution : vec) (lagrange tol nntol : R) : list bool :=
  let norms := group_norms kinds (length weights) grad in
  let snorms := add_norms kinds solution (zeros (length weights)) in
  map (fun p => kkt_entry weights norms snorms lagrange tol nntol (fst (fst p)) (snd (fst p)) (snd p)) (combine (combine kinds grad) solution).
(** check_KKT, regreg/atoms/mixed_lasso.py:432-453: nntol keeps its default, 1.e-2 *)
Definition nn_tol : R := / 100.
Definition ml_check_KKT (a : mlatom) (grad solution : vec) (lagrange tol : R) : list bool :=
  kkt_mixed (ml_kinds (ml_labels a) (ml_ids a)) (ml_warr (ml_labels a) (ml_ids a) (ml_weights a)) grad solution lagrange tol nn_tol.

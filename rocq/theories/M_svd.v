(** Model of regreg/atoms/svd_norms.py. An r by c matrix is the list of its r*c entries, row after row. numpy.linalg.svd is an argument of
    every function: it returns U by columns, D, and V by rows. It is not modelled further; the theorems assume what its documentation promises. *)
From Coq Require Import Reals List Bool Arith.
From Verif Require Import M_affine Vec Spec M_quad M_prox M_semi M_shift M_mode M_cones.
Import ListNotations.
Local Open Scope R_scope.

Definition svd_fun := vec -> list vec * vec * list vec.
(** D[:,np.newaxis] * V *)
Fixpoint scale_each (d : vec) (V : list vec) : list vec := match d, V with a :: d', v :: V' => vscal a v :: scale_each d' V' | _, _ => [] end.
(** np.dot(U, D[:,np.newaxis] * V): row i is the combination of the scaled rows of V with the entries U[i] *)
Definition recompose (r c : nat) (U : list vec) (d : vec) (V : list vec) : vec :=
  concat (map (fun i => mat_tvec c (scale_each d V) (map (fun u => nth i u 0) U)) (seq 0 r)).
(** A[mask] *)
Fixpoint kept {A} (mask : list bool) (l : list A) : list A := match mask, l with b :: m, a :: l' => if b then a :: kept m l' else kept m l' | _, _ => [] end.
(** D > 0 *)
Definition positive (d : vec) : list bool := map (fun a => if Rlt_dec 0 a then true else false) d.

(** ** nuclear_norm, svd_norms.py:35-109, and operator_norm, 112-183 *)
Inductive sclass := SNuclear | SOperator.
(** The auxiliary atom l1norm(..., lagrange=lagrange) or supnorm(...): its constructor refuses negative values (seminorms.py:45-51) *)
Definition aux_atom {A} (v : R) (k : res A) : res A := if Rlt_dec v 0 then Err ValueError else k.
(** lagrange_prox, 64-71 (keepD, U_new, D_new, V_new are computed and not used) and 142-147 *)
Definition sn_lagrange_prox (k : sclass) (r c : nat) (svd : svd_fun) (X : vec) (lipschitz lagrange : R) : res vec :=
  let '(U, D, V) := svd X in
  match k with
  | SNuclear => aux_atom lagrange (rmap (fun d => recompose r c U d V) (lagrange_prox CL1 D lipschitz lagrange))
  | SOperator => aux_atom lagrange (rmap (fun d => recompose r c U d V) (lagrange_prox CSup D lipschitz lagrange))
  end.
(** bound_prox, 74-81 and 150-155 *)
Definition sn_bound_prox (k : sclass) (r c : nat) (svd : svd_fun) (X : vec) (bound : R) : res vec :=
  let '(U, D, V) := svd X in
  match k with
  | SNuclear => aux_atom bound (rmap (fun d => let keepD := positive d in recompose r c (kept keepD U) (kept keepD d) (kept keepD V)) (bound_prox CL1 D bound))
  | SOperator => aux_atom bound (rmap (fun d => recompose r c U d V) (bound_prox CSup D bound))
  end.
(** seminorm, 46-51 and 125-129 *)
Definition sn_seminorm (k : sclass) (svd : svd_fun) (X : vec) (lagrange : R) (chk : bool) : res ext :=
  let '(U, D, V) := svd X in
  match k with
  | SNuclear => Ok (Fin (lagrange * vsum (vabs D)))
  | SOperator => rmap (fun m => Fin (lagrange * m)) (np_max D)
  end.
(** constraint, 54-61 and 132-139 *)
Definition sn_constraint (k : sclass) (svd : svd_fun) (X : vec) (bound : R) : res ext :=
  let '(U, D, V) := svd X in
  match k with
  | SNuclear => Ok (ok_or_inf (rleb (vsum (vabs D)) (bound * (1 + tol))))
  | SOperator => rmap (fun m => ok_or_inf (rleb m (bound * (1 + tol)))) (np_max D)
  end.

(** A norm object; shape = (sa_r, sa_c) *)
Record satom := mk_satom { sa_k : sclass; sa_r : nat; sa_c : nat; sa_moded : moded }.
(** seminorm.__init__ *)
Definition new_satom (k : sclass) (r c : nat) (lagrange bound : option R) (offset : option vec) (quadratic : option iq) : res satom :=
  rmap (mk_satom k r c) (new_moded (r * c) lagrange bound offset quadratic).
(** proximal, 84-85 and 158-159 *)
Definition satom_proximal (svd : svd_fun) (a : satom) (quadratic : addend) : res vec :=
  moded_proximal (sn_lagrange_prox (sa_k a) (sa_r a) (sa_c a) svd) (sn_bound_prox (sa_k a) (sa_r a) (sa_c a) svd) (sa_moded a) quadratic.
Definition satom_objective (svd : svd_fun) (a : satom) (X : vec) (chk : bool) : res ext :=
  moded_objective (sn_seminorm (sa_k a) svd) (sn_constraint (sa_k a) svd) (sa_moded a) X chk.
(** conjugate_seminorm_pairs, 438-439 *)
Definition spair (k : sclass) : sclass := match k with SNuclear => SOperator | SOperator => SNuclear end.
(** get_conjugate, 104-105 and 178-179: seminorm.get_conjugate, branch quadratic.coef == 0 *)
Definition satom_conjugate (a : satom) : option (res satom) :=
  option_map (rmap (mk_satom (spair (sa_k a)) (sa_r a) (sa_c a))) (moded_conjugate (sa_moded a)).
(** __copy__, seminorms.py:136-141 *)
Definition satom_copy (a : satom) : res satom :=
  new_satom (sa_k a) (sa_r a) (sa_c a) (m_lagrange (sa_moded a)) (m_bound (sa_moded a)) (b_offset (m_base (sa_moded a))) (Some (b_quadratic (m_base (sa_moded a)))).
(** get_dual, 108-109 and 182-183, calls the property object seminorm.dual *)
Definition satom_get_dual (a : satom) : res satom := Err TypeError.

(** ** The epigraph cones, 186-432 *)
Inductive escl := ENuclear | ENuclearPolar | EOperator | EOperatorPolar.
(** newD = projl1_epigraph(newD), 272-275; newD - projl1_epigraph(newD), 319-322; newD + projl1_epigraph(-newD), 366-369; -projl1_epigraph(-newD), 412-415 *)
Definition ec_values (k : escl) (newD : vec) : res vec :=
  match k with
  | ENuclear => projl1_epigraph newD
  | ENuclearPolar => rmap (vsub newD) (projl1_epigraph newD)
  | EOperator => rmap (vadd newD) (projl1_epigraph (vopp newD))
  | EOperatorPolar => rmap vopp (projl1_epigraph (vopp newD))
  end.
(** normX[-1] of an empty array raises IndexError; reshape raises ValueError when the size is wrong *)
Definition ec_split {A} (r c : nat) (normX : vec) (k : vec -> R -> res A) : res A :=
  match normX with
  | [] => Err IndexError
  | _ => let X := removelast normX in if Nat.eq_dec (length X) (r * c) then k X (last normX 0) else Err ValueError
  end.
(** cone_prox, 268-280, 314-327, 361-374, 408-420 *)
Definition ec_prox (k : escl) (r c : nat) (svd : svd_fun) (normX : vec) : res vec :=
  ec_split r c normX (fun X norm =>
    let '(U, D, V) := svd X in
    rmap (fun newD => recompose r c U (removelast newD) V ++ [last newD 0]) (ec_values k (D ++ [norm]))).
(** constraint, 257-265 (which leaves out D[0]), 303-311, 350-358, 397-405 *)
Definition ec_constraint (k : escl) (r c : nat) (svd : svd_fun) (normX : vec) : res ext :=
  ec_split r c normX (fun X norm =>
    let '(U, D, V) := svd X in
    match k with
    | ENuclear => Ok (ok_or_inf (rleb (vsum (vabs (tl D))) ((1 + tol) * norm)))
    | ENuclearPolar => rmap (fun m => ok_or_inf (rleb m ((1 + tol) * - norm))) (np_max D)
    | EOperator => rmap (fun m => ok_or_inf (rleb m ((1 + tol) * norm))) (np_max D)
    | EOperatorPolar => Ok (ok_or_inf (rleb (vsum D) ((1 + tol) * - norm)))
    end).
(** A cone object: matrix_shape = (ec_r, ec_c), shape = (ec_r * ec_c + 1,) *)
Record econe := mk_econe { ec_k : escl; ec_r : nat; ec_c : nat; ec_base : base }.
(** __init__, 213-222 *)
Definition new_econe (k : escl) (r c : nat) (offset : option vec) (quadratic : option iq) : econe := mk_econe k r c (new_base (r * c + 1) offset quadratic).
(** cone.proximal, cones.py:159-208 *)
Definition econe_proximal (svd : svd_fun) (a : econe) (quadratic : addend) : res vec :=
  shifted_prox (ec_base a) quadratic (fun x _ => ec_prox (ec_k a) (ec_r a) (ec_c a) svd x).
(** cone.nonsmooth_objective, cones.py:139-157 *)
Definition econe_objective (svd : svd_fun) (a : econe) (x : vec) (chk : bool) : res ext :=
  shifted_objective (ec_base a) x (fun y => if chk then ec_constraint (ec_k a) (ec_r a) (ec_c a) svd y else Ok (Fin 0)).
(** conjugate_cone_pairs, 441-444 *)
Definition epair (k : escl) : escl := match k with ENuclear => ENuclearPolar | ENuclearPolar => ENuclear | EOperator => EOperatorPolar | EOperatorPolar => EOperator end.
(** get_conjugate, 225-237; smooth_conjugate is not imported *)
Definition econe_conjugate (a : econe) : res econe :=
  match conjugate_base (ec_base a) with
  | Some d => Ok (mk_econe (epair (ec_k a)) (ec_r a) (ec_c a) d)
  | None => Err NameError
  end.
(** __copy__, 193-197 *)
Definition econe_copy (a : econe) : econe := new_econe (ec_k a) (ec_r a) (ec_c a) (b_offset (ec_base a)) (Some (b_quadratic (ec_base a))).
Definition escl_eq (a b : escl) : {a = b} + {a <> b}. Proof. decide equality. Defined.
(** cone.__eq__, cones.py:35-38: class and shape, where shape is the number of entries *)
Definition econe_eq (a b : econe) : bool := if escl_eq (ec_k a) (ec_k b) then Nat.eqb (b_shape (ec_base a)) (b_shape (ec_base b)) else false.
(** get_dual, 245-246 and its copies, calls the property object cone.dual *)
Definition econe_get_dual (a : econe) : res econe := Err TypeError.

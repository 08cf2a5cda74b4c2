(** Model of regreg/affine/factored_matrix.py. A matrix U is the list of its columns, VT the list of its rows, other matrices the list of their
    entries, row after row. The iteration of partial_svd (QR factorizations from a random start) is an argument of the functions that run it. *)
From Coq Require Import Reals List Bool Arith.
From Verif Require Import M_affine Vec Spec M_quad M_prox M_semi M_shift M_mode M_cones M_svd.
Import ListNotations.
Local Open Scope R_scope.

(** ** factored_matrix *)
(** The attributes of an instance with factors of fitting shapes, regreg/affine/factored_matrix.py:37-50,78-88. [f_rank1]: D has one
    entry and is stored as a 1 x 1 array. *)
Record factored := mk_factored { f_r : nat; f_c : nat; f_U : list vec; f_D : vec; f_VT : list vec; f_rank1 : bool; f_off : option vec; f_min : R }.
(** __init__ with three factors, regreg/affine/factored_matrix.py:28-50, and _set_factors, 78-88 *)
Definition new_factored (r c : nat) (U : list vec) (D : vec) (VT : list vec) (off : option vec) (min_singular : R) : res factored :=
  if Rle_dec 0 min_singular then Ok (mk_factored r c U D VT (Nat.eqb (length D) 1) off min_singular) else Err ValueError.
(** copy, regreg/affine/factored_matrix.py:54-55 *)
Definition copy_factored (f : factored) : res factored := new_factored (f_r f) (f_c f) (f_U f) (f_D f) (f_VT f) None 0.
(** np.dot(U, w), np.dot(U.T, x), np.dot(VT, x), np.dot(VT.T, w), regreg/affine/factored_matrix.py:93-101 *)
Definition dot_U (f : factored) (w : vec) : vec := mat_tvec (f_r f) (f_U f) w.
Definition dot_UT (f : factored) (x : vec) : vec := mat_vec (f_U f) x.
Definition dot_VT (f : factored) (x : vec) : vec := mat_vec (f_VT f) x.
Definition dot_V (f : factored) (w : vec) : vec := mat_tvec (f_c f) (f_VT f) w.
(** _getX, regreg/affine/factored_matrix.py:69-73. np.dot(U, np.dot(np.diag(D), VT)); with one factor D[0,0] * np.dot(U, VT) *)
Definition get_X (f : factored) : vec :=
  if f_rank1 f then vscal (nth 0 (f_D f) 0) (recompose (f_r f) (f_c f) (f_U f) [1] (f_VT f)) else recompose (f_r f) (f_c f) (f_U f) (f_D f) (f_VT f).
(** linear_map, regreg/affine/factored_matrix.py:91-95; adjoint_map, 97-101 *)
Definition f_linear (f : factored) (x : vec) : vec :=
  if f_rank1 f then vscal (nth 0 (f_D f) 0) (dot_U f (dot_VT f x)) else dot_U f (vmul (f_D f) (dot_VT f x)).
Definition f_adjoint (f : factored) (u : vec) : vec :=
  if f_rank1 f then vscal (nth 0 (f_D f) 0) (dot_V f (dot_UT f u)) else dot_V f (vmul (f_D f) (dot_UT f u)).
(** offset_map, regreg/affine/factored_matrix.py:109-113; affine_map, 103-107 *)
Definition f_offset_map (f : factored) (x : vec) : vec := match f_off f with Some a => vadd x a | None => x end.
Definition f_affine (f : factored) (x : vec) : vec := f_offset_map f (f_linear f x).

(** ** partial_svd and compute_iterative_svd *)
(** What the loop of partial_svd, regreg/affine/factored_matrix.py:345-359, ends with in the k-th call for X with q columns: U by columns, the
    diagonal of R, V by columns. X is taken with its longer side first. *)
Definition iteration := vec -> nat -> nat -> list vec * vec * list vec.
(** The results of partial_svd, 361-367: the triples above 1e-12, or the first columns with np.zeros((1,1)) *)
Inductive partial := PSome (U : list vec) (D : vec) (V : list vec) | PZero (u v : vec).
Definition sign (a : R) : R := if Rlt_dec 0 a then 1 else if Rlt_dec a 0 then -1 else 0.
Definition nonzero (s : vec) : list bool := map (fun a => if Rlt_dec (/ 10 ^ 12) (Rabs a) then true else false) s.
Fixpoint sign_each (s : vec) (U : list vec) : list vec := match s, U with a :: s', u :: U' => vscal (sign a) u :: sign_each s' U' | _, _ => [] end.
(** partial_svd with return_full=True, regreg/affine/factored_matrix.py:247-367; n >= p. [warm]: the number of columns of the warm start, if
    there is one; the random columns joined to it cannot be fewer than none (328,330). Its number of rows is taken to be n. *)
Definition partial_svd (iter : nat -> list vec * vec * list vec) (p rank padding : nat) (warm : option nat) : res partial :=
  let q := Nat.min (Nat.min rank p + padding) p in
  if (match warm with Some w => (q <? w)%nat | None => false end) then Err ValueError else
  let '(U, s, V) := iter q in
  let keep := nonzero s in
  if existsb (fun b => b) keep then Ok (PSome (kept keep (sign_each s U)) (kept keep (vabs s)) (kept keep V))
  else Ok (PZero (hd [] U) (hd [] V)).
Definition p_D (a : partial) : vec := match a with PSome _ D _ => D | PZero _ _ => [0] end.
Definition p_cols (a : partial) : nat := match a with PSome U _ _ => length U | PZero _ _ => 1 end.
Definition vmax (d : vec) : R := fold_right Rmax 0 d.
(** The loop, regreg/affine/factored_matrix.py:212-232. [rule]: the stopping rule. np.max of entries that are not negative. *)
Fixpoint svd_loop (fuel : nat) (iter : nat -> nat -> list vec * vec * list vec) (p padding max_rank : nat) (min_singular : R) (rule : option (vec -> bool))
    (k rank : nat) (warm : option nat) : res partial :=
  match fuel with
  | O => Err OutOfFuel
  | S fuel' =>
      rbind (partial_svd (iter k) p rank padding warm) (fun a =>
      let D := p_D a in
      if (length D <? rank)%nat then Ok a
      else if (match rule with Some t => t (vabs D) | None => false end) then Ok a
      else if (max_rank <? 2 * rank)%nat then Err ValueError
      else if Rlt_dec (vmax D) (/ 10 ^ 14) then Ok a
      else if Rle_dec (min_singular * vmax D) (last D 0) then svd_loop fuel' iter p padding max_rank min_singular rule (S k) (2 * rank) (Some (p_cols a))
      else Ok a)
  end.
(** The result: factors, or factors u, v of one column and row with an empty D of shape (0,1) *)
Inductive iterated := IFull (U : list vec) (D : vec) (VT : list vec) | IEmpty.
(** compute_iterative_svd, regreg/affine/factored_matrix.py:186-244, without max_rank and with the update rule by default. [rank]: np.max([initial_rank,1]),
    or np.round(min(n,p) * 0.1) + 1. D starts as the list [1.]: when min_singular > 1 the loop is not entered, and D >= min_singular compares a
    list with a number. *)
Definition compute_iterative_svd (fuel : nat) (iter : iteration) (r c : nat) (X : vec) (rank padding : nat) (warm : option nat) (min_singular : R)
    (rule : option (vec -> bool)) : res iterated :=
  let p := Nat.min r c in
  if Rlt_dec 1 min_singular then Err TypeError else
  rbind (svd_loop fuel (iter X) p padding (2 * p) min_singular rule 0 rank warm) (fun a =>
  let flip U D V := if (r <? c)%nat then IFull V D U else IFull U D V in
  match a with
  | PSome U D V =>
      let ind := map (fun d => if Rle_dec min_singular d then true else false) D in
      Ok (flip (kept ind U) (kept ind D) (kept ind V))
  | PZero u v => if Rle_dec min_singular 0 then Ok (flip [u] [0] [v]) else Ok IEmpty
  end).
(** factored_matrix of an array, regreg/affine/factored_matrix.py:43-67: initial_rank given or not, no warm start. With IEmpty the factors do not
    fit each other and reading X raises ValueError; here the constructor already does. *)
Definition factored_of (fuel : nat) (iter : iteration) (r c : nat) (X : vec) (rank : nat) (off : option vec) (min_singular : R) : res factored :=
  if Rle_dec 0 min_singular then
    rbind (compute_iterative_svd fuel iter r c X rank 5 None min_singular None) (fun a =>
    match a with IFull U D VT => new_factored r c U D VT off min_singular | IEmpty => Err ValueError end)
  else Err ValueError.

(** ** nuclear_norm and operator_norm *)
(** shape, initial_rank and the shape of warm_start, regreg/affine/factored_matrix.py:392-401 *)
Record fac_nuclear := mk_fn { fn_r : nat; fn_c : nat; fn_rank : nat; fn_warm : nat * nat }.
Definition shape_eqb (a b : nat * nat) : bool := Nat.eqb (fst a) (fst b) && Nat.eqb (snd a) (snd b).
(** nuclear_norm.__init__, regreg/affine/factored_matrix.py:379-401. [ws]: the shape of the warm start, if given. The message of the ValueError is
    formatted with a pair for one %s: a TypeError is raised in its place. *)
Definition new_fn (r c rank : nat) (ws : option (nat * nat)) : res fac_nuclear :=
  let want := (Nat.max r c, rank) in
  match ws with None => Ok (mk_fn r c rank want) | Some w => if shape_eqb w want then Ok (mk_fn r c rank w) else Err TypeError end.
(** The stopping rules, regreg/affine/factored_matrix.py:416-417 and 447-448, for an array that is not empty *)
Definition vmin (d : vec) : R := match d with [] => 0 | a :: d' => fold_right Rmin a d' end.
Definition svt_rule (L : R) (D : vec) : bool := rleb (vmin (vabs D)) L.
Definition bound_rule (B : R) (D : vec) : bool := negb (rleb (vsum (map (fun a => a - vmin (vabs D)) (vabs D))) B).
(** The call of compute_iterative_svd, 425-436 and 455-466, with the attributes it leaves; padding is 0 as there always is a warm start. After an empty D, indexing with keep,
    of shape (0,1), fails. *)
Definition fn_svd (fuel : nat) (iter : iteration) (a : fac_nuclear) (X : vec) (rule : vec -> bool) : res (fac_nuclear * (list vec * vec * list vec)) :=
  rbind (compute_iterative_svd fuel iter (fn_r a) (fn_c a) X (Nat.max (fn_rank a) 1) 0 (Some (snd (fn_warm a))) (/ 10 ^ 16) (Some rule)) (fun s =>
  match s with
  | IFull U D VT => Ok (mk_fn (fn_r a) (fn_c a) (length U) (Nat.max (fn_r a) (fn_c a), length U), (U, D, VT))
  | IEmpty => Err IndexError
  end).
(** lagrange_prox, regreg/affine/factored_matrix.py:413-441. lipschitz is not used. *)
Definition fn_lagrange_prox (fuel : nat) (iter : iteration) (a : fac_nuclear) (X : vec) (lipschitz lagrange : R) : res (fac_nuclear * factored) :=
  rbind (fn_svd fuel iter a X (svt_rule lagrange)) (fun s =>
  let '(a', (U, D, VT)) := s in
  let D_proj := map (fun d => d - lagrange) D in
  let keep := positive D_proj in
  rmap (pair a') (new_factored (fn_r a) (fn_c a) (kept keep U) (kept keep D_proj) (kept keep VT) None 0)).
(** bound_prox, regreg/affine/factored_matrix.py:444-471 *)
Definition fn_bound_prox (fuel : nat) (iter : iteration) (a : fac_nuclear) (X : vec) (bound : R) : res (fac_nuclear * factored) :=
  rbind (fn_svd fuel iter a X (bound_rule bound)) (fun s =>
  let '(a', (U, D, VT)) := s in
  aux_atom bound (rbind (bound_prox CL1 D bound) (fun D_projected =>
  let keep := positive D_projected in
  rmap (pair a') (new_factored (fn_r a) (fn_c a) (kept keep U) (kept keep D_projected) (kept keep VT) None 0)))).
(** operator_norm.__init__, regreg/affine/factored_matrix.py:501-526: the nuclear norm it keeps *)
Definition new_fop (r c rank : nat) (ws : option (nat * nat)) : res fac_nuclear :=
  let want := (r, rank) in
  rbind (match ws with None => Ok want | Some w => if shape_eqb w want then Ok w else Err TypeError end) (fun w => new_fn r c rank (Some w)).
(** lagrange_prox, regreg/affine/factored_matrix.py:538-543, and bound_prox, 546-551: affine_sum([X, dual], [1., -1.]), as a matrix *)
Definition fop_lagrange_prox (fuel : nat) (iter : iteration) (a : fac_nuclear) (X : vec) (lipschitz lagrange : R) : res (fac_nuclear * vec) :=
  rmap (fun s => (fst s, vsub X (get_X (snd s)))) (fn_bound_prox fuel iter a X (lagrange / lipschitz)).
Definition fop_bound_prox (fuel : nat) (iter : iteration) (a : fac_nuclear) (X : vec) (bound : R) : res (fac_nuclear * vec) :=
  rmap (fun s => (fst s, vsub X (get_X (snd s)))) (fn_lagrange_prox fuel iter a X 1 bound).
(** nuclear_norm.conjugate, regreg/affine/factored_matrix.py:474-486, when quadratic.coef = 0: the operator norm gets this warm start *)
Definition fn_conjugate (a : fac_nuclear) : res fac_nuclear := new_fop (fn_r a) (fn_c a) (fn_rank a) (Some (fn_warm a)).

(** Model of regreg/affine/__init__.py for one-dimensional arrays. A two-dimensional array is flattened: (2,p) as its two
    rows one after the other (posneg), (p,q) as its q columns one after the other (tensorize, block maps); np.dot is then the
    inner product of the flattened arrays. Arithmetic is real; sparse matrices hold the same entries as dense ones.
    Arguments of the wrong shape, on which numpy raises, are outside the model. *)
From Coq Require Import Reals List Arith Bool.
From Verif Require Import Vec Spec.
Import ListNotations.
Local Open Scope R_scope.

(** What callers see of a transform: linear_map, affine_map, adjoint_map, the attribute affine_offset ([None]: the class never
    sets it, reading it raises AttributeError; [Some None]: it is None), input_shape and output_shape (sizes). *)
Record transform := mk_transform {
  t_lin : vec -> vec; t_aff : vec -> vec; t_adj : vec -> vec; t_off : option (option vec); t_in : nat; t_out : nat }.
Definition with_offset (o : option vec) (v : vec) : vec := match o with Some a => vadd a v | None => v end.
(** D.dot(x), and np.dot(D.T, u) for a matrix with rows D and n columns *)
Definition mat_vec (D : list vec) (x : vec) : vec := map (fun r => dot r x) D.
Fixpoint mat_tvec (n : nat) (D : list vec) (u : vec) : vec :=
  match D, u with r :: D', a :: u' => vadd (vscal a r) (mat_tvec n D' u') | _, _ => zeros n end.

(** affine_transform(D, offset) with a two-dimensional array, regreg/affine/__init__.py:110-141, 142-261 *)
Definition matrix (D : list vec) (n : nat) (o : option vec) : transform :=
  mk_transform (mat_vec D) (fun x => with_offset o (mat_vec D x)) (mat_tvec n D) (Some o) n (length D).
(** ... with diag=True *)
Definition diagonal (d : vec) (o : option vec) : transform :=
  mk_transform (vmul d) (fun x => with_offset o (vmul d x)) (vmul d) (Some o) (length d) (length d).
(** ... with linear_operator None, regreg/affine/__init__.py:74-80 *)
Definition shift_only (a : vec) : transform :=
  mk_transform (fun x => x) (fun x => vadd a x) (fun u => u) (Some (Some a)) (length a) (length a).
(** ... with a transform as linear operator (affineD), regreg/affine/__init__.py:92-104, 161-162, 216-223, 259-260; a transform
    without affine_offset does not pass the hasattr test (see [wraps]) *)
Definition wrap (t : transform) (o : option vec) : transform :=
  mk_transform (t_lin t) (fun x => with_offset o (t_aff t x)) (t_adj t) (Some o) (t_in t) (t_out t).
Definition wraps (t : transform) : Prop := t_off t <> None.

(** selector, regreg/affine/__init__.py:273-337; the index object as the list of selected positions, no reshape.
    x[index]; output[index] = v assigns in order, a later assignment wins *)
Definition gather (idx : list nat) (x : vec) : vec := map (fun i => nth i x 0) idx.
Fixpoint set_at (i : nat) (a : R) (x : vec) : vec :=
  match x, i with [], _ => [] | _ :: x', O => a :: x' | b :: x', S i' => b :: set_at i' a x' end.
Fixpoint scatter (idx : list nat) (v x : vec) : vec :=
  match idx, v with i :: idx', a :: v' => scatter idx' v' (set_at i a x) | _, _ => x end.
(** self.affine_offset = self.affine_transform.affine_offset fails on a transform without the attribute *)
Definition selector (idx : list nat) (n : nat) (t : transform) : res transform :=
  match t_off t with
  | None => Err AttributeError
  | Some o => Ok (mk_transform (fun x => t_lin t (gather idx x)) (fun x => t_aff t (gather idx x))
                    (fun u => scatter idx (t_adj t u) (zeros n)) (Some o) n (t_out t))
  end.
(** scaler, regreg/affine/__init__.py:339-353: no affine_offset *)
Definition scaler (s : vec) : transform := mk_transform (vmul s) (vmul s) (vmul s) None (length s) (length s).
(** reshape, regreg/affine/__init__.py:355-374: no affine_offset *)
Definition reshape (n : nat) : transform := mk_transform (fun x => x) (fun x => x) (fun u => u) None n n.
(** add_intercept, regreg/affine/__init__.py:460-476: no affine_offset *)
Definition add_intercept (t : transform) : transform :=
  mk_transform (fun x => map (fun v => v + hd 0 x) (t_lin t (tl x))) (fun x => map (fun v => v + hd 0 x) (t_aff t (tl x)))
               (fun u => vsum u :: t_adj t u) None (t_in t + 1) (t_out t).
(** centering, regreg/affine/__init__.py:477-492 *)
Definition center (x : vec) : vec := map (fun a => a - vsum x / INR (length x)) x.
Definition centering (n : nat) : transform := mk_transform center center center (Some None) n n.
(** identity, regreg/affine/__init__.py:493-512 *)
Definition identity (n : nat) : transform := mk_transform (fun x => x) (fun x => x) (fun u => u) (Some None) n n.

Definition all_zero (v : vec) : bool := forallb (fun a => if Req_EM_T a 0 then true else false) v.
(** np.allclose(v, 0) *)
Definition allclose0 (v : vec) : bool := forallb (fun a => if Rle_dec (Rabs a) (/ 10 ^ 8) then true else false) v.
(** the loop of vstack.adjoint_map, regreg/affine/__init__.py:566-572 *)
Fixpoint vstack_adj (n : nat) (l : list transform) (u : vec) : vec :=
  match l with [] => zeros n | t :: l' => vadd (t_adj t (firstn (t_out t) u)) (vstack_adj n l' (skipn (t_out t) u)) end.
(** vstack, regreg/affine/__init__.py:514-572; an empty list leaves input_shape = -1 and np.zeros(-1) fails *)
Definition vstack (ts : list transform) : res transform :=
  match ts with
  | [] => Err ValueError
  | t0 :: _ =>
      if forallb (fun t => Nat.eqb (t_in t) (t_in t0)) ts then
        let off := concat (map (fun t => t_aff t (zeros (t_in t0))) ts) in
        let o := if all_zero off then None else Some off in
        let lin x := concat (map (fun t => t_lin t x) ts) in
        Ok (mk_transform lin (fun x => with_offset o (lin x)) (vstack_adj (t_in t0) ts) (Some o) (t_in t0) (list_sum (map t_out ts)))
      else Err ValueError
  end.
(** the loop of hstack.linear_map, regreg/affine/__init__.py:609-615 *)
Fixpoint hstack_lin (m : nat) (l : list transform) (x : vec) : vec :=
  match l with [] => zeros m | t :: l' => vadd (t_lin t (firstn (t_in t) x)) (hstack_lin m l' (skipn (t_in t) x)) end.
(** hstack, regreg/affine/__init__.py:574-638 *)
Definition hstack (ts : list transform) : res transform :=
  match ts with
  | [] => Err ValueError
  | t0 :: _ =>
      if forallb (fun t => Nat.eqb (t_out t) (t_out t0)) ts then
        let off := fold_right (fun t acc => vadd (t_aff t (zeros (t_in t))) acc) (zeros (t_out t0)) ts in
        let o := if all_zero off then None else Some off in
        Ok (mk_transform (hstack_lin (t_out t0) ts) (fun x => with_offset o (hstack_lin (t_out t0) ts x)) (fun u => concat (map (fun t => t_adj t u) ts)) (Some o)
              (list_sum (map t_in ts)) (t_out t0))
      else Err ValueError
  end.
(** product, regreg/affine/__init__.py:640-713 *)
Fixpoint blocks (F : transform -> vec -> vec) (size : transform -> nat) (l : list transform) (x : vec) : vec :=
  match l with [] => [] | t :: l' => F t (firstn (size t) x) ++ blocks F size l' (skipn (size t) x) end.
Definition product (ts : list transform) : transform :=
  let off := concat (map (fun t => t_aff t (zeros (t_in t))) ts) in
  let o := if all_zero off then None else Some off in
  mk_transform (blocks t_lin t_in ts) (fun x => with_offset o (blocks t_lin t_in ts x)) (blocks t_adj t_out ts) (Some o)
    (list_sum (map t_in ts)) (list_sum (map t_out ts)).
(** aslinear, regreg/affine/__init__.py:749-766: input_shape and output_shape are exchanged *)
Definition aslinear (t : transform) : transform := mk_transform (t_lin t) (t_lin t) (t_adj t) (Some None) (t_out t) (t_in t).
(** adjoint, regreg/affine/__init__.py:768-788 *)
Definition adjoint (t : transform) : transform := mk_transform (t_adj t) (t_adj t) (t_lin t) (Some None) (t_out t) (t_in t).
(** tensorize, regreg/affine/__init__.py:790-816, over a transform whose maps act on every column of a matrix *)
Fixpoint columns (q n : nat) (x : vec) : list vec :=
  match q with O => [] | S q' => firstn n x :: columns q' n (skipn n x) end.
Definition tensorize (t : transform) (q : nat) : res transform :=
  match t_off t with
  | None => Err AttributeError
  | Some o => Ok (mk_transform (fun x => concat (map (t_lin t) (columns q (t_in t) x)))
                    (fun x => concat (map (fun c => with_offset o (t_lin t c)) (columns q (t_in t) x)))
                    (fun u => concat (map (t_adj t) (columns q (t_out t) u)))
                    (Some (option_map (fun a => concat (repeat a q)) o)) (t_in t * q) (t_out t * q))
  end.
(** residual, regreg/affine/__init__.py:818-839 *)
Definition residual (t : transform) : res transform :=
  if Nat.eqb (t_in t) (t_out t) then
    Ok (mk_transform (fun x => vsub x (t_lin t x)) (fun x => vsub x (t_aff t x)) (fun u => vsub u (t_adj t u)) (Some None) (t_in t) (t_out t))
  else Err ValueError.
(** composition, regreg/affine/__init__.py:840-874: the test on the offset is inverted *)
Definition run_right (F : transform -> vec -> vec) (ts : list transform) (x : vec) : vec := fold_right F x ts.
Definition run_left (F : transform -> vec -> vec) (ts : list transform) (x : vec) : vec := fold_left (fun v t => F t v) ts x.
Definition composition (ts : list transform) : res transform :=
  match ts with
  | [] => Err IndexError
  | t0 :: _ =>
      let n := t_in (last ts t0) in
      let off := run_right t_aff ts (zeros n) in
      Ok (mk_transform (run_right t_lin ts) (run_right t_aff ts) (run_left t_adj ts)
            (Some (if negb (allclose0 off) then None else Some off)) n (t_out t0))
  end.
(** affine_sum, regreg/affine/__init__.py:876-916 *)
Definition weighted (F : transform -> vec -> vec) (n : nat) (l : list (transform * R)) (x : vec) : vec :=
  fold_left (fun acc p => vadd acc (vscal (snd p) (F (fst p) x))) (rev l) (zeros n).
Definition affine_sum (ts : list transform) (weights : option vec) : res transform :=
  let ws := match weights with Some w => w | None => const_vec (length ts) 1 end in
  if negb (Nat.eqb (length ts) (length ws)) then Err ValueError else
  match ts with
  | [] => Err IndexError
  | t0 :: _ =>
      let l := combine ts ws in
      let off := weighted t_aff (t_out t0) l (zeros (t_in t0)) in
      Ok (mk_transform (weighted t_lin (t_out t0) l) (weighted t_aff (t_out t0) l) (weighted t_adj (t_in t0) l)
            (Some (if allclose0 off then None else Some off)) (t_in t0) (t_out t0))
  end.
(** scalar_multiply, regreg/affine/__init__.py:919-944: affine_offset is always None *)
Definition times (c : R) (v : vec) : vec := if Req_EM_T c 1 then v else vscal c v.
Definition scalar_multiply (t : transform) (c : R) : transform :=
  mk_transform (fun x => times c (t_lin t x)) (fun x => times c (t_aff t x)) (fun u => times c (t_adj t u)) (Some None) (t_in t) (t_out t).
(** posneg, regreg/affine/__init__.py:946-967 *)
Definition posneg (t : transform) : transform :=
  let lin x := vsub (t_lin t (firstn (t_in t) x)) (t_lin t (skipn (t_in t) x)) in
  mk_transform lin lin (fun u => t_adj t u ++ vopp (t_adj t u)) (Some None) (2 * t_in t) (t_out t).
(** block_columns, regreg/affine/block_maps.py:7-86: never sets affine_offset *)
Definition block_columns (ts : list transform) : res transform :=
  match ts with
  | [] => Err IndexError
  | t0 :: _ =>
      if forallb (fun t => Nat.eqb (t_in t) (t_in t0)) ts then
        Ok (mk_transform (blocks t_lin t_in ts) (blocks t_aff t_in ts) (blocks t_adj t_out ts) None (length ts * t_in t0) (list_sum (map t_out ts)))
      else Err ValueError
  end.
(** block_rows, regreg/affine/block_maps.py:88-152 *)
Definition block_rows (ts : list transform) : res transform :=
  rbind (block_columns (map adjoint ts)) (fun b =>
  match ts with
  | [] => Err IndexError
  | t0 :: _ =>
      if forallb (fun t => Nat.eqb (t_out t) (t_out t0)) ts then
        let off := concat (map (fun t => t_aff t (zeros (t_in t))) ts) in
        Ok (mk_transform (t_adj b) (fun x => vadd (t_adj b x) off) (t_lin b) None (list_sum (map t_in ts)) (length ts * t_out t0))
      else Err ValueError
  end).

(** normalize(M, center, scale, intercept, ddof, value) for a dense matrix with n rows and p columns, regreg/affine/__init__.py:384-459.
    n - ddof = 0 gives inf or nan column scales and is left out by the theorems. *)
Definition column (M : list vec) (j : nat) : vec := map (fun r => nth j r 0) M.
Definition col_mean (M : list vec) (j : nat) : R := vsum (column M j) / INR (length M).
Definition col_scale (M : list vec) (center : bool) (ddof : R) (j : nat) : R :=
  let mu := if center then col_mean M j else 0 in
  sqrt ((sqn (column M j) - INR (length M) * (mu * mu)) / (INR (length M) - (if center then ddof else ddof - 1))).
Definition inv_scale (s : R) : R := if Rlt_dec 0 s then 1 / s else 0.
Definition normalize (M : list vec) (p : nat) (center scale intercept : bool) (ddof value : R) : res transform :=
  let scaling := diagonal (map (fun j => inv_scale (col_scale M center ddof j) * value) (seq 0 p)) None in
  let maps := (if center then [centering (length M)] else []) ++ [matrix M p None] ++ (if scale then [scaling] else []) in
  rbind (composition maps) (fun t => Ok (if intercept then add_intercept t else t)).
(** power_L(transform), regreg/affine/__init__.py:716-737; [v] is the random starting vector. Division by a zero norm gives nan. *)
Fixpoint power_loop (its : nat) (tol : R) (t : transform) (v : vec) (old_norm nrm : R) : res R :=
  match its with
  | O => Ok nrm
  | S its' =>
      if Rlt_dec tol (Rabs (nrm - old_norm) / nrm) then
        let w := t_adj t (t_lin t v) in
        if Req_EM_T (norm w) 0 then Err NaNResult else power_loop its' tol t (vscal (/ norm w) w) nrm (norm w)
      else Ok nrm
  end.
Definition power_L (its : nat) (tol : R) (t : transform) (v : vec) : res R := power_loop its tol t v 0 1.
(** todense(transform), regreg/affine/__init__.py:969-979: linear_map of the identity matrix, column by column *)
Definition unit_vec (n j : nat) : vec := map (fun k => if Nat.eqb k j then 1 else 0) (seq 0 n).
Definition todense_columns (t : transform) : list vec := map (fun j => t_lin t (unit_vec (t_in t) j)) (seq 0 (t_in t)).

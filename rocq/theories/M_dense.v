(** Model of linear_map, affine_map and adjoint_map of the transforms of regreg/affine/__init__.py on arrays of one or two
    dimensions, with numpy's broadcasting and the errors it raises, and of todense. Transforms are syntax here: input_shape and
    output_shape are one-dimensional. The buffer of selector.adjoint_map is fresh (see M_buffer for its sharing). *)
From Coq Require Import Reals List Arith Bool.
From Verif Require Import Vec Spec M_affine.
Import ListNotations.
Local Open Scope R_scope.

(** An array: one-dimensional, or two-dimensional as its number of columns and its rows. *)
Inductive arr := A1 (v : vec) | A2 (c : nat) (rows : list vec).
Inductive mode := Lin | Aff | Adj.

(** *** numpy *)
(** the size of an axis of the result of an elementwise operation *)
Definition bdim (a b : nat) : res nat :=
  if Nat.eqb a b then Ok a else if Nat.eqb a 1 then Ok b else if Nat.eqb b 1 then Ok a else Err ValueError.
Definition pick {A} (d : A) (l : list A) (i : nat) : A := if Nat.eqb (length l) 1 then nth 0 l d else nth i l d.
Definition as_rows (x : arr) : nat * list vec := match x with A1 v => (length v, [v]) | A2 c U => (c, U) end.
(** op(x, y): a one-dimensional array stands for a single row *)
Definition bcast (op : R -> R -> R) (x y : arr) : res arr :=
  match x, y with
  | A1 a, A1 b => rmap (fun n => A1 (map (fun i => op (pick 0 a i) (pick 0 b i)) (seq 0 n))) (bdim (length a) (length b))
  | _, _ =>
      let (c, U) := as_rows x in let (d, V) := as_rows y in
      rbind (bdim c d) (fun n => rbind (bdim (length U) (length V)) (fun m =>
        Ok (A2 n (map (fun i => map (fun j => op (pick 0 (pick [] U i) j) (pick 0 (pick [] V i) j)) (seq 0 n)) (seq 0 m)))))
  end.
Definition amap (f : R -> R) (x : arr) : arr := match x with A1 v => A1 (map f v) | A2 c U => A2 c (map (map f) U) end.
(** x.reshape((k,)) *)
Definition flat (k : nat) (x : arr) : res arr :=
  match x with
  | A1 v => if Nat.eqb (length v) k then Ok x else Err ValueError
  | A2 c U => if Nat.eqb (length U * c) k then Ok (A1 (concat U)) else Err ValueError
  end.
(** x.reshape(-1) *)
Definition ravel (x : arr) : arr := match x with A1 v => A1 v | A2 _ U => A1 (concat U) end.
(** out[g] = x for k positions g of a one-dimensional array: leading axes of length 1 are dropped, then x is broadcast *)
Definition assign (k : nat) (x : arr) : res vec :=
  let put v := if Nat.eqb (length v) k then Ok v else if Nat.eqb (length v) 1 then Ok (repeat (nth 0 v 0) k) else Err ValueError in
  match x with A1 v => put v | A2 _ U => if Nat.eqb (length U) 1 then put (nth 0 U []) else Err ValueError end.
Definition same_shape (x y : arr) : bool :=
  match x, y with
  | A1 a, A1 b => Nat.eqb (length a) (length b)
  | A2 c U, A2 d V => Nat.eqb c d && Nat.eqb (length U) (length V)
  | _, _ => false
  end.
(** out += x, in place *)
Definition iadd (out x : arr) : res arr := rbind (bcast Rplus out x) (fun y => if same_shape y out then Ok y else Err ValueError).
(** x[:k] and x[k:] *)
Definition take (k : nat) (x : arr) : arr := match x with A1 v => A1 (firstn k v) | A2 c U => A2 c (firstn k U) end.
Definition drop (k : nat) (x : arr) : arr := match x with A1 v => A1 (skipn k v) | A2 c U => A2 c (skipn k U) end.
Definition alen (x : arr) : nat := match x with A1 v => length v | A2 _ U => length U end.
(** x[idx] for a list of positions *)
Definition index (idx : list nat) (x : arr) : res arr :=
  if forallb (fun i => Nat.ltb i (alen x)) idx then
    Ok (match x with A1 v => A1 (gather idx v) | A2 c U => A2 c (map (fun i => nth i U []) idx) end)
  else Err IndexError.
(** y + x[0] *)
Definition plus_first (x y : arr) : res arr :=
  match x with
  | A1 [] | A2 _ [] => Err IndexError
  | A1 (a :: _) => Ok (amap (fun v => v + a) y)
  | A2 _ (r :: _) => bcast Rplus y (A1 r)
  end.

(** *** regreg *)
(** broadcast_first(a, b, op) for a one-dimensional a, regreg/affine/__init__.py:9-33 *)
Definition col (v : vec) : arr := A2 1 (map (fun a => [a]) v).
Definition broadcast_first (a : vec) (b : arr) (op : R -> R -> R) : res arr :=
  rbind (bcast op (col a) (match b with A1 v => col v | A2 _ _ => b end)) (fun r =>
  match r, b with
  | A2 n rows, A1 v => flat (length v) r
  | A2 n rows, A2 c U => if Nat.eqb (length rows) (length U) && Nat.eqb n c then Ok r
                         else if Nat.eqb (length rows * n) (length U * c) then Ok b else Err ValueError
  | A1 _, _ => Err ValueError
  end).
(** linear_operator.dot(x), and np.dot(linear_operator.T, u), for a dense or sparse matrix with rows D and n columns,
    regreg/affine/__init__.py:163-168, 251-261 *)
Definition dots (D : list vec) (n : nat) (x : arr) : res arr :=
  if Nat.eqb (alen x) n then Ok (match x with A1 v => A1 (mat_vec D v) | A2 c U => A2 c (map (mat_tvec c U) D) end) else Err ValueError.
Definition tdots (D : list vec) (n : nat) (u : arr) : res arr :=
  if Nat.eqb (alen u) (length D) then
    Ok (match u with A1 v => A1 (mat_tvec n D v) | A2 c U => A2 c (map (fun k => mat_tvec c U (column D k)) (seq 0 n)) end)
  else Err ValueError.
(** the affine offset in affine_transform.affine_map, regreg/affine/__init__.py:216-223 *)
Definition add_off (m : mode) (o : option vec) (x : arr) : res arr :=
  match m, o with Aff, Some a => broadcast_first a x Rplus | _, _ => Ok x end.
(** x - x.mean(0), regreg/affine/__init__.py:488-489; nothing is subtracted from an array without rows *)
Definition center_arr (x : arr) : arr :=
  match x with
  | A1 v => A1 (center v)
  | A2 c U => let mu := map (fun j => vsum (column U j) / INR (length U)) (seq 0 c) in A2 c (map (fun r => vsub r mu) U)
  end.

(** Expressions building transforms *)
Inductive tr :=
| EMatrix (D : list vec) (n : nat) (o : option vec)
| EDiagonal (d : vec) (o : option vec)
| EShift (a : vec)
| EWrap (t : tr) (o : option vec)
| ESelector (idx : list nat) (n : nat) (t : tr)
| EScaler (s : vec)
| EReshape (n : nat)
| EIntercept (t : tr)
| ECentering (n : nat)
| EIdentity (n : nat)
| EVstack (ts : list tr)
| EHstack (ts : list tr)
| EProduct (ts : list tr)
| EAslinear (t : tr)
| EAdjoint (t : tr)
| EResidual (t : tr)
| EComposition (ts : list tr)
| ESum (ts : list tr) (w : vec)
| EScalar (t : tr) (c : R).

(** input_shape and output_shape, regreg/affine/__init__.py:78-124, 313-317, 343, 363-364, 465-466, 481, 501, 523-538, 586-603,
    663-664, 756-757, 775-776, 825-826, 847-848, 891-892, 922; vstack, composition and affine_sum of nothing do not exist *)
Fixpoint e_in (t : tr) : nat :=
  match t with
  | EMatrix _ n _ => n | EDiagonal d _ => length d | EShift a => length a | EWrap t _ => e_in t | ESelector _ n _ => n
  | EScaler s => length s | EReshape n => n | EIntercept t => e_in t + 1 | ECentering n => n | EIdentity n => n
  | EVstack ts => match ts with t :: _ => e_in t | [] => 0 end | EHstack ts => list_sum (map e_in ts) | EProduct ts => list_sum (map e_in ts)
  | EAslinear t => e_out t | EAdjoint t => e_out t | EResidual t => e_in t
  | EComposition ts => last (map e_in ts) 0%nat | ESum ts _ => match ts with t :: _ => e_in t | [] => 0 end | EScalar t _ => e_in t
  end
with e_out (t : tr) : nat :=
  match t with
  | EMatrix D _ _ => length D | EDiagonal d _ => length d | EShift a => length a | EWrap t _ => e_out t | ESelector _ _ t => e_out t
  | EScaler s => length s | EReshape n => n | EIntercept t => e_out t | ECentering n => n | EIdentity n => n
  | EVstack ts => list_sum (map e_out ts) | EHstack ts => match ts with t :: _ => e_out t | [] => 0 end | EProduct ts => list_sum (map e_out ts)
  | EAslinear t => e_in t | EAdjoint t => e_in t | EResidual t => e_out t
  | EComposition ts => match ts with t :: _ => e_out t | [] => 0 end | ESum ts _ => match ts with t :: _ => e_out t | [] => 0 end | EScalar t _ => e_out t
  end.

(** the loops of the stacking classes *)
(** result[g] = F(t) for each t, regreg/affine/__init__.py:541-544, 553-556, 634-637, 674-677 *)
Definition fill (F : tr -> res arr) (size : tr -> nat) : list tr -> res vec :=
  fix go ts := match ts with
  | [] => Ok []
  | t :: ts' => rbind (rbind (F t) (assign (size t))) (fun v => rbind (go ts') (fun vs => Ok (v ++ vs)))
  end.
(** result += F(t, x[g].reshape(s)) for each t, regreg/affine/__init__.py:566-571, 613-618 *)
Definition accumulate (F : tr -> arr -> res arr) (size : tr -> nat) : list tr -> arr -> arr -> res arr :=
  fix go ts x out := match ts with
  | [] => Ok out
  | t :: ts' => rbind (flat (size t) (take (size t) x)) (fun b => rbind (F t b) (fun v => rbind (iadd out v) (go ts' (drop (size t) x))))
  end.
(** result[og] = F(t, x[ig]) for each t, regreg/affine/__init__.py:685-692, 706-713 *)
Definition split_fill (F : tr -> arr -> res arr) (from to : tr -> nat) : list tr -> arr -> res vec :=
  fix go ts x := match ts with
  | [] => Ok []
  | t :: ts' => rbind (rbind (F t (take (from t) x)) (assign (to t))) (fun v => rbind (go ts' (drop (from t) x)) (fun vs => Ok (v ++ vs)))
  end.
(** self.affine_offset += t.affine_map(np.zeros(s)), regreg/affine/__init__.py:606-611 *)
Definition total (F : tr -> res arr) : list tr -> arr -> res arr :=
  fix go ts out := match ts with [] => Ok out | t :: ts' => rbind (F t) (fun v => rbind (iadd out v) (go ts')) end.
(** the loops of composition, from right to left and from left to right, regreg/affine/__init__.py:858-874 *)
Definition from_right (F : tr -> arr -> res arr) : list tr -> arr -> res arr :=
  fix go ts x := match ts with [] => Ok x | t :: ts' => rbind (go ts' x) (F t) end.
Definition from_left (F : tr -> arr -> res arr) : list tr -> arr -> res arr :=
  fix go ts x := match ts with [] => Ok x | t :: ts' => rbind (F t x) (go ts') end.
(** output += weight * F(t), from the last transform to the first, regreg/affine/__init__.py:900-917; [None] is the number 0 *)
Definition wtotal (F : tr -> res arr) : list tr -> vec -> res (option arr) :=
  fix go ts ws := match ts, ws with
  | t :: ts', w :: ws' => rbind (go ts' ws') (fun acc => rbind (F t) (fun v =>
      let wv := amap (Rmult w) v in match acc with None => Ok (Some wv) | Some a => rmap Some (iadd a wv) end))
  | _, _ => Ok None
  end.
(** the offset of a stack, added by affine_map unless it is zero, regreg/affine/__init__.py:545-546, 562-565 *)
Definition add_stack_off (off : res vec) (r : res arr) : res arr :=
  rbind off (fun o => rbind r (fun v => if all_zero o then Ok v else bcast Rplus v (A1 o))).
Definition as_vec (x : arr) : res vec := match x with A1 v => Ok v | A2 _ _ => Err ValueError end.

(** linear_map, affine_map and adjoint_map. A class's lines are those cited for it in M_affine. *)
Fixpoint ap (m : mode) (t : tr) (x : arr) {struct t} : res arr :=
  match t with
  | EMatrix D n o => match m with Adj => tdots D n x | _ => rbind (dots D n x) (add_off m o) end
  | EDiagonal d o => rbind (broadcast_first d x Rmult) (add_off m o)
  | EShift a => add_off m (Some a) x
  | EWrap t o => rbind (ap m t x) (add_off m o)
  | ESelector idx n t =>
      match m with
      | Adj => rbind (rbind (ap Adj t x) (assign (length idx))) (fun w => Ok (A1 (scatter idx w (zeros n))))
      | _ => rbind (index idx x) (ap m t)
      end
  | EScaler s => bcast Rmult (A1 s) x
  | EReshape n => flat n x
  | EIntercept t =>
      match m with
      | Adj => rbind (ap Adj t x) (fun v => rbind (as_vec v) (fun w => Ok (A1 (match ravel x with A1 u => vsum u | A2 _ _ => 0 end :: w))))
      | _ => rbind (ap m t (drop 1 x)) (plus_first x)
      end
  | ECentering _ => Ok (center_arr x)
  | EIdentity _ => Ok x
  | EVstack ts =>
      let n := match ts with t :: _ => e_in t | [] => 0%nat end in
      match m with
      | Lin => rbind (fill (fun t => ap Lin t x) e_out ts) (fun v => Ok (A1 v))
      | Aff => add_stack_off (fill (fun t => ap Aff t (A1 (zeros n))) e_out ts) (rbind (fill (fun t => ap Lin t x) e_out ts) (fun v => Ok (A1 v)))
      | Adj => accumulate (fun t u => ap Adj t u) e_out ts x (A1 (zeros n))
      end
  | EHstack ts =>
      let k := match ts with t :: _ => e_out t | [] => 0%nat end in
      match m with
      | Lin => accumulate (fun t b => ap Lin t b) e_in ts x (A1 (zeros k))
      | Aff => add_stack_off (rbind (total (fun t => ap Aff t (A1 (zeros (e_in t)))) ts (A1 (zeros k))) as_vec)
                 (accumulate (fun t b => ap Lin t b) e_in ts x (A1 (zeros k)))
      | Adj => rbind (fill (fun t => rmap ravel (ap Adj t x)) e_in ts) (fun v => Ok (A1 v))
      end
  | EProduct ts =>
      let lin := rbind (split_fill (fun t b => rbind (flat (e_in t) b) (ap Lin t)) e_in e_out ts x) (fun v => Ok (A1 v)) in
      match m with
      | Lin => lin
      | Aff => add_stack_off (fill (fun t => ap Aff t (A1 (zeros (e_in t)))) e_out ts) lin
      | Adj => rbind (split_fill (fun t u => rmap ravel (ap Adj t u)) e_out e_in ts x) (fun v => Ok (A1 v))
      end
  | EAslinear t => match m with Adj => ap Adj t x | _ => ap Lin t x end
  | EAdjoint t => match m with Adj => ap Lin t x | _ => ap Adj t x end
  | EResidual t => rbind (ap m t x) (bcast Rminus x)
  | EComposition ts => match m with Adj => from_left (fun t v => ap Adj t v) ts x | _ => from_right (fun t v => ap m t v) ts x end
  | ESum ts w => rbind (wtotal (fun t => ap m t x) ts w) (fun o => match o with Some a => Ok a | None => Err IndexError end)
  | EScalar t c => rbind (ap m t x) (fun v => Ok (if Req_EM_T c 1 then v else amap (Rmult c) v))
  end.
(** todense(transform), regreg/affine/__init__.py:969-979 *)
Definition todense (t : tr) : res arr := ap Lin t (A2 (e_in t) (map (unit_vec (e_in t)) (seq 0 (e_in t)))).

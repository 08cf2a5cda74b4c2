(** Model of the arrays adjoint_map returns: an object store of arrays and the transforms that keep one of their own.
    regreg/affine/__init__.py: selector.adjoint_map 330-336 (attribute _output), posneg.adjoint_map 963-967 (attribute
    _adjoint_output). Every other class computes a new array or hands an array on. *)
From Coq Require Import Reals List Arith.
From Verif Require Import Vec Spec M_affine.
Import ListNotations.
Local Open Scope R_scope.

Definition heap := list vec.
Definition ref := nat.
Definition read (h : heap) (r : ref) : vec := nth r h [].
Fixpoint write (h : heap) (r : ref) (v : vec) : heap :=
  match h, r with [], _ => [] | _ :: h', O => v :: h' | a :: h', S r' => a :: write h' r' v end.

(** Transform objects, by what their adjoint_map does with arrays. *)
Inductive tobj :=
| Fresh (f : vec -> vec)                                          (* dense, diagonal, stacked, ...: a new array *)
| Same                                                            (* identity 507-508, reshape 372-374: the argument itself *)
| Sel (idx : list nat) (n : nat) (inner : tobj) (buf : option ref)
| Pos (inner : tobj) (buf : ref)
| Times (c : R) (inner : tobj)                                    (* scalar_multiply 940-944 *)
| Chain (a b : tobj).                                             (* composition.adjoint_map 867-871: a, then b *)

Fixpoint adj_call (o : tobj) (h : heap) (u : ref) : heap * tobj * ref :=
  match o with
  | Fresh f => (h ++ [f (read h u)], o, length h)
  | Same => (h, o, u)
  | Sel idx n inner buf =>
      let '(h0, b) := match buf with Some b => (h, b) | None => (h ++ [zeros n], length h) end in
      let '(h1, inner', r) := adj_call inner h0 u in
      (write h1 b (scatter idx (read h1 r) (read h1 b)), Sel idx n inner' (Some b), b)
  | Pos inner b =>
      let '(h1, inner', r) := adj_call inner h u in
      (write h1 b (read h1 r ++ vopp (read h1 r)), Pos inner' b, b)
  | Times c inner =>
      let '(h1, inner', r) := adj_call inner h u in
      if Req_EM_T c 1 then (h1, Times c inner', r) else (h1 ++ [vscal c (read h1 r)], Times c inner', length h1)
  | Chain a b =>
      let '(h1, a', r1) := adj_call a h u in
      let '(h2, b', r2) := adj_call b h1 r1 in
      (h2, Chain a' b', r2)
  end.

(** What a program does around the transform: make arrays, call adjoint_map, write into an array it holds. *)
Inductive op := New (v : vec) | Call (u : ref) | Put (r : ref) (v : vec).
Definition step (s : heap * tobj) (o : op) : heap * tobj * option ref :=
  let '(h, t) := s in
  match o with
  | New v => (h ++ [v], t, Some (length h))
  | Call u => let '(h', t', r) := adj_call t h u in (h', t', Some r)
  | Put r v => (write h r v, t, None)
  end.
Definition run (s : heap * tobj) (l : list op) : heap * tobj := fold_left (fun s o => fst (step s o)) l s.

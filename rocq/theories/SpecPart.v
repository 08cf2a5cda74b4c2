(** Vocabulary for vectors whose coordinates are sorted into classes. *)
From Coq Require Import Reals List.
From Verif Require Import Vec Spec SpecWeighted.
Import ListNotations.
Local Open Scope R_scope.

(** x[mask]: the entries of x whose label satisfies f, in order. *)
Fixpoint pick {A} (f : A -> bool) (l : list A) (x : vec) : vec :=
  match l, x with
  | c :: l', a :: x' => if f c then a :: pick f l' x' else pick f l' x'
  | _, _ => []
  end.
(** Sum and maximum of possibly infinite numbers; a maximum of numbers >= 0. *)
Definition ext_sum (l : list ext) : ext := fold_right ext_add (Fin 0) l.
Definition ext_maximum (l : list ext) : ext := fold_right ext_max (Fin 0) l.
(** The epigraph cone {(v,t) : h(v) <= t} and its indicator function. *)
Definition epi (h : vec -> ext) (x : vec) : Prop := ext_le (h (removelast x)) (Fin (last x 0)).
Definition epi_fun (h : vec -> ext) (x : vec) : ext :=
  match h (removelast x) with Fin r => if Rle_dec r (last x 0) then Fin 0 else PInf | PInf => PInf end.
(** The cone {(v,t) : h(v) <= -t}. *)
Definition epi_neg (h : vec -> ext) (x : vec) : Prop := ext_le (h (removelast x)) (Fin (- last x 0)).
Definition epi_neg_fun (h : vec -> ext) (x : vec) : ext :=
  match h (removelast x) with Fin r => if Rle_dec r (- last x 0) then Fin 0 else PInf | PInf => PInf end.

(** Specification vocabulary for atoms built on a gauge h: the penalty lam*h and the constraint {h <= b}. *)
From Coq Require Import Reals List.
From Verif Require Import Vec Spec.
Import ListNotations.
Local Open Scope R_scope.

Definition gmode (h : vec -> ext) (m : smode) (v : vec) : ext :=
  match m with
  | Lagrange lam => ext_scale lam (h v)
  | Bound b => match h v with
               | Fin r => if Rle_dec r b then Fin 0 else PInf
               | PInf => PInf
               end
  end.
Definition gball (h : vec -> ext) (b : R) (v : vec) : Prop := ext_le (h v) (Fin b).

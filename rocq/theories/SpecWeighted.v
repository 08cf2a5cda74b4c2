(** Weighted l1 and sup norms; weights are non-negative numbers or +infinity. *)
From Coq Require Import Reals List.
From Verif Require Import Vec Spec.
Import ListNotations.
Local Open Scope R_scope.

(** w*|a|, with  inf*0 = 0  (an infinite weight forces the entry to be zero). *)
Definition wterm (w : ext) (a : R) : ext :=
  match w with
  | Fin r => Fin (r * Rabs a)
  | PInf => if Req_EM_T a 0 then Fin 0 else PInf
  end.
Definition ext_max (a b : ext) : ext := match a, b with Fin r, Fin s => Fin (Rmax r s) | _, _ => PInf end.
(** sum_i w_i |x_i|  and  max_i w_i |x_i| *)
Fixpoint wl1 (w : list ext) (x : vec) : ext :=
  match w, x with c :: w', a :: x' => ext_add (wterm c a) (wl1 w' x') | _, _ => Fin 0 end.
Fixpoint wsup (w : list ext) (x : vec) : ext :=
  match w, x with c :: w', a :: x' => ext_max (wterm c a) (wsup w' x') | _, _ => Fin 0 end.

(** Legal weights: >= 0 or infinite. *)
Definition weight_legal (c : ext) : Prop := match c with Fin r => 0 <= r | PInf => True end.
(** Weights in the range handled by the root finder: zero, infinite, or in [1e-20, 1e20]. *)
Definition weight_range (c : ext) : Prop := match c with Fin r => r = 0 \/ / 10 ^ 20 <= r <= 10 ^ 20 | PInf => True end.
Definition weight_regular (c : ext) : Prop := exists r, c = Fin r /\ r <> 0.

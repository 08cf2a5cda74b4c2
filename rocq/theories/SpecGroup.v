(** The documented functions of regreg/atoms/group_lasso.py and regreg/atoms/mixed_lasso.py. *)
From Coq Require Import Reals List ZArith.
From Verif Require Import Vec Spec SpecWeighted SpecPart.
Import ListNotations.
Local Open Scope R_scope.

(** One group:  w*||v||_2, and its polar  ||u||_2/w  (for w = 0: zero at 0, infinite elsewhere). *)
Definition group_term (w : R) (v : vec) : ext := Fin (w * ell2 v).
Definition group_dual_term (w : R) (u : vec) : ext :=
  if Rlt_dec 0 w then Fin (ell2 u / w) else if Req_EM_T (ell2 u) 0 then Fin 0 else PInf.
(** The distinct labels of an array. *)
Definition distinct (labels : list Z) : list Z := nodup Z.eq_dec labels.
(** x[labels == g] *)
Definition block (labels : list Z) (g : Z) (x : vec) : vec := pick (Z.eqb g) labels x.
(** sum_g w_g ||x[g]||_2  and  max_g ||x[g]||_2 / w_g *)
Definition glasso (labels : list Z) (w : Z -> R) (x : vec) : ext :=
  ext_sum (map (fun g => group_term (w g) (block labels g x)) (distinct labels)).
Definition glasso_dual (labels : list Z) (w : Z -> R) (u : vec) : ext :=
  ext_maximum (map (fun g => group_dual_term (w g) (block labels g u)) (distinct labels)).
(** The weight of a group: the one given, or the square root of its size. *)
Definition group_weight (given : Z -> option R) (labels : list Z) (g : Z) : R :=
  match given g with Some r => r | None => sqrt (INR (length (filter (Z.eqb g) labels))) end.

(** Mixed lasso. Labels -1 (unpenalized), -2 (l1), -3 (positive part), -4 (nonnegative) are reserved;
    any other label is a group. *)
Definition reserved (g : Z) : bool := (Z.eqb g (-1) || Z.eqb g (-2) || Z.eqb g (-3) || Z.eqb g (-4))%bool.
Definition mixed_groups (labels : list Z) : list Z := distinct (filter (fun g => negb (reserved g)) labels).
Definition zero_dec (x : vec) : {Forall (fun a => a = 0) x} + {~ Forall (fun a => a = 0) x} := Forall_dec _ (fun a => Req_EM_T a 0) x.
Definition nonpos_dec (x : vec) : {Forall (fun a => a <= 0) x} + {~ Forall (fun a => a <= 0) x} := Forall_dec _ (fun a => Rle_dec a 0) x.
(** ||x[l1]||_1 + sum(x[pp]) + sum_g w_g||x[g]||_2, infinite unless x[pp] >= 0 and x[nn] >= 0. *)
Definition mixed_pen (labels : list Z) (w : Z -> R) (x : vec) : ext :=
  ext_sum ([ Fin (ell1 (block labels (-2) x));
             doc_seminorm CConPosPart (block labels (-3) x);
             if nonneg_dec (block labels (-4) x) then Fin 0 else PInf ]
           ++ map (fun g => group_term (w g) (block labels g x)) (mixed_groups labels)).
(** max(||u[l1]||_inf, max(u[pp])^+, max_g ||u[g]||/w_g), infinite unless u[unpenalized] = 0 and u[nn] <= 0. *)
Definition mixed_pen_dual (labels : list Z) (w : Z -> R) (u : vec) : ext :=
  ext_maximum ([ Fin (ellinf (block labels (-2) u));
                 doc_seminorm CMaxPos (block labels (-3) u);
                 (if nonpos_dec (block labels (-4) u) then Fin 0 else PInf);
                 if zero_dec (block labels (-1) u) then Fin 0 else PInf ]
               ++ map (fun g => group_dual_term (w g) (block labels g u)) (mixed_groups labels)).

(** The function a smooth object stands for, and when it fits together. *)
From Coq Require Import Reals List Arith.
From Verif Require Import M_affine SpecAffine Vec Spec M_loss SpecLoss M_smooth.
Import ListNotations.
Local Open Scope R_scope.

Definition apply_Q (Q : option (vec -> vec)) (x : vec) : vec := match Q with Some Q => Q x | None => x end.
Fixpoint meaning (a : satom) (x : vec) : R :=
  match a with
  | SLoss k n c off cw _ => doc_loss k n c cw (minus x off)
  | SQuad Q _ c off _ => c / 2 * dot (minus x off) (apply_Q Q (minus x off))
  | SZero _ _ => 0
  | SGlm k n c off cw T goff _ => doc_loss k n c cw (minus (t_lin T (minus x goff)) off)
  | SAff a T _ => meaning a (t_aff T x)
  | SSum l ws _ => dot ws (map (fun a => meaning a x) l)
  end.
Definition fits_loss (k : family) (m : nat) (off : option vec) (cw : vec) : Prop :=
  fits k m /\ off_fits m off /\ length cw = m /\ (match k with Cloglog _ _ => off = None | _ => True end).
Definition good_design (T : transform) (n m : nat) : Prop := true_adjoint T /\ affine T /\ t_in T = n /\ t_out T = m.
(** a is an object on R^n. *)
Fixpoint wf (a : satom) (n : nat) : Prop :=
  match a with
  | SLoss k m c off cw _ => m = n /\ fits_loss k m off cw
  | SQuad Q m c off _ => m = n /\ off_fits m off /\ (match Q with Some Q => symmetric_map m Q | None => True end)
  | SZero m _ => m = n
  | SGlm k m c off cw T goff _ => fits_loss k m off cw /\ off_fits n goff /\ good_design T n m
  | SAff a T _ => good_design T n (t_out T) /\ wf a (t_out T)
  | SSum l ws _ => l <> [] /\ length ws = length l /\ fold_right (fun a P => wf a n /\ P) True l
  end.
(** Every loss in a is evaluated away from its seams. *)
Fixpoint everywhere (P : family -> R -> Prop) (a : satom) (x : vec) : Prop :=
  match a with
  | SLoss k _ _ off _ _ => Forall (P k) (minus x off)
  | SQuad _ _ _ _ _ | SZero _ _ => True
  | SGlm k _ _ off _ T goff _ => Forall (P k) (minus (t_lin T (minus x goff)) off)
  | SAff a T _ => everywhere P a (t_aff T x)
  | SSum l _ _ => fold_right (fun a Q => everywhere P a x /\ Q) True l
  end.
(** Nonnegative coefficients, weights and convex losses throughout *)
Fixpoint convex_parts (a : satom) : Prop :=
  match a with
  | SLoss k _ c _ cw _ | SGlm k _ c _ cw _ _ _ => 0 <= c /\ nonneg cw /\ convex_family k
  | SQuad Q n c _ _ => 0 <= c /\ forall d, length d = n -> 0 <= dot d (apply_Q Q d)
  | SZero _ _ => True
  | SAff a _ _ => convex_parts a
  | SSum l ws _ => nonneg ws /\ fold_right (fun a Q => convex_parts a /\ Q) True l
  end.

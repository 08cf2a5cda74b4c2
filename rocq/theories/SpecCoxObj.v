(** cox_loglike objects over time. *)
From Coq Require Import Reals List Arith.
From Verif Require Import Vec Spec M_quad M_buffer M_loss SpecLoss M_cox SpecCox.
Import ListNotations.
Local Open Scope R_scope.

(** np.argsort, whatever it does with ties *)
Definition sorting (argsort : vec -> list nat) : Prop := forall T, sorts T (argsort T).
(** the five scratch arrays have n entries, whatever these are *)
Definition sized (n : nat) (b : scratch) : Prop := length (b_exp b) = n /\ length (b_acc b) = n /\ length (b_out1 b) = n /\ length (b_accZ b) = n /\ length (b_out2 b) = n.
(** Calls: smooth_objective and hessian_mult, with or without weights of the caller *)
Inductive call := CEval (b : scratch) (arg : option ref) (x : vec) (m : smode_arg) | CHess (b : scratch) (arg : option ref) (x z : vec).
Definition do_call (k : cox) (h : heap) (o : call) : heap :=
  match o with CEval b arg x m => fst (cox_eval h k b arg x m) | CHess b arg x z => fst (cox_hess h k b arg x z) end.
Definition calls (k : cox) (h : heap) (os : list call) : heap := fold_left (do_call k) os h.
(** the caller's weights are an array of the caller, not one of the two arrays of the object; arguments have n entries *)
Definition fair (n : nat) (own : list ref) (o : call) : Prop :=
  match o with CEval b arg x _ | CHess b arg x _ => sized n b /\ length x = n /\ forall r, arg = Some r -> ~ In r own end.
(** cox_loglike(n, T, cens, coef=c, offset=off, case_weights=w) *)
Definition cox_weights (T : vec) (w : option vec) : vec := match w with Some w => w | None => ones (length T) end.

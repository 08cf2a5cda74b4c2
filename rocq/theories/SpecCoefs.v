(** What C101 says about histories of problems, independently of how the coefficients are kept. *)
From Coq Require Import Reals List.
From Verif Require Import Vec M_coefs.
Import ListNotations.

(** The coefficients at the end of a run that starts at x and is offered the proposals xs, each with whether it is taken *)
Fixpoint last_kept (x : vec) (xs : list (vec * bool)) : vec :=
  match xs with [] => x | (v, true) :: r => last_kept v r | (_, false) :: r => last_kept x r end.
Definition keeps_one (xs : list (vec * bool)) : Prop := exists v, In (v, true) xs.
(** Any program that makes and uses the objects of M_coefs.v *)
Definition reachable (w : world) : Prop := exists l, w = run empty_world l.
(** The call is not problem.coefs[:] = v for the problem p, and does not give its penalty a to another problem *)
Definition leaves (p a : nat) (o : op) : Prop :=
  match o with Assign q _ => q <> p | NewProblem _ _ b => b <> a | NewQn _ _ b => b <> a | _ => True end.
(** Fits one after the other, each with a new penalty and a new problem for the same loss l: start values and runs *)
Fixpoint fits (l i : nat) (js : list (vec * proposals)) : list op :=
  match js with [] => [] | (x, f) :: r => NewAtom i (repeat 0%R (length x)) :: NewProblem i l i :: Assign i x :: Solve i f :: fits l (S i) r end.
(** The iteration of quasi_newton.solve on vectors: minimize the model, move, and return the last minimizer of a model *)
Fixpoint qn_result (x : vec) (its : list qn_step) : vec :=
  match its with
  | [] => x
  | (f, g) :: rest =>
      let q := last_kept x (f x) in
      match g, rest with Some new, _ :: _ => qn_result (new x q) rest | _, _ => q end
  end.

(** Reference notions for the probit loss and for the data of binary losses. *)
From Coq Require Import Reals List Arith.
From Verif Require Import Vec Spec M_quad M_buffer M_loss SpecLoss M_probit.
Import ListNotations.
Local Open Scope R_scope.

(** Minus the binomial log-likelihood of s successes in t trials, with success probability F(a) *)
Definition binomial_nll (F : R -> R) (s t a : R) : R := - (s * ln (F a) + (t - s) * ln (1 - F a)).
(** coef times the weighted sum over the n cases *)
Definition doc_binomial (F : R -> R) (s t : vec) (n : nat) (c : R) (cw z : vec) : R :=
  c * sum_over n (fun i => nth i cw 0 * binomial_nll F (nth i s 0) (nth i t 0) (nth i z 0)).
(** Numbers of successes between 0 and the numbers of trials *)
Definition counts (n : nat) (s t : vec) : Prop := length s = n /\ length t = n /\ forall i, (i < n)%nat -> 0 <= nth i s 0 <= nth i t 0.
(** Linear predictors of modulus at most b *)
Definition within (b : R) (x : vec) : Prop := Forall (fun a => - b <= a <= b) x.
Definition inside (b : R) (x : vec) : Prop := Forall (fun a => - b < a < b) x.

(** An object returned by the constructor, whose case weights are an array of the store *)
Definition made_probit (h : heap) (l : plike) : Prop := exists trials off q, new_probit h (pl_s l) trials (pl_shape l) (pl_coef l) off q (pl_cw l) = Ok l /\
  (forall w, pl_cw l = Some w -> (w < length h)%nat) /\ length (pl_s l) = pl_shape l.
Definition weights_of (h : heap) (l : plike) : vec := match pl_cw l with Some w => read h w | None => ones (pl_shape l) end.
(** A history of evaluations, each leaving a store *)
Inductive pop := PEval (x : vec) (m : smode_arg) | PHess (x : vec).
Definition pop_arg (o : pop) : vec := match o with PEval x _ => x | PHess x => x end.
Definition prun (cdf pdf : R -> R) (l : plike) (h : heap) (ops : list pop) : heap :=
  fold_left (fun h o => match o with PEval x m => fst (probit_eval cdf pdf h l None x m) | PHess x => fst (probit_hess_eval cdf pdf h l None x) end) ops h.
(** A history of assignments to data, some of which may be rejected *)
Definition arun (l : plike) (ops : list (vec * option vec)) : plike := fold_left (fun l o => fst (assign l (fst o) (snd o))) ops l.

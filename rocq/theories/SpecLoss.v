(** The losses as functions of the linear predictor, case by case. *)
From Coq Require Import Reals List.
From Verif Require Import Vec Spec M_loss.
Import ListNotations.
Local Open Scope R_scope.

(** F 0 + ... + F (n-1) *)
Definition sum_over (n : nat) (F : nat -> R) : R := vsum (map F (seq 0 n)).
(** Huber's function, and the hinge (1-z)+ smoothed in the same way. *)
Definition huber_fun (eps r : R) : R := if Rle_dec (Rabs r) eps then r * r / (2 * eps) else Rabs r - eps / 2.
Definition smooth_hinge (eps z : R) : R :=
  if Rle_dec 1 z then 0 else if Rle_dec z (1 - eps) then 1 - z - eps / 2 else (1 - z) * (1 - z) / (2 * eps).
(** Loss of case i at linear predictor a. *)
Definition doc_case (k : family) (i : nat) (a : R) : R :=
  match k with
  | Gaussian y => (a - nth i y 0) * (a - nth i y 0) / 2
  | Logistic s t => nth i t 0 * ln (1 + exp a) - nth i s 0 * a
  | Poisson n => exp a - nth i n 0 * a
  | Cloglog s t => - (nth i s 0 * ln (1 - exp (- exp a)) - (nth i t 0 - nth i s 0) * exp a)
  | Huber y eps => huber_fun eps (a - nth i y 0)
  | HuberSvm s eps => smooth_hinge eps ((2 * nth i s 0 - 1) * a)
  end.
Definition doc_loss (k : family) (n : nat) (c : R) (cw z : vec) : R := c * sum_over n (fun i => nth i cw 0 * doc_case k i (nth i z 0)).
(** Data for n cases. *)
Definition fits (k : family) (n : nat) : Prop :=
  match k with
  | Gaussian y => length y = n
  | Logistic s t | Cloglog s t => length s = n /\ length t = n
  | Poisson y => length y = n
  | Huber y eps => length y = n /\ 0 < eps
  | HuberSvm s eps => length s = n /\ 0 < eps
  end.
Definition off_fits (n : nat) (o : option vec) : Prop := match o with Some a => length a = n | None => True end.
(** x minus the offset *)
Definition minus (x : vec) (o : option vec) : vec := match o with Some a => vsub x a | None => x end.
Definition nonneg (v : vec) : Prop := Forall (fun a => 0 <= a) v.
Definition trials_of (k : family) : vec := match k with Logistic _ t | Cloglog _ t => t | _ => [] end.
(** The predictor at which the code evaluates the loss: the complementary log-log loss does not subtract its offset. *)
Definition predictor (k : family) (off : option vec) (x : vec) : vec := match k with Cloglog _ _ => x | _ => minus x off end.
(** Away from the seams of the code: the overflow threshold 100 of logistic, the clipping at -5 and 5 of cloglog, and smoothing 1 for the SVM. *)
Definition regular_case (k : family) (a : R) : Prop :=
  match k with Logistic _ _ => a <> 100 | Cloglog _ _ => -5 < a < 5 | HuberSvm _ eps => eps = 1 | _ => True end.
Definition regular (k : family) (z : vec) : Prop := Forall (regular_case k) z.
(** Where the code returns the documented value *)
Definition exact_case (k : family) (a : R) : Prop :=
  match k with Logistic _ _ => a <= 100 | Cloglog _ _ => -5 <= a <= 5 | HuberSvm _ eps => eps = 1 | _ => True end.
(** Convex families, with the part of the data this needs *)
Definition convex_family (k : family) : Prop :=
  match k with Cloglog _ _ => False | HuberSvm _ eps => eps = 1 | Logistic _ t => nonneg t | _ => True end.
(** H d is the derivative of G at x in direction d, coordinate by coordinate. *)
Definition is_jacobian (n : nat) (G : vec -> vec) (x : vec) (H : vec -> vec) : Prop :=
  forall d i, length d = n -> (i < n)%nat -> derivable_pt_lim (fun t => nth i (G (vadd x (vscal t d))) 0) 0 (nth i (H d) 0).
Definition twice_smooth (k : family) : Prop := match k with Gaussian _ | Poisson _ | Logistic _ _ => True | _ => False end.
Definition hess_regular (k : family) (a : R) : Prop := match k with Logistic _ _ => a < 100 | _ => True end.
(** Weights outside idx set to zero *)
Definition restrict (idx : list nat) (w : vec) : vec := map (fun i => if in_dec Nat.eq_dec i idx then nth i w 0 else 0) (seq 0 (length w)).
(** The loss came out of its constructor, with its weights as they are in the store. *)
Definition made (h : M_buffer.heap) (l : loss) : Prop := exists off q, new_loss h (l_fam l) (l_shape l) (l_coef l) off q (l_cw l) = Ok l /\
  (forall w, l_cw l = Some w -> (w < length h)%nat) /\ fits (l_fam l) (l_shape l) /\ off_fits (l_shape l) off.
(** The weights in force: its own, or ones. *)
Definition own_weights (h : M_buffer.heap) (l : loss) : vec := match l_cw l with Some w => M_buffer.read h w | None => ones (l_shape l) end.
(** Evaluating a loss object repeatedly, without passing weights *)
Definition lrun (l : loss) (h : M_buffer.heap) (ops : list (vec * smode_arg)) : M_buffer.heap := fold_left (fun h o => fst (loss_eval h l None (fst o) (snd o))) ops h.
(** Q is a symmetric linear map of R^n. *)
Definition symmetric_map (n : nat) (Q : vec -> vec) : Prop :=
  (forall x, length x = n -> length (Q x) = n) /\ (forall x y, length x = n -> length y = n -> Q (vadd x y) = vadd (Q x) (Q y)) /\
  (forall a x, length x = n -> Q (vscal a x) = vscal a (Q x)) /\ (forall x y, length x = n -> length y = n -> dot (Q x) y = dot x (Q y)).
(** ** Data a loss may be built from: binomial counts between zero and the number of trials; Poisson counts nonnegative and whole up to np.allclose *)
Definition legal_data (k : family) : Prop :=
  match k with
  | Logistic s t | Cloglog s t => Forall2 (fun a b => 0 <= a <= b) s t
  | Poisson n => Forall (fun a => 0 <= a /\ exists z : Z, Rabs (a - IZR z) <= / 10 ^ 8 + / 10 ^ 5 * Rabs a) n
  | _ => True
  end.
Definition legal_weights (n : nat) (w : vec) : Prop := length w = n /\ Forall (fun a => 0 <= a) w.

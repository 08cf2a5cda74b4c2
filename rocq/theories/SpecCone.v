(** The cones of regreg/atoms/cones.py, by their documentation (objective_template), and polarity. *)
From Coq Require Import Reals List.
From Verif Require Import Vec Spec.
Import ListNotations.
Local Open Scope R_scope.

Inductive coneclass := KNonneg | KNonpos | KZero | KZeroCon
  | KL2 | KL2Polar | KL1 | KL1Polar | KLinf | KLinfPolar.

(** x[:-1] and x[-1] *)
Definition init (x : vec) : vec := removelast x.
Definition lst (x : vec) : R := last x 0.

Definition in_cone (k : coneclass) (x : vec) : Prop :=
  match k with
  | KNonneg => Forall (fun a => 0 <= a) x
  | KNonpos => Forall (fun a => a <= 0) x
  | KZero => True                            (* the whole space: support function of {0} *)
  | KZeroCon => Forall (fun a => a = 0) x
  | KL2 => ell2 (init x) <= lst x
  | KL2Polar => ell2 (init x) <= - lst x
  | KL1 => ell1 (init x) <= lst x
  | KL1Polar => ellinf (init x) <= - lst x
  | KLinf => ellinf (init x) <= lst x
  | KLinfPolar => ell1 (init x) <= - lst x
  end.
Definition in_cone_dec (k : coneclass) (x : vec) : {in_cone k x} + {~ in_cone k x}.
Proof.
  destruct k; simpl; try (apply Rle_dec); try (apply Forall_dec; intros; first [apply Rle_dec | apply Req_EM_T]).
  left; exact I.
Defined.
(** The indicator function. *)
Definition cone_fun (k : coneclass) (x : vec) : ext := if in_cone_dec k x then Fin 0 else PInf.

Definition is_epigraph (k : coneclass) : bool :=
  match k with KNonneg | KNonpos | KZero | KZeroCon => false | _ => true end.
(** Dimensions in which the class makes sense: an epigraph needs at least one coefficient. *)
Definition cone_dim (k : coneclass) (n : nat) : Prop := if is_epigraph k then (2 <= n)%nat else (1 <= n)%nat.

(** [w] is in the polar of the cone [k] in R^n. *)
Definition in_polar (n : nat) (k : coneclass) (w : vec) : Prop :=
  forall v, length v = n -> in_cone k v -> dot v w <= 0.

(** The enlarged set the feasibility test accepts: a relative slack of 1e-5 (absolute for {0}). *)
Definition relax (k : coneclass) (x : vec) : Prop :=
  match k with
  | KNonneg => Forall (fun a => - (/ 10 ^ 5 * ellinf x) <= a) x
  | KNonpos => Forall (fun a => a <= / 10 ^ 5 * ellinf x) x
  | KZero => True
  | KZeroCon => ell2 x <= / 10 ^ 5
  | KL2 => ell2 (init x) <= (1 + / 10 ^ 5) * lst x
  | KL2Polar => ell2 (init x) <= (1 + / 10 ^ 5) * - lst x
  | KL1 => ell1 (init x) <= (1 + / 10 ^ 5) * lst x
  | KL1Polar => ellinf (init x) <= (1 + / 10 ^ 5) * - lst x
  | KLinf => ellinf (init x) <= (1 + / 10 ^ 5) * lst x
  | KLinfPolar => ell1 (init x) <= (1 + / 10 ^ 5) * - lst x
  end.

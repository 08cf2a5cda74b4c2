(** What the objects of regreg/atoms/svd_norms.py stand for. *)
From Coq Require Import Reals List.
From Verif Require Import Vec Spec SpecAtom M_quad M_prox M_semi M_shift M_mode SpecBase SpecMode SpecModed SpecSvd M_svd.
Import ListNotations.
Local Open Scope R_scope.

(** numpy.linalg.svd(X, full_matrices=False) is exact for every r by c matrix *)
Definition svd_ok (r c : nat) (svd : svd_fun) : Prop := forall X, length X = (r * c)%nat -> let '(U, D, V) := svd X in is_svd r c X U D V.
Definition matrix_norm (k : sclass) (r c : nat) (X : vec) : R := match k with SNuclear => nuc_norm r c X | SOperator => op_norm r c X end.
Definition snfun (k : sclass) (r c : nat) (X : vec) : ext := Fin (matrix_norm k r c X).
Definition satom_wf (n : nat) (a : satom) (m : smode) : Prop := (sa_r a * sa_c a = n)%nat /\ moded_wf n (sa_moded a) m.
(** The documented sets: norm(x[:-1]) <= x[-1], or <= -x[-1] *)
Definition in_econe (k : escl) (r c : nat) (x : vec) : Prop :=
  match k with
  | ENuclear => nuc_norm r c (removelast x) <= last x 0
  | ENuclearPolar => op_norm r c (removelast x) <= - last x 0
  | EOperator => op_norm r c (removelast x) <= last x 0
  | EOperatorPolar => nuc_norm r c (removelast x) <= - last x 0
  end.
Definition in_econe_dec (k : escl) (r c : nat) (x : vec) : {in_econe k r c x} + {~ in_econe k r c x}.
Proof. destruct k; apply Rle_dec. Defined.
Definition econe_fun (k : escl) (r c : nat) (x : vec) : ext := if in_econe_dec k r c x then Fin 0 else PInf.
Definition econe_wf (n : nat) (a : econe) : Prop := (ec_r a * ec_c a + 1 = n)%nat /\ base_wf n (ec_base a).
(** The relative slack of 1e-5 granted by the feasibility tests *)
Definition slack_econe (k : escl) (r c : nat) (x : vec) : Prop :=
  match k with
  | ENuclear => nuc_norm r c (removelast x) <= (1 + / 10 ^ 5) * last x 0
  | ENuclearPolar => op_norm r c (removelast x) <= (1 + / 10 ^ 5) * - last x 0
  | EOperator => op_norm r c (removelast x) <= (1 + / 10 ^ 5) * last x 0
  | EOperatorPolar => nuc_norm r c (removelast x) <= (1 + / 10 ^ 5) * - last x 0
  end.

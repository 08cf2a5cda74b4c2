(** Partial decompositions of a matrix, and histories of a factored nuclear norm. *)
From Coq Require Import Reals List Arith.
From Verif Require Import M_affine Vec Spec M_quad M_prox SpecLinear SpecSvd M_svd SpecSvd2 M_factored.
Import ListNotations.
Local Open Scope R_scope.

(** (U1, D1, V1) are the leading triples of a singular value decomposition of X, whose other singular values are D2 *)
Definition leading (r c : nat) (X : vec) (U1 : list vec) (D1 : vec) (V1 : list vec) (D2 : vec) : Prop :=
  exists U2 V2, is_svd r c X (U1 ++ U2) (D1 ++ D2) (V1 ++ V2) /\ length U1 = length D1 /\ length V1 = length D1.
(** The loop of partial_svd is exact: with q columns it finds the q leading triples of a decomposition, up to the signs that QR factorizations
    leave. For a matrix with fewer rows than columns it runs on the transpose. *)
Definition exact_iteration (r c : nat) (X : vec) (iter : nat -> nat -> list vec * vec * list vec) : Prop :=
  forall k q, (1 <= q <= Nat.min r c)%nat -> exists U D V e, is_svd r c X U D V /\ length e = q /\ Forall (fun a => a = 1 \/ a = -1) e /\
    iter k q = (scale_each e (firstn q (if (r <? c)%nat then V else U)), vmul e (firstn q D), firstn q (if (r <? c)%nat then U else V)).
(** Singular values are zero or not negligible: above 1e-12, and above 1e-16 of the largest *)
Definition not_negligible (r c : nat) (X : vec) : Prop :=
  forall U D V, is_svd r c X U D V -> Forall (fun a => a = 0 \/ (/ 10 ^ 12 < a /\ / 10 ^ 16 * op_norm r c X <= a)) D.
Definition nonzero_matrix (r c : nat) (X : vec) : Prop := length X = (r * c)%nat /\ X <> zeros (r * c).

(** Calls of the two proximal maps of one object, each with its own random start *)
Inductive fcall := FLagrange (iter : iteration) (X : vec) (lagrange : R) | FBound (iter : iteration) (X : vec) (bound : R).
Fixpoint fn_run (fuel : nat) (a : fac_nuclear) (calls : list fcall) : res (list factored) :=
  match calls with
  | [] => Ok []
  | c :: cs =>
      rbind (match c with FLagrange it X l => fn_lagrange_prox fuel it a X 1 l | FBound it X b => fn_bound_prox fuel it a X b end) (fun s =>
      rbind (fn_run fuel (fst s) cs) (fun fs => Ok (snd s :: fs)))
  end.
Definition call_ok (r c : nat) (f : fcall) : Prop :=
  match f with
  | FLagrange it X v | FBound it X v => nonzero_matrix r c X /\ exact_iteration r c X (it X) /\ not_negligible r c X /\ 0 <= v
  end.
(** The answer is the proximal map of the nuclear norm, or the projection on its ball *)
Definition answers (r c : nat) (f : fcall) (a : factored) : Prop :=
  match f with
  | FLagrange _ X l => is_unique_argmin (r * c) (prox_objective 1 X (fun Y => Fin (l * nuc_norm r c Y))) (get_X a)
  | FBound _ X b => is_proj (r * c) (fun Y => nuc_norm r c Y <= b) X (get_X a)
  end.
(** Factors that fit an r by c matrix *)
Definition factors_fit (f : factored) : Prop :=
  length (f_U f) = length (f_D f) /\ length (f_VT f) = length (f_D f) /\ Forall (fun u => length u = f_r f) (f_U f) /\ Forall (fun v => length v = f_c f) (f_VT f) /\
  f_rank1 f = Nat.eqb (length (f_D f)) 1.
(** An object whose warm start has the shape of its rank, a rank that X can have *)
Definition ready (a : fac_nuclear) : Prop :=
  (1 <= fn_r a)%nat /\ (1 <= fn_c a)%nat /\ (1 <= fn_rank a <= Nat.min (fn_r a) (fn_c a))%nat /\ snd (fn_warm a) = fn_rank a /\ fst (fn_warm a) = Nat.max (fn_r a) (fn_c a).

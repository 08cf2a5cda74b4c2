(** The problems solved along a lasso path, and what it means to pass the optimality check. *)
From Coq Require Import Reals List Arith Bool.
From Verif Require Import M_affine SpecAffine Vec Spec SpecConvex M_loss SpecLoss SpecSmooth M_path.
Import ListNotations.
Local Open Scope R_scope.

(** f(v) + lam sum_j w_j |v_j| *)
Definition lasso_objective (n : nat) (f : vec -> R) (w : vec) (lam : R) (v : vec) : R := f v + lam * sum_over n (fun j => nth j w 0 * Rabs (nth j v 0)).
(** how far off feature j may be, per unit of tolerance *)
Definition slack (w : vec) (lam m : R) (j : nat) : R := if Req_EM_T (nth j w 0) 0 then m else lam * nth j w 0.
(** No feature fails, active or not; no inactive feature fails. *)
Definition passes (r : list bool * vec) : Prop := Forall (fun b => b = false) (fst r) /\ Forall (fun a => a < 0) (snd r).
Definition inactive_passes (r : list bool * vec) : Prop := Forall (fun a => a < 0) (snd r).
(** f(X v) + (1-alpha)/2 sum_j e_j r_j v_j^2, r_j = lam for penalized features, 1 for the others *)
Definition smooth_part (P : lpath) (lam : R) (v : vec) : R :=
  lp_func P (t_lin (lp_X P) v) +
  (1 - lp_alpha P) / 2 * sum_over (lp_size P) (fun j => nth j (lp_enet P) 0 * (if Req_EM_T (nth j (lp_weights P) 0) 0 then 1 else lam) * (nth j v 0 * nth j v 0)).
(** ... + alpha lam sum_j w_j |v_j|: the elastic net *)
Definition path_objective (P : lpath) (lam : R) (v : vec) : R := lasso_objective (lp_size P) (smooth_part P lam) (lp_weights P) (lp_alpha P * lam) v.
Record good_path (P : lpath) : Prop := {
  gp_X : good_design (lp_X P) (lp_size P) (t_out (lp_X P));
  gp_w : length (lp_weights P) = lp_size P /\ nonneg (lp_weights P);
  gp_e : length (lp_enet P) = lp_size P /\ nonneg (lp_enet P);
  gp_alpha : 0 < lp_alpha P <= 1;
  gp_convex : convex_on (t_out (lp_X P)) (lp_func P);
  gp_grad : gradient_of (t_out (lp_X P)) (lp_func P) (lp_grad P) }.
(** the vector of R^p with entries b at the positions S and zero elsewhere *)
Definition embed (p : nat) (S : list nat) (b : vec) : vec := M_affine.scatter S b (zeros p).
(** the answer for the candidate set S is exact *)
Definition solves (P : lpath) (lam : R) (S : list nat) (b : vec) : Prop := is_argmin (length S) (fun c => Fin (path_objective P lam (embed (lp_size P) S c))) b.
Definition right_size (S : solver) : Prop := forall k v set l, length (S k v set l) = length set.
(** The optimality check at a point, with the gradient of the smooth part there *)
Definition checked (P : lpath) (lam : R) (v : vec) : list bool * vec :=
  check_KKT (lp_weights P) (path_gradient P v (t_lin (lp_X P) v) lam) v (lp_alpha P * lam) kkt_tol.
Definition index_set (p : nat) (S : list nat) : Prop := NoDup S /\ Forall (fun j => (j < p)%nat) S.
(** the solver always answers exactly *)
Definition exact_solver (P : lpath) (S : solver) : Prop := forall k v set l, index_set (lp_size P) set -> 0 < l -> solves P l set (S k v set l).
(** the solution reported is the answer of the solver for the set, zero elsewhere *)
Definition restricted (P : lpath) (S : solver) (pt : point) : Prop :=
  index_set (lp_size P) (pt_set pt) /\ pt_beta pt = embed (lp_size P) (pt_set pt) (pt_sub pt) /\ exists k v, pt_sub pt = S k v (pt_set pt) (pt_lagrange pt).
Definition decreasing (l : list R) : Prop := forall i j, (i < j < length l)%nat -> nth j l 0 < nth i l 0.
(** a solution reported by basil for the value l: the answer of the solver for a set with all unpenalized features in it, zero elsewhere *)
Definition basil_point (P : lpath) (S : solver) (l : R) (s : vec) : Prop :=
  exists set k v, index_set (lp_size P) set /\ (forall j, (j < lp_size P)%nat -> nth j (lp_weights P) 0 = 0 -> In j set) /\ s = embed (lp_size P) set (S k v set l) /\ inactive_passes (checked P l s).
(** A null solution: zero at the penalized features, stationary at the others *)
Definition null_solution (P : lpath) (s : vec) : Prop :=
  length s = lp_size P /\ (forall j, nth j (lp_weights P) 0 <> 0 -> nth j s 0 = 0) /\
  forall j, nth j (lp_weights P) 0 = 0 -> nth j (path_gradient P s (t_lin (lp_X P) s) 1) 0 = 0.
(** |g_j| / (lam w_j) for the features at 0 with a positive weight, 0 for the others: j is reported when it exceeds 1 by the tolerance *)
Definition excess_of (w g s : vec) (lam : R) (j : nat) : R := if Req_EM_T (nth j s 0) 0 then if Rlt_dec 0 (nth j w 0) then Rabs (nth j g 0) / (lam * nth j w 0) else 0 else 0.
(** how many of the n features i satisfy P *)
Definition count (n : nat) (P : nat -> bool) : nat := length (filter P (seq 0 n)).
Definition above (n : nat) (e : nat -> R) (j : nat) : nat := count n (fun i => if Rlt_dec (e j) (e i) then true else false).
Definition level (n : nat) (e : nat -> R) (j : nat) : nat := count n (fun i => if Req_EM_T (e i) (e j) then true else false).
(** place of j among all features, largest first, counted from 0; equal features share the mean of their places *)
Definition place (n : nat) (e : nat -> R) (j : nat) : R := INR (above n e j) + (INR (level n e j) - 1) / 2.

(** What a path of mixed lasso problems should return. *)
From Coq Require Import Reals List ZArith.
From Verif Require Import Vec Spec SpecConvex SpecFista SpecPart SpecGroup SpecGatom M_mixed_atom M_mkkt SpecMkkt M_mpath.
Import ListNotations.
Local Open Scope R_scope.

(** b minimizes the restriction of f + lam P to the coefficients in [set] *)
Definition restricted_minimizer (P : mpath) (set : list bool) (lam : R) (b : vec) : Prop :=
  mixed_minimizer (keep set (mp_labels P)) (mp_weights P) (fun c => mp_func P (embed_mask set c)) lam b.
Definition exact_solver (P : mpath) (S : msolver) : Prop :=
  forall k x set lam, length set = mp_size P -> 0 < lam -> restricted_minimizer P set lam (S k x set lam).
(** the gradient is that of the loss *)
Definition right_gradient (P : mpath) : Prop := forall x, length x = mp_size P -> is_gradient (mp_size P) (mp_func P) x (mp_grad P x).
(** every group has a given weight, at least zero *)
Definition weights_given (P : mpath) : Prop := forall l, In l (mixed_groups (mp_labels P)) -> exists r, mp_weights P l = Some r /\ 0 <= r.
(** the penalty of the path *)
Definition path_pen (P : mpath) : vec -> ext := mixed_pen (mp_labels P) (group_weight (mp_weights P) (mp_labels P)).
(** s is optimal up to the tolerance tol: no y is better by more than tol times lam times its own penalty (plus the sum of its nonnegative part) *)
Definition near_minimizer (P : mpath) (lam tol : R) (s : vec) : Prop :=
  exists r, path_pen P s = Fin r /\ forall y t, length y = mp_size P -> path_pen P y = Fin t ->
    mp_func P s + lam * r <= mp_func P y + lam * t + lam * tol * (t + vsum (block (mp_labels P) (-4) y)).
(** the set has every unpenalized and nonnegative coordinate *)
Definition covers (P : mpath) (set : list bool) : Prop := length set = mp_size P /\ forall i, nth i (initial_active P) false = true -> nth i set false = true.
Definition grad_lengths (P : mpath) : Prop := forall x, length x = mp_size P -> length (mp_grad P x) = mp_size P.
(** What is returned for one value: the answer of the solver for some set of coordinates, put among zeros; at most ten tries; a warning only after ten *)
Definition good_point (P : mpath) (S : msolver) (pt : mpoint) : Prop :=
  (exists set k x, covers P set /\ mpt_sol pt = embed_mask set (S k x set (mpt_lagrange pt))) /\ length (mpt_sol pt) = mp_size P /\ (1 <= mpt_tries pt <= 10)%nat /\ (mpt_warned pt = true -> mpt_tries pt = 10%nat).
(** the optimality check, at the gradient of the loss, reports nothing *)
Definition passes_check (P : mpath) (pt : mpoint) : Prop :=
  ml_check_KKT (mp_atom (mp_labels P) (mp_weights P) (mpt_lagrange pt)) (mp_grad P (mpt_sol pt)) (mpt_sol pt) (mpt_lagrange pt) mtol = repeat false (mp_size P).
(** the largest multiplier reported is at most lam; None is -inf *)
Definition at_most (v : option R) (lam : R) : Prop := match v with Some m => m <= lam | None => True end.
Definition weights_positive (P : mpath) : Prop := forall l, In l (mixed_groups (mp_labels P)) -> 0 < group_weight (mp_weights P) (mp_labels P) l.
(** s minimizes f + lam P *)
Definition path_minimizer (P : mpath) (lam : R) (s : vec) : Prop := mixed_minimizer (mp_labels P) (mp_weights P) (mp_func P) lam s.
(** the null solution: the unpenalized and nonnegative coefficients minimize the loss with every other coefficient at zero *)
Definition null_minimizer (P : mpath) (b : vec) : Prop := restricted_minimizer P (initial_active P) 1 b.
(** Each solution is the answer of the solver for a set; a coordinate that is not zero in a solution returned without a warning is in the sets of all later values *)
Definition no_point : mpoint := mk_mpoint 0 [] false 0.
Definition candidates_grow (P : mpath) (S : msolver) (pts : list mpoint) : Prop :=
  exists sets, length sets = length pts /\
    (forall j, (j < length pts)%nat -> let pt := nth j pts no_point in covers P (nth j sets []) /\ exists k x, mpt_sol pt = embed_mask (nth j sets []) (S k x (nth j sets []) (mpt_lagrange pt))) /\
    forall j j' i, (j < j')%nat -> (j' < length pts)%nat -> mpt_warned (nth j pts no_point) = false -> nth i (mpt_sol (nth j pts no_point)) 0 <> 0 -> nth i (nth j' sets []) false = true.

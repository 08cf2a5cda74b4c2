(** The problems solved along group lasso paths, and what it means to pass the optimality check. *)
From Coq Require Import Reals List Arith Bool ZArith.
From Verif Require Import M_affine SpecAffine Vec Spec SpecConvex M_loss SpecLoss SpecSmooth M_path SpecPath SpecGroup M_group M_gpath.
Import ListNotations.
Local Open Scope R_scope.

(** sum_g w_g ||v_g||, over the distinct labels *)
Definition group_penalty (labels : list Z) (w : Z -> R) (v : vec) : R := vsum (map (fun g => w g * norm (block labels g v)) (distinct labels)).
(** f(v) + lam sum_g w_g ||v_g|| *)
Definition group_objective (labels : list Z) (f : vec -> R) (w : Z -> R) (lam : R) (v : vec) : R := f v + lam * group_penalty labels w v.
(** how far off group g may be, per unit of tolerance: m for an unpenalized group; 1 for a group that is not at 0; lam w for the others *)
Definition group_slack (labels : list Z) (w : Z -> R) (lam m : R) (s : vec) (g : Z) : R :=
  if Req_EM_T (w g) 0 then m else if Req_EM_T (norm (block labels g s)) 0 then lam * w g else 1.
(** the mean weight of the groups *)
Definition mean_group_weight (labels : list Z) (w : Z -> R) : R := vsum (map w (distinct labels)) / INR (length (distinct labels)).
(** The elastic net: f(X v) + (1-alpha)/2 sum_j e_j r_j v_j^2 + alpha lam sum_g w_g ||v_g||, r_j = lam for features of penalized groups, 1 for the others *)
Definition gpath_objective (B : lpath) (labels : list Z) (w : Z -> R) (lam : R) (v : vec) : R := group_objective labels (smooth_part B lam) w (lp_alpha B * lam) v.
(** the features of the groups in S *)
Definition features (labels : list Z) (S : list Z) : list nat := filter (fun j => if in_dec Z.eq_dec (nth j labels 0%Z) S then true else false) (seq 0 (length labels)).
(** the answer for the candidate groups S is exact *)
Definition group_solves (B : lpath) (labels : list Z) (w : Z -> R) (lam : R) (S : list Z) (b : vec) : Prop :=
  is_argmin (length (features labels S)) (fun c => Fin (gpath_objective B labels w lam (embed (lp_size B) (features labels S) c))) b.
Definition exact_group_solver (B : lpath) (labels : list Z) (w : Z -> R) (S : solver) : Prop :=
  forall k v set l, 0 < l -> group_solves B labels w l set (S k v (features labels set) l).
(** the solution reported is the answer of the solver for the features of the candidate groups, zero elsewhere *)
Definition group_restricted (P : gpath) (S : solver) (pt : gpoint) : Prop :=
  incl (gp_set pt) (gq_groups P) /\ gp_beta pt = embed (gq_size P) (features (gq_groups P) (gp_set pt)) (gp_sub pt) /\
  exists k v, gp_sub pt = S k v (features (gq_groups P) (gp_set pt)) (gp_lagrange pt).
(** A null solution: zero in the penalized groups, stationary in the others *)
Definition group_null (B : lpath) (labels : list Z) (w : Z -> R) (s : vec) : Prop :=
  length s = lp_size B /\ (forall g, In g labels -> w g <> 0 -> norm (block labels g s) = 0) /\
  forall g, In g labels -> w g = 0 -> norm (block labels g (path_gradient B s (t_lin (lp_X B) s) 1)) = 0.
(** sum_g ( sum_{j in g} a_j |v_j| + w_g ||v_g|| ) *)
Definition sparse_penalty (labels : list Z) (a : vec) (w : Z -> R) (v : vec) : R :=
  vsum (map (fun g => vsum (vmul (block labels g a) (map Rabs (block labels g v))) + w g * norm (block labels g v)) (distinct labels)).

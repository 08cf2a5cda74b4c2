(** What the problems handed to the solver along a path should be. *)
From Coq Require Import Reals List Arith Bool ZArith.
From Verif Require Import M_affine SpecAffine Vec Spec SpecConvex M_loss SpecLoss SpecSmooth M_path SpecPath SpecGroup M_group M_gpath SpecGpath SpecSgpath SpecBlock M_sbpath SpecSbpath M_subprob.
Import ListNotations.
Local Open Scope R_scope.

(** the solver returns points of the right size *)
Definition sized (M : optimizer) : Prop := forall k n F x0, length (M k n F x0) = n.
Definition warm_sized (M : warm_optimizer) : Prop := forall d n F x0, length (fst (M d n F x0)) = n.
(** given the objective F of n variables, which takes values and has no errors, it returns a minimizer, whatever the starting point *)
Definition minimized (M : optimizer) (n : nat) (F : vec -> res ext) : Prop := exists G, (forall c, length c = n -> F c = Ok (G c)) /\ forall k x0, is_argmin n G (M k n F x0).
Definition warm_minimized (M : warm_optimizer) (n : nat) (F : vec -> res ext) : Prop := exists G, (forall c, length c = n -> F c = Ok (G c)) /\ forall d x0, is_argmin n G (fst (M d n F x0)).
(** the entries of x at the positions of a set *)
Definition at_positions (set : list nat) (x : vec) : vec := map (fun j => nth j x 0) set.
(** the sparse group problem *)
Definition sparse_objective (B : lpath) (labels : list Z) (lw : vec) (w : Z -> R) (lam : R) (v : vec) : R := smooth_part B lam v + lp_alpha B * lam * sparse_penalty labels lw w v.
(** no ridge penalty on unpenalized features *)
Definition no_free_ridge (P : lpath) : Prop := lp_alpha P = 1 \/ forall j, nth j (lp_weights P) 0 = 0 -> nth j (lp_enet P) 0 = 0.
(** X has no offset *)
Definition linear_design (P : lpath) : Prop := forall v, length v = lp_size P -> t_aff (lp_X P) v = t_lin (lp_X P) v.
(** the calls made by a warm-started path: one per value, in order; the starting point is the last solution, tol is the one given, start_step the last
    final step, and every other argument is the caller's *)
Definition warm_calls (M : warm_optimizer) (P : lpath) (pen : R -> vec -> res ext) (inner_tol step0 : R) (ls : list R) (x0 : vec) (args : dict) (bs : list vec) (steps : list R) : Prop :=
  length bs = length ls /\ length steps = length ls /\
  forall i, (i < length ls)%nat -> exists d : dict, d KTol = Some inner_tol /\ d KStep = Some (nth i (step0 :: steps) 0) /\ (forall n, d (KOther n) = args (KOther n)) /\
    M d (lp_size P) (objective (total_loss P (nth i ls 0)) (pen (nth i ls 0))) (nth i (x0 :: bs) []) = (nth i bs [], nth i steps 0).
(** the share of the first loss that is explained at v *)
Definition explained (f : vec -> R) (first v : vec) : R := 1 - f v / f first.

(** What the parts of a problem stand for. *)
From Coq Require Import Reals List Arith.
From Verif Require Import M_affine M_loss SpecLoss M_smooth SpecSmooth Vec Spec SpecConvex M_quad P_quad SpecAtom M_fista SpecFista M_problem.
Import ListNotations.
Local Open Scope R_scope.

(** H + q *)
Definition plus_quad (n : nat) (H : vec -> ext) (q : iq) (x : vec) : ext := ext_add (H x) (Fin (q_denot n q x)).
(** The object A stands for the convex function H on R^n: its methods return the values of H where H is finite, and minimizers of
    H + q for every q of positive curvature with at least one array in it. *)
Record exact_obj (n : nat) (H : vec -> ext) (A : nobj) : Prop := {
  eo_convex : convex_ext n H;
  eo_value : forall x r check, length x = n -> H x = Fin r -> o_value A x check = Ok (Fin r);
  eo_prox : forall q, q_shape n q -> 0 < coef q -> has_vec q -> exists v, o_prox A q = Ok v /\ is_argmin n (plus_quad n H q) v }.
(** A quadratic term that keeps a problem convex; a scalar center other than 0 is misread by identity_quadratic (C02). *)
Definition good_quad (n : nat) (q : iq) : Prop := q_shape n q /\ center_ok n q /\ 0 <= coef q.
(** A smooth object on R^n, convex, evaluated by exact formulas at every point. *)
Definition good_smooth (n : nat) (a : satom) : Prop :=
  wf a n /\ convex_parts a /\ good_quad n (s_quadratic a) /\ forall x, length x = n -> everywhere exact_case a x /\ everywhere regular_case a x.
(** The two parts of the objective of simple_problem: smooth value, and penalty + the quadratics of the loss and of the problem *)
Definition simple_fun (n : nat) (a : satom) (H : vec -> ext) (q : iq) : vec -> ext := plus_quad n (plus_quad n H (s_quadratic a)) q.
(** Positions in a vector of length n, without repetition; no position in two groups *)
Definition legal_groups (n : nat) (groups : list (list nat)) : Prop := NoDup (concat groups) /\ forall g i, In g groups -> In i g -> (i < n)%nat.
(** x[group] *)
Definition part_of (x : vec) (g : list nat) : vec := map (fun i => nth i x 0) g.
(** sum_k H_k(x[g_k]) *)
Fixpoint separable_fun (Hs : list (vec -> ext)) (groups : list (list nat)) (x : vec) : ext :=
  match Hs, groups with H :: Hs', g :: groups' => ext_add (H (part_of x g)) (separable_fun Hs' groups' x) | _, _ => Fin 0 end.
Definition share_index (g g' : list nat) : Prop := exists i, In i g /\ In i g'.
(** The sum of all objectives in a smooth object, the quadratic of every part included *)
Fixpoint full_objective (a : satom) (x : vec) : R :=
  match a with
  | SAff a T q => full_objective a (t_aff T x) + q_denot (length x) q x
  | SSum l ws q => dot ws (map (fun a => full_objective a x) l) + q_denot (length x) q x
  | _ => meaning a x + q_denot (length x) (s_quadratic a) x
  end.
(** The parts of a (not a itself) have no quadratic term. *)
Definition silent (q : iq) : Prop := forall x, q_denot (length x) q x = 0.
Fixpoint quiet_parts (a : satom) : Prop :=
  match a with
  | SAff a T _ => silent (s_quadratic a) /\ quiet_parts a
  | SSum l _ _ => fold_right (fun a P => (silent (s_quadratic a) /\ quiet_parts a) /\ P) True l
  | _ => True
  end.
(** Every part of a separable object stands for its function. *)
Definition parts_exact (parts : list (nobj * list nat)) (Hs : list (vec -> ext)) : Prop := Forall2 (fun p H => exact_obj (length (snd p)) H (fst p)) parts Hs.
(** 2f + h *)
Definition twice (f : vec -> R) (h : vec -> ext) (x : vec) : ext := ext_add (Fin (2 * f x)) (h x).
(** q as a function *)
Definition own_quad (n : nat) (q : iq) (x : vec) : ext := Fin (q_denot n q x).

(** What a container and its dual problem should be. *)
From Coq Require Import Reals List Arith.
From Verif Require Import M_affine SpecAffine M_loss SpecLoss M_smooth SpecSmooth Vec Spec SpecConvex M_quad P_quad SpecAtom M_fista SpecFista M_problem SpecProblem M_sconj SpecSconj M_container.
Import ListNotations.
Local Open Scope R_scope.

(** f(w) + h(Dw) *)
Definition primal_fun (K : vec -> ext) (D : transform) (H : vec -> ext) (w : vec) : ext := ext_add (K w) (H (t_lin D w)).
(** D is a linear map from R^n with its adjoint. *)
Definition linear_map (n : nat) (D : transform) : Prop := true_adjoint D /\ t_in D = n /\ (forall x, length x = n -> t_aff D x = t_lin D x) /\ (1 <= t_out D)%nat.
(** The nonsmooth part [p] is x -> H(D x), where D is its transform; its dual object stands for a function G whose conjugate is H. A part that
    announces itself as an identity or a selector is one, and has a primal object standing for H. *)
Record exact_part (n : nat) (G H : vec -> ext) (p : npart) : Prop := {
  xp_map : linear_map n (np_map p);
  xp_dual : exact_obj (t_out (np_map p)) G (np_dual p);
  xp_conj : forall y, length y = t_out (np_map p) -> is_fenchel (t_out (np_map p)) G y (H y);
  xp_value : forall x r check, length x = n -> H (t_lin (np_map p) x) = Fin r -> np_value p x check = Ok (Fin r);
  xp_kind : match np_kind p with
            | TIdentity => t_out (np_map p) = n /\ forall x, length x = n -> t_lin (np_map p) x = x
            | TSelector idx => t_out (np_map p) = length idx /\ legal_groups n [idx] /\ forall x, length x = n -> t_lin (np_map p) x = part_of x idx
            | TGeneral => True
            end;
  xp_primal : np_kind p <> TGeneral -> exists A, np_primal p = Ok A /\ exact_obj (t_out (np_map p)) H A }.
(** sum_i F_i(y_i), where y is cut into pieces of the output sizes *)
Fixpoint stack_fun (Fs : list (vec -> ext)) (ts : list transform) (y : vec) : ext :=
  match Fs, ts with F :: Fs', t :: ts' => ext_add (F (firstn (t_out t) y)) (stack_fun Fs' ts' (skipn (t_out t) y)) | _, _ => Fin 0 end.
(** sum_i H_i(D_i x) *)
Fixpoint parts_fun (Hs : list (vec -> ext)) (parts : list npart) (x : vec) : ext :=
  match Hs, parts with H :: Hs', p :: parts' => ext_add (H (t_lin (np_map p) x)) (parts_fun Hs' parts' x) | _, _ => Fin 0 end.
Inductive exact_parts (n : nat) : list (vec -> ext) -> list (vec -> ext) -> list npart -> Prop :=
| xps_nil : exact_parts n [] [] []
| xps_cons : forall G H p Gs Hs ps, exact_part n G H p -> exact_parts n Gs Hs ps -> exact_parts n (G :: Gs) (H :: Hs) (p :: ps).
(** sum of the smooth parts, and of their quadratics *)
Definition smooth_sum (l : list satom) (x : vec) : R := fold_right (fun a v => s_func a x + v) 0 l.
Definition quads_sum (n : nat) (l : list satom) (x : vec) : R := fold_right (fun a v => q_denot n (s_quadratic a) x + v) 0 l.
(** The nonsmooth half of the objective of a container: penalties, the quadratics of the losses and its own quadratic *)
Definition container_fun (n : nat) (l : list satom) (Hs : list (vec -> ext)) (parts : list npart) (q : iq) (x : vec) : ext :=
  ext_add (parts_fun Hs parts x) (Fin (quads_sum n l x + q_denot n q x)).
(** A quadratic that is zero as a function on R^n *)
Definition no_quadratic (n : nat) (q : iq) : Prop := forall x, length x = n -> q_denot n q x = 0.
(** K is a container of these losses and penalties whose attribute quadratic has been set to q0. *)
Definition container_of (n : nat) (smooths : list satom) (parts : list npart) (q0 : iq) (K : container) : Prop :=
  exists K0, new_container n smooths parts = Ok K0 /\ K = ct_with_quadratic K0 q0.
(** The losses have quadratics whose sum the identity_quadratic class can represent (see C02). *)
Definition sound_quad (n : nat) (q : iq) : Prop := q_shape n q /\ center_ok n q.
Definition sound_parts (n : nat) (smooths : list satom) (Gs Hs : list (vec -> ext)) (parts : list npart) (q0 : iq) : Prop :=
  (1 <= n)%nat /\ smooths <> [] /\ parts <> [] /\ exact_parts n Gs Hs parts /\ Forall (fun a => sound_quad n (s_quadratic a)) smooths /\ sound_quad n q0.
(** The curvature of all quadratics together *)
Definition total_coef (smooths : list satom) (q0 q : iq) : R := coef q + coef q0 + fold_right (fun a v => coef (s_quadratic a) + v) 0 smooths.
(** The quadratic term of the proximal problem: argument, attribute, and the quadratics of the losses *)
Definition total_fun (n : nat) (smooths : list satom) (q0 q : iq) (x : vec) : ext := Fin (q_denot n q x + q_denot n q0 x + quads_sum n smooths x).
(** sum_i G_i(u_i): the nonsmooth half of the dual *)
Definition dual_fun (Gs : list (vec -> ext)) (parts : list npart) (u : vec) : ext := stack_fun Gs (map np_map parts) u.

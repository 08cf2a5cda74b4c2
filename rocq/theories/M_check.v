(** Model of the two check_subgradient methods: regreg/atoms/seminorms.py:569-617 (seminorms, and the subclasses
    slope and group_lasso which inherit it) and regreg/atoms/cones.py:263-302. *)
From Coq Require Import Reals List Bool.
From Verif Require Import Vec Spec M_quad M_prox M_semi M_shift SpecCone M_cones M_mode M_slope M_group.
Import ListNotations.
Local Open Scope R_scope.

(** identity_quadratic(0,0,0,0) and identity_quadratic(1, prox_center, 0, 0), regreg/atoms/seminorms.py:603-605 *)
Definition no_quadratic : iq := mk_iq 0 (FScal 0) (FScal 0) 0.
Definition centered (z : vec) : iq := mk_iq 1 (FVec z) (FScal 0) 0.

(** not value <= limit *)
Definition above (value : ext) (limit : R) : bool :=
  match value with Fin r => if Rle_dec r limit then false else true | PInf => true end.
(** ((prox_center - U) * U).sum() / parameter; for a parameter 0 the numpy division gives nan or an infinity with a warning *)
Definition np_quotient (a b : R) : res R := if Req_EM_T b 0 then Err NaNResult else Ok (a / b).

(** regreg/atoms/seminorms.py:608-617: [sn] is atom.seminorm(., lagrange=1), [dsn] is dual.seminorm(., lagrange=1), both with
    check_feasibility=False. *)
Definition check_values (sn dsn : vec -> res ext) (bound lagrange : option R) (z U : vec) : res (R * ext) :=
  match bound with
  | Some b =>
      rbind (sn U) (fun h =>
      if above h ((1 + / 10 ^ 5) * b) then Err ValueError
      else rbind (np_quotient (vsum (vmul (vsub z U) U)) b) (fun v1 => rmap (fun v2 => (v1, v2)) (dsn (vsub z U))))
  | None =>
      rbind (dsn (vsub z U)) (fun d =>
      rbind (need lagrange None) (fun lam =>
      if above d ((1 + / 10 ^ 5) * lam) then Err ValueError
      else rbind (np_quotient (vsum (vmul (vsub z U) U)) lam) (fun v1 => rmap (fun v2 => (v1, v2)) (sn U))))
  end.

(** regreg/atoms/seminorms.py:602-617 on the classes of seminorms.py. [prox] is the method the object calls proximal. *)
Definition stripped (a : atom) : res atom :=
  rmap (fun a1 => set_offset (mk_atom (klass a1) (shape a1) (a_lagrange a1) (a_bound a1) (a_offset a1) no_quadratic) None) (copy_atom a).
Definition check_with (prox : atom -> addend -> res vec) (a : atom) (z : vec) : res (R * ext) :=
  rbind (stripped a) (fun a2 =>
  rbind (prox a2 (AQuad (centered z))) (fun U =>
  rbind (get_conjugate a2) (fun dual =>
  check_values (fun x => seminorm_value (klass a2) x 1 false) (fun x => seminorm_value (klass dual) x 1 false)
    (a_bound a2) (a_lagrange a2) z U))).
Definition check_subgradient (a : atom) (z : vec) : res (R * ext) := check_with proximal a z.

(** The same method on slope objects: copy (regreg/atoms/slope.py:90-96), then the inherited body. *)
Definition stripped_moded (n : nat) (m : moded) : res moded :=
  rmap (fun m1 => mk_moded (m_lagrange m1) (m_bound m1) (mk_base (b_shape (m_base m1)) None no_quadratic))
    (new_moded n (m_lagrange m) (m_bound m) (b_offset (m_base m)) (Some (b_quadratic (m_base m)))).
Definition slope_stripped (a : slope_atom) : res slope_atom :=
  rbind (slope_check (s_weights a)) (fun _ => rmap (mk_slope (s_class a) (s_weights a)) (stripped_moded (length (s_weights a)) (s_moded a))).
Definition slope_check_subgradient (iso : vec -> option vec) (argsort : vec -> list nat) (a : slope_atom) (z : vec) : res (R * ext) :=
  rbind (slope_stripped a) (fun a2 =>
  rbind (slope_proximal iso argsort a2 (AQuad (centered z))) (fun U =>
  rbind (slope_conjugate a2) (fun dual =>
  check_values (fun x => rmap Fin (slope_seminorm (s_class a2) (s_weights a2) x 1)) (fun x => rmap Fin (slope_seminorm (s_class dual) (s_weights dual) x 1))
    (m_bound (s_moded a2)) (m_lagrange (s_moded a2)) z U))).

(** ... and on group_lasso and group_lasso_dual objects: copy (regreg/atoms/group_lasso.py:99-106), then the inherited body. *)
Definition gatom_stripped (a : gatom) : res gatom :=
  rmap (fun a1 => mk_gatom (g_dual a1) (g_groups a1) (g_weights a1)
                    (mk_moded (m_lagrange (g_moded a1)) (m_bound (g_moded a1)) (mk_base (b_shape (m_base (g_moded a1))) None no_quadratic))) (gatom_copy a).
Definition gatom_check_subgradient (a : gatom) (z : vec) : res (R * ext) :=
  rbind (gatom_stripped a) (fun a2 =>
  rbind (gatom_proximal a2 (AQuad (centered z))) (fun U =>
  match gatom_conjugate a2 with
  | Some r => rbind r (fun dual =>
      check_values (fun x => g_seminorm (g_dual a2) (g_groups a2) (g_weights a2) x 1) (fun x => g_seminorm (g_dual dual) (g_groups dual) (g_weights dual) x 1)
        (m_bound (g_moded a2)) (m_lagrange (g_moded a2)) z U)
  | None => Err NotImplementedError
  end)).

(** regreg/atoms/cones.py:297-302 *)
Definition cone_check_with (prox : cone -> addend -> res vec) (c : cone) (z : vec) : res (R * R) :=
  let c1 := cone_copy c in
  let c2 := mk_cone (c_class c1) (mk_base (b_shape (c_base c1)) None no_quadratic) in
  rmap (fun U => (vsum (vmul (vsub z U) U), 0)) (prox c2 (AQuad (centered z))).
Definition cone_check_subgradient (c : cone) (z : vec) : res (R * R) := cone_check_with cone_proximal c z.

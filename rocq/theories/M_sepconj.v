(** Model of the properties conjugate and selectors and of the method smoothed of separable, and of separable_problem
    (regreg/problems/separable.py:149-208, regreg/atoms/__init__.py:72-88). The methods nonsmooth_objective and proximal are those of
    M_problem; none of them reads the attribute quadratic. *)
From Coq Require Import Reals List Arith Bool.
From Verif Require Import M_affine M_loss M_smooth Vec Spec M_quad M_semi M_shift SpecCone M_cones M_fista M_problem M_sconj.
Import ListNotations.
Local Open Scope R_scope.

(** A member of a separable object: the atom, what its property conjugate gives, its group *)
Record member := mk_member { m_obj : nobj; m_conj : res nobj; m_group : list nat }.
(** separable with the attribute quadratic, which starts as sq(None, None, None, None) = the zero quadratic
    (regreg/problems/composite.py:126-133) and can be assigned by the user *)
Record sepatom := mk_sepatom { sa_shape : nat; sa_members : list member; sa_quadratic : iq }.
Definition sa_sep (S : sepatom) : separable := mk_separable (sa_shape S) (map (fun m => (m_obj m, m_group m)) (sa_members S)).
(** separable.__init__, regreg/problems/separable.py:59-80 *)
Definition new_sepatom (n : nat) (ms : list member) : res sepatom :=
  rmap (fun _ => mk_sepatom n ms zero_quad) (new_separable n (map m_obj ms) (map m_group ms) false).
Fixpoint all_res {A : Type} (l : list (res A)) : res (list A) :=
  match l with [] => Ok [] | r :: l' => rbind r (fun a => rmap (cons a) (all_res l')) end.
(** What conjugate gives: another separable object or a smooth_conjugate *)
Inductive sep_conj := SCSep (D : separable) | SCSmooth (C : sconj).
(** separable.conjugate, regreg/problems/separable.py:149-161. The conjugates of the members are taken in order. *)
Definition sep_conjugate (S : sepatom) : res sep_conj :=
  if Req_EM_T (coef (sa_quadratic S)) 0 then
    rbind (all_res (map m_conj (sa_members S))) (fun cs => rmap SCSep (new_separable (sa_shape S) cs (map m_group (sa_members S)) false))
  else rmap SCSmooth (new_sconj (of_separable (sa_sep S)) (sa_quadratic S) None).
(** atom.smoothed, regreg/atoms/__init__.py:72-88: the conjugate's quadratic, the zero one, is replaced by the sum, whose coef is that of [sq],
    so the conjugate of the conjugate is its smooth_conjugate. A smooth_conjugate has no such conjugate (TypeError, as in M_sconj). *)
Definition sep_smoothed (S : sepatom) (sq : iq) : res sconj :=
  rbind (sep_conjugate S) (fun c =>
  if Req_EM_T (coef sq) 0 then Err ValueError else
  match c with
  | SCSep D => rbind (q_add sq (AQuad zero_quad)) (fun t => new_sconj (of_separable D) t None)
  | SCSmooth _ => Err TypeError
  end).
(** separable.selectors, regreg/problems/separable.py:169-172: the comprehension reads the undefined name reshape for each member *)
Definition sep_selectors (S : sepatom) : res (list transform) := match sa_members S with [] => Ok [] | _ => Err NameError end.
(** separable_problem.__init__, regreg/problems/separable.py:176-189 *)
Definition sep_problem (a : satom) (n : nat) (atoms : list nobj) (groups : list (list nat)) (test_for_overlap : bool) : res sproblem :=
  rmap (fun S => new_simple a (of_separable S) (zeros n)) (new_separable n atoms groups test_for_overlap).
(** separable_problem.singleton, regreg/problems/separable.py:191-197: the one group is slice(None), all positions *)
Definition sep_singleton (A : nobj) (n : nat) (a : satom) : res sproblem := sep_problem a n [A] [seq 0 n] false.
(** separable_problem.fromatom, regreg/problems/separable.py:199-205 *)
Definition sep_fromatom (S : sepatom) (a : satom) : res sproblem := sep_problem a (sa_shape S) (map m_obj (sa_members S)) (map m_group (sa_members S)) false.

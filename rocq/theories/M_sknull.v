(** Model of fit of the estimators in Lagrange form with unpenalized=True: regreg/sklearn/base.py:318-363. *)
From Coq Require Import Reals List.
From Verif Require Import M_affine M_loss M_buffer Vec Spec M_quad M_semi M_shift M_mode M_sklearn.
Import ListNotations.
Local Open Scope R_scope.

(** np.inf * v for v >= 0; [None] is nan *)
Definition inf_times (v : ext) : option ext := match v with PInf => Some PInf | Fin r => if Rlt_dec 0 r then Some PInf else None end.
(** atom.lagrange = np.inf and simple_problem(loglike, atom).solve() from the coefficients of a new atom, which are zeros:
    regreg/sklearn/base.py:356-362. [norm] is seminorm with lagrange 1; the value of the atom is lagrange times it. FISTA.fit raises on a nan
    (regreg/algorithms.py:107-113); [rest] is the run from there. *)
Definition null_solution (norm : vec -> bool -> res ext) (rest : heap -> glm -> moded -> res vec) (h : heap) (g : glm) (p : nat) (a : moded) : heap * res vec :=
  match m_bound a with
  | Some _ => (h, Err AttributeError)
  | None =>
      let '(h1, v) := glm_eval h g (zeros p) EvFunc in
      (h1, rbind v (fun _ => rbind (norm (vsub (zeros p) (match b_offset (m_base a) with Some o => o | None => zeros p end)) true) (fun s =>
           match inf_times s with None => Err ValueError | Some _ => rest h1 g a end)))
  end.
(** fit, regreg/sklearn/base.py:318-354, with unpenalized True *)
Definition fit_unpenalized (norm : vec -> bool -> res ext) (rest solve : heap -> glm -> moded -> res vec) (mk : vec -> res moded) (alpha : R)
    (h : heap) (e : est) (X : list vec) (p : nat) (y : yarg) : heap * est * res unit :=
  let '(h1, g) := loglike_factory h e X p y in
  match g with
  | Err x => (h1, e, Err x)
  | Ok g =>
      let '(h2, v) := glm_eval h1 g (zeros p) EvGrad in
      let '(h3, r) := match rbind v (fun v => match v with VGrad s => construct_atom mk alpha s | _ => Err TypeError end) with
        | Err x => (h2, Err x)
        | Ok a =>
            let '(h3, s) := null_solution norm rest h2 g p a in
            match s with
            | Err x => (h3, Err x)
            | Ok x0 => let '(h4, v0) := glm_eval h3 g x0 EvGrad in
                       (h4, rbind v0 (fun v0 => match v0 with VGrad s0 => rbind (construct_atom mk alpha s0) (solve h4 g) | _ => Err TypeError end))
            end
        end in
      match r with
      | Err x => (h3, fitted e g None, Err x)
      | Ok b => (h3, fitted e g (Some b), Ok tt)
      end
  end.

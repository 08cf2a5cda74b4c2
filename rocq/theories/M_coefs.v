(** Model of who holds which array of coefficients: the attribute coefs of penalties, losses and problems, and what the constructors and
    the methods solve do with it. Arrays live in a heap; x.coefs[:] = v writes into the array x.coefs is bound to, x.coefs = a binds it.
    A proximal method returns a new array, as every one of them does by its last division or product. *)
From Coq Require Import Reals List Arith Bool.
From Verif Require Import Vec Spec M_buffer M_fista.
Import ListNotations.
Local Open Scope R_scope.

(** The attributes that hold coefficients, by object: atom.coefs, loss.coefs, problem.coefs of a simple_problem, loss_coefs of an
    admm_problem, coefs of a quasi_newton and quadratic_problem.coefs of the same object. *)
Inductive slot := SAtom (n : nat) | SLoss (n : nat) | SProb (n : nat) | SAdmm (n : nat) | SQn (n : nat) | SInner (n : nat).
Definition slot_eq_dec : forall a b : slot, {a = b} + {a <> b}.
Proof. decide equality; apply Nat.eq_dec. Defined.
(** [w_patom], [w_qatom]: the attribute proximal_atom of a simple_problem and of a quasi_newton *)
Record world := mk_world { w_heap : heap; w_env : slot -> option ref; w_patom : nat -> nat; w_qatom : nat -> nat }.
Definition empty_world : world := mk_world [] (fun _ => None) (fun _ => O) (fun _ => O).
Definition bind (w : world) (s : slot) (r : option ref) : world :=
  mk_world (w_heap w) (fun t => if slot_eq_dec t s then r else w_env w t) (w_patom w) (w_qatom w).
Definition bind_new (w : world) (s : slot) (v : vec) : world :=
  mk_world (w_heap w ++ [v]) (fun t => if slot_eq_dec t s then Some (length (w_heap w)) else w_env w t) (w_patom w) (w_qatom w).
Definition content (w : world) (s : slot) : vec := match w_env w s with Some r => read (w_heap w) r | None => [] end.
(** x.coefs[:] = v *)
Definition store (w : world) (s : slot) (v : vec) : world :=
  match w_env w s with Some r => mk_world (write (w_heap w) r v) (w_env w) (w_patom w) (w_qatom w) | None => w end.

(** What a run of FISTA does, as a function of the coefficients it starts from: the results of proximal_step in their order, and which
    of them become the coefficients of the composite (regreg/algorithms.py:204). *)
Definition proposals := vec -> list (vec * bool).
(** proximal of a simple_problem goes through solve of the atom (regreg/problems/simple.py:38-40), which binds the coefs of the atom to
    the result (regreg/problems/composite.py:174-181) *)
Definition propose_atom (a : nat) (s : slot) (w : world) (x : vec * bool) : world :=
  let w1 := bind_new w (SAtom a) (fst x) in
  if snd x then bind w1 s (w_env w1 (SAtom a)) else w1.
Definition run_simple (a : nat) (s : slot) (xs : list (vec * bool)) (w : world) : world := fold_left (propose_atom a s) xs w.
(** proximal of a smooth, regreg/problems/composite.py:209-211 *)
Definition propose_smooth (s : slot) (w : world) (x : vec * bool) : world :=
  if snd x then bind_new w s (fst x) else mk_world (w_heap w ++ [fst x]) (w_env w) (w_patom w) (w_qatom w).

(** One step of quasi_newton.solve: the run of the inner problem, and, unless converged, the new coefficients self.coefs + delta as a
    function of the coefficients and of the inner solution (regreg/problems/newton.py:285-306). *)
Definition qn_step := (proposals * option (vec -> vec -> vec))%type.
Definition qn_inner (k : nat) (w : world) (f : proposals) : world :=
  let w1 := store w (SInner k) (content w (SQn k)) in
  run_simple (w_qatom w1 k) (SInner k) (f (content w1 (SInner k))) w1.
Fixpoint qn_loop (k : nat) (w : world) (its : list qn_step) : world :=
  match its with
  | [] => w
  | (f, g) :: rest =>
      let w2 := qn_inner k w f in
      match g with
      | None => w2
      | Some new => qn_loop k (bind_new w2 (SQn k) (new (content w2 (SQn k)) (content w2 (SInner k)))) rest
      end
  end.

Inductive op :=
| NewAtom (a : nat) (v : vec)                     (* v: zeros, or the argument initial, copied; regreg/problems/composite.py:36-39 *)
| NewLoss (l : nat) (n : nat)                     (* regreg/smooth/__init__.py:43-52: initial is overwritten by zeros *)
| NewSum (l l0 : nat)                             (* a sum of losses, the first of which is l0; regreg/smooth/__init__.py:325 *)
| NewProblem (p l a : nat)                        (* regreg/problems/simple.py:19-22 *)
| Assign (p : nat) (v : vec)                      (* problem.coefs[:] = v *)
| Solve (p : nat) (f : proposals)                 (* regreg/problems/simple.py:77-94; line 84 writes an array onto itself *)
| AtomSolve (a : nat) (v : vec)                   (* v: the value of proximal; regreg/problems/composite.py:174-181 *)
| LossSolve (l : nat) (f : proposals)             (* regreg/problems/composite.py:213-224 *)
| NewAdmm (k l : nat)                             (* regreg/problems/admm.py:46 *)
| AdmmUpdate (k : nat) (v : vec)                  (* regreg/problems/admm.py:72: v is a copy of the inner solution *)
| NewQn (k l a : nat)                             (* regreg/problems/newton.py:62-79 *)
| QnSolve (k : nat) (its : list qn_step).         (* regreg/problems/newton.py:255-312, at least one step *)

(** The world afterwards, and the attribute whose array the call returns. A call on an object that does not exist does nothing. *)
Definition step (w : world) (o : op) : world :=
  match o with
  | NewAtom a v => bind_new w (SAtom a) v
  | NewLoss l n => bind_new w (SLoss l) (zeros n)
  | NewSum l l0 => match w_env w (SLoss l0) with Some r => bind w (SLoss l) (Some r) | None => w end
  | NewProblem p l a =>
      match w_env w (SAtom a) with
      | Some r => let w1 := bind (bind w (SLoss l) (Some r)) (SProb p) (Some r) in
                  mk_world (w_heap w1) (w_env w1) (fun q => if Nat.eqb q p then a else w_patom w1 q) (w_qatom w1)
      | None => w
      end
  | Assign p v => store w (SProb p) v
  | Solve p f => match w_env w (SProb p) with Some _ => run_simple (w_patom w p) (SProb p) (f (content w (SProb p))) w | None => w end
  | AtomSolve a v => bind_new w (SAtom a) v
  | LossSolve l f => match w_env w (SLoss l) with Some _ => fold_left (propose_smooth (SLoss l)) (f (content w (SLoss l))) w | None => w end
  | NewAdmm k l => match w_env w (SLoss l) with Some r => bind w (SAdmm k) (Some r) | None => w end
  | AdmmUpdate k v => store w (SAdmm k) v
  | NewQn k l a =>
      match w_env w (SAtom a) with
      | Some r => let w1 := bind (bind (bind w (SLoss l) (Some r)) (SQn k) (Some r)) (SInner k) (Some r) in
                  mk_world (w_heap w1) (w_env w1) (w_patom w1) (fun q => if Nat.eqb q k then a else w_qatom w1 q)
      | None => w
      end
  | QnSolve k its =>
      match w_env w (SQn k), its with
      | Some _, _ :: _ => let w' := qn_loop k w its in store w' (SQn k) (content w' (SInner k))
      | _, _ => w
      end
  end.
Definition run (w : world) (l : list op) : world := fold_left step l w.
(** The array a call of solve returns: problem.coefs, atom.coefs, loss.coefs, coefs of the quasi_newton *)
Definition returned (w : world) (o : op) : option ref :=
  match o with
  | Solve p _ => w_env w (SProb p) | AtomSolve a _ => w_env w (SAtom a) | LossSolve l _ => w_env w (SLoss l) | QnSolve k _ => w_env w (SQn k)
  | _ => None
  end.

(** ** The proposals of the FISTA of M_fista.v *)
(** the results of proximal_step in one call of backtrack, regreg/algorithms.py:228-270 *)
Fixpoint loop_tries (fuel : nat) (C : composite) (working working_grad : vec) (step : R) : list vec :=
  match fuel with
  | O => []
  | S fuel' =>
      if Req_EM_T step 0 then [] else
      let proposed := c_prox C (1 / step) working working_grad in
      if step_ok C working working_grad proposed step then [proposed]
      else proposed :: (if Rlt_dec 0 (step / alpha) then loop_tries fuel' C working working_grad (step / alpha) else [])
  end.
Definition pass_tries (fuel : nat) (P : params) (C : composite) (s : fstate) : list vec :=
  let working := if restart_now P (s_it s) then s_coefs s else s_working s in
  if p_backtrack P then
    loop_tries fuel C working (c_grad C working) (if orb (Nat.eqb ((s_it s + 1) mod 100) 0) (s_attempt s) then s_step s * alpha else s_step s)
  else [c_prox C (c_lipschitz C) working (c_grad C working)].
(** Only the last try of a pass can become the coefficients: not when the pass stops, and not when the objective got worse,
    regreg/algorithms.py:163-207 *)
Definition keeps (P : params) (C : composite) (s : fstate) (proposed : vec) : bool :=
  let obj := ext_add (c_smooth C proposed) (c_nonsmooth C proposed false) in
  negb (andb (Nat.leb (min_of P) (s_it s)) (if p_coef_stop P then small_move (tol_of P) (s_coefs s) proposed else small_change (tol_of P) (s_obj s) obj))
  && negb (andb (Nat.ltb 1 (s_it s)) (andb (worse (s_obj s) obj) (p_monotonicity P))).
Definition pass_log (fuel : nat) (P : params) (C : composite) (s : fstate) : list (vec * bool) :=
  let t := pass_tries fuel P C s in
  map (fun v => (v, false)) (removelast t) ++ match t with [] => [] | _ => [(last t [], keeps P C s (last t []))] end.
Fixpoint fit_log (loops fuel : nat) (P : params) (C : composite) (s : fstate) : list (vec * bool) :=
  if Nat.ltb (s_it s) (max_of P) then
    match loops with
    | O => []
    | S loops' => pass_log fuel P C s ++ match iterate fuel P C s with Ok (Continue s') => fit_log loops' fuel P C s' | _ => [] end
    end
  else [].

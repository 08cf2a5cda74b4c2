(** Model of regreg/paths/mixed_lasso.py. Simplifications: the loss is given by its value and gradient at coefficients for all the
    columns, and the loss of a restricted problem is the loss at coefficients that are zero elsewhere (loss_factory of a slice of the
    columns); no column is constant, so [nonzero] is the identity; elastic_net is collapsed with a number as linear term; the solver of
    the subproblems is a parameter, see [msolver]; step sizes, tolerances passed to the solver, verbose output and gc are left out; np.bool is bool;
    the Python set of group labels is enumerated in the order of [mixed_groups] (C83_meaning, C84_meaning: the answers do not depend on it).
    Assignments such as solution[mask][:] = ... write to a copy and do nothing. *)
From Coq Require Import Reals List Arith Bool ZArith.
From Verif Require Import M_loss Vec Spec M_quad M_prox M_semi M_shift M_mixed M_group M_mixed_atom SpecGroup M_mkkt M_path.
Import ListNotations.
Local Open Scope R_scope.

(** x[mask], and the adjoint of selector(mask), which puts zeros elsewhere *)
Fixpoint keep {A} (mask : list bool) (l : list A) : list A :=
  match mask, l with b :: m, a :: l' => if b then a :: keep m l' else keep m l' | _, _ => [] end.
Fixpoint put {A} (zero : A) (mask : list bool) (v : list A) : list A :=
  match mask with
  | [] => []
  | false :: m => zero :: put zero m v
  | true :: m => match v with [] => zero :: put zero m [] | a :: v' => a :: put zero m v' end
  end.
Definition embed_mask (mask : list bool) (v : vec) : vec := put 0 mask v.
Definition bor (a b : list bool) : list bool := map (fun p => fst p || snd p) (combine a b).
Definition any (m : list bool) : bool := existsb (fun b => b) m.

(** mixed_lasso_path.__init__, regreg/paths/mixed_lasso.py:30-105: loss, penalty_structure, group_weights, scalings (col_stds, or ones) *)
Record mpath := mk_mpath { mp_func : vec -> R; mp_grad : vec -> vec; mp_labels : list Z; mp_weights : Z -> option R; mp_scal : vec }.
Definition mp_size (P : mpath) : nat := length (mp_labels P).
(** mixed_lasso(structure, lagrange, weights=group_weights), regreg/paths/mixed_lasso.py:149, 245 *)
Definition mp_atom (labels : list Z) (given : Z -> option R) (lagrange : R) : mlatom :=
  mk_mlatom false labels (mixed_groups labels) given lagrange (mk_base (length labels) None (mk_iq 0 FNone FNone 0)).
(** initial_active, regreg/paths/mixed_lasso.py:103-104 *)
Definition initial_active (P : mpath) : list bool := map (fun l => Z.eqb l (-1) || Z.eqb l (-4)) (mp_labels P).
(** solve of restricted_problem, regreg/paths/mixed_lasso.py:235-260: call number, warm start, candidate set, lagrange value; the call number
    stands for everything else the answer may depend on *)
Definition msolver := nat -> vec -> list bool -> R -> vec.

(** lagrange_max from a null solution, regreg/paths/mixed_lasso.py:148-151: conj.seminorm; None is -inf *)
Definition max_at (P : mpath) (s : vec) : option R :=
  match mlatom_conjugate (mixed_groups (mp_labels P)) (mp_atom (mp_labels P) (mp_weights P) 1) with
  | Some c => mlatom_dual_seminorm c (mp_grad P s)
  | None => None
  end.
(** The attributes _null_soln and _lagrange_max; None: not set. [solve0 m]: the solution of the null problem at the lagrange value m *)
Record lazy := mk_lazy { lz_null : option vec; lz_max : option (option R) }.
Definition fresh : lazy := mk_lazy None None.
(** null_solution, regreg/paths/mixed_lasso.py:136-142. _null_soln is zero while lagrange_max is read at 140; if that is not set yet, the
    nested call (145-153) computes and stores it from the zero vector. *)
Definition get_null (P : mpath) (solve0 : option R -> vec) (z : lazy) : vec * lazy :=
  match lz_null z with
  | Some v => (v, z)
  | None => let m := match lz_max z with Some m => m | None => max_at P (zeros (mp_size P)) end in
            let v := embed_mask (initial_active P) (solve0 m) in (v, mk_lazy (Some v) (Some m))
  end.
(** lagrange_max, regreg/paths/mixed_lasso.py:145-153 *)
Definition get_max (P : mpath) (solve0 : option R -> vec) (z : lazy) : option R * lazy :=
  match lz_max z with
  | Some m => (m, z)
  | None => let '(v, z1) := get_null P solve0 z in let m := max_at P v in (m, mk_lazy (lz_null z1) (Some m))
  end.
(** get_lagrange_sequence, regreg/paths/mixed_lasso.py:155-159 *)
Definition mp_sequence (lagrange_max proportion : R) (nstep : nat) : list R :=
  rev (map (fun t => lagrange_max * exp t) (linspace (ln proportion) 0 nstep)).

(** elastic_net, regreg/paths/mixed_lasso.py:119-123: coefficient and linear term, multiplied by lagrange in place at every access *)
Definition enet_access (lagrange : R) (q : R * R) : R * R := (fst q * lagrange, snd q * lagrange).
(** its gradient, added at 207-210 to the penalized coordinates *)
Definition enet_add (q : R * R) (labels : list Z) (g s : vec) : vec :=
  map (fun p => let '(l, (a, b)) := p in if Z.eqb l (-1) then a else a + (fst q * b + snd q)) (combine labels (combine g s)).
(** grad, regreg/paths/mixed_lasso.py:197-212 *)
Definition mp_gradient (P : mpath) (q : R * R) (s : vec) : vec := enet_add q (mp_labels P) (mp_grad P s) s.
Definition nonzeros (s : vec) : list bool := map nonzero s.
Definition mtol : R := / 100.

Record mstate := mk_mstate { ms_sol : vec; ms_gsol : vec; ms_fail : list bool; ms_ever : list bool; ms_enet : R * R; ms_calls : nat }.
(** One pass of the loop, regreg/paths/mixed_lasso.py:301-344: solved, state *)
Definition mtry (P : mpath) (S : msolver) (lcur lnew : R) (st : mstate) : bool * mstate :=
  let atom := mp_atom (mp_labels P) (mp_weights P) lnew in
  let strong := ml_strong_set atom lcur lnew (ms_gsol st) 1 in
  let set := bor (ms_ever st) (ms_fail st) in
  let sub := S (ms_calls st) (ms_sol st) set lnew in
  let sol := embed_mask set sub in
  let q1 := enet_access lnew (ms_enet st) in
  let ssol := keep strong sol in
  let sgrad := vadd (keep strong (mp_grad P (embed_mask strong ssol))) (map (fun b => fst q1 * b + snd q1) ssol) in
  let sfail := ml_check_KKT (mp_atom (keep strong (mp_labels P)) (mp_weights P) lnew) sgrad ssol lnew mtol in
  if any sfail then
    (false, mk_mstate sol (ms_gsol st) (bor (ms_fail st) (put false strong sfail)) (ms_ever st) q1 (Datatypes.S (ms_calls st)))
  else
    let q2 := enet_access lnew q1 in
    let gsol := mp_gradient P q2 sol in
    let fail := ml_check_KKT atom gsol sol lnew mtol in
    if any fail then (false, mk_mstate sol gsol fail (bor (ms_ever st) fail) q2 (Datatypes.S (ms_calls st)))
    else (true, mk_mstate sol gsol fail (bor (ms_ever st) (nonzeros sol)) q2 (Datatypes.S (ms_calls st))).
Record mpoint := mk_mpoint { mpt_lagrange : R; mpt_sol : vec; mpt_warned : bool; mpt_tries : nat }.
(** The loop while True, regreg/paths/mixed_lasso.py:301-358 *)
Fixpoint mtries (fuel : nat) (P : mpath) (S : msolver) (lcur lnew : R) (num : nat) (st : mstate) : res (mpoint * mstate) :=
  match fuel with
  | O => Err OutOfFuel
  | Datatypes.S fuel' =>
      let '(ok, st1) := mtry P S lcur lnew st in
      if ok then Ok (mk_mpoint lnew (ms_sol st1) false (Datatypes.S num), st1) else
      let num1 := Datatypes.S num in
      if Nat.eqb (num1 mod 5) 0 then
        let q := enet_access lnew (ms_enet st1) in
        let st2 := mk_mstate (ms_sol st1) (mp_gradient P q (ms_sol st1)) (ms_fail st1) (ms_ever st1) q (ms_calls st1) in
        if Nat.leb 10 num1 then Ok (mk_mpoint lnew (ms_sol st2) true num1, st2) else mtries fuel' P S lcur lnew num1 st2
      else mtries fuel' P S lcur lnew num1 st1
  end.
(** The loop over the values, regreg/paths/mixed_lasso.py:294-363 *)
Fixpoint mrun (fuel : nat) (P : mpath) (S : msolver) (lcur : R) (ls : list R) (st : mstate) : res (list mpoint) :=
  match ls with
  | [] => Ok []
  | lnew :: ls' => rbind (mtries fuel P S lcur lnew 0 st) (fun r => rbind (mrun fuel P S lnew ls' (snd r)) (fun pts => Ok (fst r :: pts)))
  end.
Record moutput := mk_moutput { mo_points : list mpoint; mo_beta : list vec; mo_df : list nat; mo_objective : list R }.
(** main, regreg/paths/mixed_lasso.py:262-381; [lagrange0]: the value lagrange has before the loop, lagrange_max. The first column of beta
    is divided by the scalings (284-285), the others are not (360-361); the first df counts initial_active (289), the others are
    ever_active.shape[0] (363). lseq[1] is read at 280. *)
Definition mp_main (fuel : nat) (P : mpath) (S : msolver) (enet : R * R) (null : vec) (lagrange0 : R) (lseq : list R) : res moutput :=
  match lseq with
  | l0 :: (_ :: _) as ls =>
      let q := enet_access lagrange0 enet in
      let st := mk_mstate null (mp_gradient P q null) (repeat false (mp_size P)) (initial_active P) q 0 in
      rbind (mrun fuel P S l0 (tl lseq) st) (fun pts =>
      Ok (mk_moutput pts (vzip Rdiv null (mp_scal P) :: map mpt_sol pts)
            (length (filter (fun b => b) (initial_active P)) :: map (fun _ => mp_size P) pts)
            (mp_func P null :: map (fun pt => mp_func P (mpt_sol pt)) pts)))
  | _ => Err IndexError
  end.
(** devratio, regreg/paths/mixed_lasso.py:374-375 *)
Definition devratio (objective : list R) : list R := map (fun o => 1 - o / fold_right Rmax (hd 0 objective) objective) objective.

(** Model of probit_loglike, regreg/smooth/binary.py:268-506, and of the data attribute shared by the three binary losses. [cdf], [pdf]: normal_dbn.cdf and
    normal_dbn.pdf; normal_dbn.sf is 1 - cdf. Float arrays of the right shape; arithmetic is real. *)
From Coq Require Import Reals List Arith Bool.
From Verif Require Import Vec Spec M_quad M_buffer M_loss.
Import ListNotations.
Local Open Scope R_scope.

(** prob and prob_c with the replaced entries, regreg/smooth/binary.py:358-361 *)
Definition prob (cdf : R -> R) (a : R) : R := if Rlt_dec a (-20) then cdf (-20) else cdf a.
Definition prob_c (cdf : R -> R) (a : R) : R := if Rlt_dec 20 a then 1 - cdf 20 else 1 - cdf a.
(** smooth_objective once cw is formed, regreg/smooth/binary.py:355-389; the offset is not applied *)
Definition probit_func (cdf : R -> R) (s t : vec) (c : R) (cw x : vec) : R :=
  let lprob := map (fun a => ln (prob cdf a)) x in
  let lprob_c := map (fun a => ln (prob_c cdf a)) x in
  - scale c (vsum (vmul cw (vadd (vmul s lprob) (vmul (vsub t s) lprob_c)))).
Definition probit_grad (cdf pdf : R -> R) (s t : vec) (c : R) (cw x : vec) : vec :=
  vopp (vscale c (vmul (vmul cw (map pdf x)) (vsub (vzip Rdiv s (map (prob cdf) x)) (vzip Rdiv (vsub t s) (map (prob_c cdf) x))))).
Definition probit_value (cdf pdf : R -> R) (s t : vec) (c : R) (cw x : vec) (m : smode_arg) : res sval :=
  match m with
  | EvFunc => Ok (VFunc (probit_func cdf s t c cw x))
  | EvGrad => Ok (VGrad (probit_grad cdf pdf s t c cw x))
  | EvBoth => Ok (VBoth (probit_func cdf s t c cw x) (probit_grad cdf pdf s t c cw x))
  | EvOther => Err ValueError
  end.
(** hessian, the diagonal, regreg/smooth/binary.py:414-425, mean_function 505-506 is cdf *)
Definition probit_hess (cdf pdf : R -> R) (t : vec) (c : R) (cw x : vec) : vec :=
  vscale c (vzip Rdiv (vmul (vmul (map (fun a => pdf a * pdf a) x) t) cw) (map (fun a => cdf a * (1 - cdf a)) x)).

(** ** The data attribute: set_data, regreg/smooth/binary.py:430-455 (189-213 in logistic_loglike, 675-700 in cloglog_loglike). [old]: the attribute trials
    before, None before the first assignment. self.successes is assigned first, and stays when an error is raised. Arrays of different lengths raise
    ValueError (broadcasting of length 1 and sparse arrays are outside the model). Result: the attributes successes and trials, and the outcome. *)
Definition binary (a : R) : bool := if Req_EM_T a 0 then true else if Req_EM_T a 1 then true else false.
Definition set_data (old : option vec) (successes : vec) (trials : option vec) : vec * option vec * res unit :=
  match (match trials with None => old | _ => trials end) with
  | None => if forallb binary successes then (successes, Some (ones (length successes)), Ok tt) else (successes, None, Err ValueError)
  | Some t =>
      if negb (Nat.eqb (length t) (length successes)) then (successes, old, Err ValueError)
      else if any_neg (vsub t successes) then (successes, old, Err ValueError)
      else if any_neg successes then (successes, old, Err ValueError)
      else (successes, Some t, Ok tt)
  end.

(** ** Objects. The case weights are an array in the store. *)
Record plike := mk_plike { pl_s : vec; pl_t : vec; pl_shape : nat; pl_coef : R; pl_offset : option vec; pl_quad : iq; pl_cw : option ref }.
(** __init__, regreg/smooth/binary.py:276-313 *)
Definition new_probit (h : heap) (s : vec) (trials : option vec) (n : nat) (c : R) (off : option vec) (q : option iq) (weights : option ref) : res plike :=
  if Rlt_dec c 0 then Err ValueError else
  match set_data None s trials with
  | (s', Some t, Ok _) =>
      let q0 := match q with Some q => q | None => mk_iq 0 (FScal 0) (FScal 0) 0 end in
      rbind (q_add q0 (AQuad (mk_iq 0 (FScal 0) (FScal 0) (- (- c * vsum (vzip binomial_term s' t)))))) (fun q1 =>
      if (match weights with Some r => any_neg (read h r) || negb (Nat.eqb (length (read h r)) (length s')) | None => false end) then Err ValueError else
      Ok (mk_plike s' t n c (match off with Some v => if all_zero v then None else Some v | None => None end) q1 weights))
  | (_, _, Err e) => Err e
  | (_, None, Ok _) => Err AttributeError
  end.
(** cw, regreg/smooth/binary.py:349-353, 416-420: the caller's array, or new ones, multiplied in place *)
Definition pweigh (h : heap) (own arg : option ref) (n : nat) : heap * ref :=
  let '(h1, c) := match arg with Some r => (h, r) | None => (h ++ [ones n], length h) end in
  (match own with Some w => write h1 c (vmul (read h1 c) (read h1 w)) | None => h1 end, c).
(** loss.smooth_objective(x, mode, case_weights=arg) 315-389 *)
Definition probit_eval (cdf pdf : R -> R) (h : heap) (l : plike) (arg : option ref) (x : vec) (m : smode_arg) : heap * res sval :=
  let '(h1, c) := pweigh h (pl_cw l) arg (length x) in (h1, probit_value cdf pdf (pl_s l) (pl_t l) (pl_coef l) (read h1 c) x m).
(** loss.hessian(x, case_weights=arg) 393-425 *)
Definition probit_hess_eval (cdf pdf : R -> R) (h : heap) (l : plike) (arg : option ref) (x : vec) : heap * vec :=
  let '(h1, c) := pweigh h (pl_cw l) arg (length x) in (h1, probit_hess cdf pdf (pl_t l) (pl_coef l) (read h1 c) x).
(** __copy__, regreg/smooth/binary.py:459-468 *)
Definition copy_probit (h : heap) (l : plike) : heap * res plike :=
  match pl_cw l with
  | Some w => (h ++ [read h w], new_probit (h ++ [read h w]) (pl_s l) (Some (pl_t l)) (pl_shape l) (pl_coef l) (pl_offset l) (Some (pl_quad l)) (Some (length h)))
  | None => (h, new_probit h (pl_s l) (Some (pl_t l)) (pl_shape l) (pl_coef l) (pl_offset l) (Some (pl_quad l)) None)
  end.
(** subsample, regreg/smooth/binary.py:470-501; out of range indices raise IndexError *)
Definition subsample_probit (h : heap) (l : plike) (idx : list nat) : heap * res plike :=
  let '(h1, r) := copy_probit h l in
  match r with
  | Err e => (h1, Err e)
  | Ok l' =>
      if negb (forallb (fun i => Nat.ltb i (pl_shape l)) idx) then (h1, Err IndexError) else
      match pl_cw l' with
      | None => (h1 ++ [vmul (ones (pl_shape l)) (indicator (pl_shape l) idx)],
                 Ok (mk_plike (pl_s l') (pl_t l') (pl_shape l') (pl_coef l') (pl_offset l') (pl_quad l') (Some (length h1))))
      | Some w => (write h1 w (vmul (read h1 w) (indicator (length (read h1 w)) idx)), Ok l')
      end
  end.
(** loss.data = (successes, trials), or loss.data = successes when trials is None: the quadratic, with the deviance constant of the old data, is not touched *)
Definition assign (l : plike) (s : vec) (trials : option vec) : plike * res unit :=
  match set_data (Some (pl_t l)) s trials with
  | (s', t', r) => (mk_plike s' (match t' with Some t => t | None => pl_t l end) (pl_shape l) (pl_coef l) (pl_offset l) (pl_quad l) (pl_cw l), r)
  end.

(** Model of the saturated losses of regreg/smooth/glm.py and regreg/smooth/binary.py, of glm itself, and of
    regreg/smooth/quadratic.py. Arrays are float arrays of the right shape; arithmetic is real. *)
From Coq Require Import Reals List Arith Bool.
From Verif Require Import Vec Spec M_quad M_buffer.
Import ListNotations.
Local Open Scope R_scope.

Inductive family :=
| Gaussian (response : vec)
| Logistic (successes trials : vec)
| Poisson (counts : vec)
| Cloglog (successes trials : vec)
| Huber (response : vec) (smoothing : R)
| HuberSvm (successes : vec) (smoothing : R).

Inductive smode_arg := EvFunc | EvGrad | EvBoth | EvOther.
Inductive sval := VFunc (f : R) | VGrad (g : vec) | VBoth (f : R) (g : vec).

(** smooth_atom.scale, regreg/smooth/__init__.py:131-136 *)
Definition scale (c r : R) : R := if Req_EM_T c 1 then r else r * c.
Definition vscale (c : R) (v : vec) : vec := if Req_EM_T c 1 then v else map (fun r => r * c) v.
(** composite.apply_offset, regreg/problems/composite.py:109-115 *)
Definition sub_offset (o : option vec) (x : vec) : vec := match o with Some a => vsub x a | None => x end.
Definition ones (n : nat) : vec := const_vec n 1.

(** log_exp_x and exp_x/(1.+exp_x) with the overflow branch, regreg/smooth/binary.py:94-134 (np.max of an empty array raises: empty
    data is outside the model) *)
Definition log_exp (x : vec) : vec :=
  if existsb (fun a => if Rlt_dec 100 a then true else false) x
  then map (fun a => if Rle_dec a 100 then ln (1 + exp a) else a) x
  else map (fun a => ln (1 + exp a)) x.
Definition logit_ratio (trials x : vec) : vec :=
  if existsb (fun a => if Rlt_dec 100 a then true else false) x
  then vzip (fun t a => if Rle_dec a 100 then t * (exp a / (1 + exp a)) else t) trials x
  else vzip (fun t a => t * (exp a / (1 + exp a))) trials x.
(** np.clip(x, -5, 5), regreg/smooth/binary.py:588-589 *)
Definition clip5 (a : R) : R := Rmax (-5) (Rmin a 5).
(** _huber_loss, regreg/smooth/glm.py:1387-1392 *)
Definition np_sign (a : R) : R := if Rlt_dec a 0 then -1 else if Rlt_dec 0 a then 1 else 0.
Definition huber_proj (eps a : R) : R := np_sign a * Rmin (Rabs a / eps) 1.
Definition huber_val (eps a : R) : R := a * huber_proj eps a - eps * (huber_proj eps a * huber_proj eps a) / 2.
(** _huber_svm, regreg/smooth/binary.py:925-929 *)
Definition svm_arg (eps z : R) : R := (1 - z) / eps.
Definition svm_proj (eps z : R) : R :=
  let arg := svm_arg eps z in
  (if Rlt_dec 0 arg then if Rlt_dec arg 1 then arg else 0 else 0) + (if Rle_dec 1 arg then 1 else 0).
Definition svm_val (eps z : R) : R := svm_arg eps z * svm_proj eps z - eps * (svm_proj eps z * svm_proj eps z) / 2.
(** 2 * successes - 1 *)
Definition encode (s : vec) : vec := map (fun a => 2 * a - 1) s.

(** The value of smooth_objective once cw, the product of the case weights, is formed: gaussian regreg/smooth/glm.py:910-922, poisson
    1109-1126, huber 1302-1316; logistic regreg/smooth/binary.py:92-136, cloglog 585-624 (the offset is not applied), huber_svm 836-850. *)
Definition loss_func (k : family) (c : R) (off : option vec) (cw x0 : vec) : R :=
  let x := sub_offset off x0 in
  match k with
  | Gaussian y => let r := vsub x y in scale c (vsum (vmul cw (vmul r r))) / 2
  | Logistic s t => - scale c (dot (vmul cw s) x - vsum (vmul (vmul cw t) (log_exp x)))
  | Poisson n => - scale c (- vsum (vmul cw (map exp x)) + dot (vmul cw n) x)
  | Cloglog s t =>
      let u := map clip5 x0 in
      let lprob := map (fun a => ln (1 - exp (- exp a))) u in
      let lprob_c := map (fun a => ln (exp (- exp a))) u in
      - scale c (vsum (vmul cw (vadd (vmul s lprob) (vmul (vsub t s) lprob_c))))
  | Huber y eps => scale c (vsum (vmul (map (huber_val eps) (vsub x y)) cw))
  | HuberSvm s eps => scale c (vsum (vmul (map (svm_val eps) (vmul (encode s) x)) cw))
  end.
Definition loss_grad (k : family) (c : R) (off : option vec) (cw x0 : vec) : vec :=
  let x := sub_offset off x0 in
  match k with
  | Gaussian y => vscale c (vmul cw (vsub x y))
  | Logistic s t => vopp (vscale c (vmul cw (vsub s (logit_ratio t x))))
  | Poisson n => vopp (vscale c (vmul cw (vsub n (map exp x))))
  | Cloglog s t =>
      let u := map clip5 x0 in
      let prob := map (fun a => 1 - exp (- exp a)) u in
      let prob_c := map (fun a => exp (- exp a)) u in
      let pdf := map (fun a => exp (a - exp a)) x0 in
      vopp (vscale c (vmul (vmul cw pdf) (vsub (vzip Rdiv s prob) (vzip Rdiv (vsub t s) prob_c))))
  | Huber y eps => vscale c (vmul (map (huber_proj eps) (vsub x y)) cw)
  | HuberSvm s eps => vscale c (vmul (vmul (map (fun z => - svm_proj eps z) (vmul (encode s) x)) (encode s)) cw)
  end.
Definition smooth_value (k : family) (c : R) (off : option vec) (cw x : vec) (m : smode_arg) : res sval :=
  match m with
  | EvFunc => Ok (VFunc (loss_func k c off cw x))
  | EvGrad => Ok (VGrad (loss_grad k c off cw x))
  | EvBoth => Ok (VBoth (loss_func k c off cw x) (loss_grad k c off cw x))
  | EvOther => Err ValueError
  end.
(** hessian: the diagonal. gaussian regreg/smooth/glm.py:927-957, poisson 1129-1160, logistic regreg/smooth/binary.py:139-184: none applies the
    offset. In logistic, ~not_overflow_ind negates indices bitwise: position i becomes -1-i, counted from the end. *)
Definition logit_exp (x : vec) : vec :=
  if existsb (fun a => if Rlt_dec 100 a then true else false) x then
    let keep := filter (fun i => if Rle_dec (nth i x 0) 100 then true else false) (seq 0 (length x)) in
    let e := map (fun a => if Rle_dec a 100 then exp a else 0) x in
    fold_left (fun e i => M_affine.set_at (length x - 1 - i) (exp 100) e) keep e
  else map exp x.
Definition loss_hess (k : family) (c : R) (cw x : vec) : res vec :=
  match k with
  | Gaussian _ => Ok (vscale c cw)
  | Poisson _ => Ok (vscale c (vmul cw (map exp x)))
  | Logistic _ t => Ok (vscale c (vmul (vmul (map (fun e => e / ((1 + e) * (1 + e))) (logit_exp x)) t) cw))
  | Cloglog _ t =>
      let pi := map (fun a => 1 - exp (- exp (clip5 a))) x in
      let pdf := map (fun a => exp (a - exp a)) x in
      Ok (vscale c (vzip Rdiv (vmul (vmul (vmul pdf pdf) t) cw) (map (fun p => p * (1 - p)) pi)))
  | Huber _ _ | HuberSvm _ _ => Err NotImplementedError
  end.

(** ** Loss objects. The case weights are an array in the store; the other arrays are never written. *)
Record loss := mk_loss { l_fam : family; l_shape : nat; l_coef : R; l_offset : option vec; l_quad : iq; l_cw : option ref }.
Definition any_neg (v : vec) : bool := existsb (fun a => if Rlt_dec a 0 then true else false) v.
(** Number of cases *)
Definition cases (k : family) : nat :=
  match k with Gaussian y | Poisson y | Huber y _ | HuberSvm y _ => length y | Logistic s _ | Cloglog s _ => length s end.
(** the deviance constant, regreg/smooth/binary.py:36-45, 538-547, regreg/smooth/glm.py:1047-1054; zero trials give nan and are outside the model *)
Definition binomial_term (s t : R) : R :=
  let p := s / t in
  if Req_EM_T p 0 then 0 else if Req_EM_T p 1 then 0 else ln p * s + ln (1 - p) * (t - s).
Definition dev_const (k : family) (c : R) : R :=
  match k with
  | Logistic s t | Cloglog s t => - (- c * vsum (vzip binomial_term s t))
  | Poisson n => - (- c * vsum (map (fun a => if Req_EM_T a 0 then 0 else - c * ((a - 1) * ln a)) n))
  | _ => 0
  end.
Definition adds_const (k : family) : bool := match k with Logistic _ _ | Poisson _ | Cloglog _ _ => true | _ => false end.
(** np.allclose(np.round(a), a) *)
Definition near_integer (a : R) : bool :=
  let fr := a - IZR (Int_part a) in
  if Rle_dec (Rmin fr (1 - fr)) (/ 10 ^ 8 + / 10 ^ 5 * Rabs a) then true else false.
(** the data checks of the constructors: set_data regreg/smooth/binary.py:189-213; counts regreg/smooth/glm.py:1042-1045 *)
Definition check_data (k : family) : bool :=
  match k with
  | Logistic s t | Cloglog s t => negb (any_neg (vsub t s)) && negb (any_neg s)
  | Poisson n => forallb near_integer n && negb (any_neg n)
  | _ => true
  end.
(** The constructors; [weights] is the store position of case_weights, which is not copied (np.asarray). *)
Definition new_loss (h : heap) (k : family) (n : nat) (c : R) (off : option vec) (q : option iq) (weights : option ref) : res loss :=
  if Rlt_dec c 0 then Err ValueError else
  if negb (check_data k) then Err ValueError else
  if (match weights with Some r => any_neg (read h r) || negb (Nat.eqb (length (read h r)) (cases k)) | None => false end) then Err ValueError else
  let q0 := match q with Some q => q | None => mk_iq 0 (FScal 0) (FScal 0) 0 end in
  rbind (if adds_const k then q_add q0 (AQuad (mk_iq 0 (FScal 0) (FScal 0) (dev_const k c))) else Ok q0) (fun q1 =>
  Ok (mk_loss k n c (match off with Some v => if all_zero v then None else Some v | None => None end) q1 weights)).

(** The first lines of every smooth_objective and hessian: cw is the caller's array, or new ones, and is multiplied in place *)
Definition weigh (h : heap) (l : loss) (arg : option ref) (n : nat) : heap * ref :=
  let '(h1, c) := match arg with Some r => (h, r) | None => (h ++ [ones n], length h) end in
  (match l_cw l with Some w => write h1 c (vmul (read h1 c) (read h1 w)) | None => h1 end, c).
(** loss.smooth_objective(x, mode, case_weights=arg) *)
Definition loss_eval (h : heap) (l : loss) (arg : option ref) (x : vec) (m : smode_arg) : heap * res sval :=
  let '(h1, c) := weigh h l arg (length x) in (h1, smooth_value (l_fam l) (l_coef l) (l_offset l) (read h1 c) x m).
Definition hess_eval (h : heap) (l : loss) (arg : option ref) (x : vec) : heap * res vec :=
  let '(h1, c) := weigh h l arg (length x) in (h1, loss_hess (l_fam l) (l_coef l) (read h1 c) x).
(** __copy__: all keyword arguments are passed on, except case_weights in huber_loss (regreg/smooth/glm.py:1374-1382) and huber_svm
    (regreg/smooth/binary.py:909-917); gaussian 974-981, poisson 1167-1175, logistic regreg/smooth/binary.py:217-226 *)
Definition copies_weights (k : family) : bool := match k with Huber _ _ | HuberSvm _ _ => false | _ => true end.
Definition copy_loss (h : heap) (l : loss) : heap * res loss :=
  match l_cw l with
  | Some w => if copies_weights (l_fam l)
              then (h ++ [read h w], new_loss (h ++ [read h w]) (l_fam l) (l_shape l) (l_coef l) (l_offset l) (Some (l_quad l)) (Some (length h)))
              else (h, new_loss h (l_fam l) (l_shape l) (l_coef l) (l_offset l) (Some (l_quad l)) None)
  | None => (h, new_loss h (l_fam l) (l_shape l) (l_coef l) (l_offset l) (Some (l_quad l)) None)
  end.
(** idx_bool: zeros, then idx_bool[idx] = 1 *)
Definition indicator (n : nat) (idx : list nat) : vec := map (fun i => if existsb (Nat.eqb i) idx then 1 else 0) (seq 0 n).
(** subsample, regreg/smooth/glm.py:983-1011 and the same lines of every loss; out of range indices raise IndexError *)
Definition subsample_loss (h : heap) (l : loss) (idx : list nat) : heap * res loss :=
  let '(h1, r) := copy_loss h l in
  match r with
  | Err e => (h1, Err e)
  | Ok l' =>
      if negb (forallb (fun i => Nat.ltb i (l_shape l)) idx) then (h1, Err IndexError) else
      match l_cw l' with
      | None => (h1 ++ [vmul (ones (l_shape l)) (indicator (l_shape l) idx)],
                 Ok (mk_loss (l_fam l') (l_shape l') (l_coef l') (l_offset l') (l_quad l') (Some (length h1))))
      | Some w => (write h1 w (vmul (read h1 w) (indicator (length (read h1 w)) idx)), Ok l')
      end
  end.

(** ** glm, regreg/smooth/glm.py:21-294. [g_map], [g_adj]: linear_map and adjoint_map of the design. coef is 1, so scale does nothing. *)
Record glm := mk_glm { g_loss : loss; g_map : vec -> vec; g_adj : vec -> vec; g_cols : nat; g_offset : option vec; g_quad : iq; g_cw : ref }.
(** __init__ 35-94: case_weights None becomes an array of ones, otherwise the caller's array is kept *)
Definition new_glm (h : heap) (l : loss) (X : M_affine.transform) (off : option vec) (q : option iq) (weights : option ref) : heap * res glm :=
  let '(h1, r) := match weights with Some r => (h, r) | None => (h ++ [ones (M_affine.t_out X)], length h) end in
  (h1, if any_neg (read h1 r) then Err ValueError else if negb (Nat.eqb (length (read h1 r)) (l_shape l)) then Err ValueError else
       Ok (mk_glm l (M_affine.t_lin X) (M_affine.t_adj X) (M_affine.t_in X)
             (match off with Some v => if all_zero v then None else Some v | None => None end)
             (match q with Some q => q | None => mk_iq 0 (FScal 0) (FScal 0) 0 end) r)).
(** smooth_objective 96-135 *)
Definition glm_eval (h : heap) (g : glm) (beta : vec) (m : smode_arg) : heap * res sval :=
  let '(h1, v) := loss_eval h (g_loss g) (Some (g_cw g)) (g_map g (sub_offset (g_offset g) beta)) m in
  (h1, rbind v (fun v => match v with
                         | VFunc f => Ok (VFunc f)
                         | VGrad u => Ok (VGrad (g_adj g u))
                         | VBoth f u => Ok (VBoth f (g_adj g u))
                         end)).
(** hessian(beta) 208-248 applied to a vector d, X.T (W * (X d)): the offset is not subtracted *)
Definition glm_hess (h : heap) (g : glm) (beta d : vec) : heap * res vec :=
  let '(h1, w) := hess_eval h (g_loss g) (Some (g_cw g)) (g_map g beta) in
  (h1, rbind w (fun w => Ok (g_adj g (vmul w (g_map g d))))).
(** __copy__ 252-262: the loss is copied with its own __copy__, the weights of the glm are copied *)
Definition copy_glm (h : heap) (g : glm) : heap * res glm :=
  let '(h1, r) := copy_loss h (g_loss g) in
  match r with
  | Err e => (h1, Err e)
  | Ok l => (h1 ++ [read h1 (g_cw g)], Ok (mk_glm l (g_map g) (g_adj g) (g_cols g) (g_offset g) (g_quad g) (length h1)))
  end.
(** subsample 264-294 *)
Definition subsample_glm (h : heap) (g : glm) (idx : list nat) : heap * res glm :=
  let '(h1, r) := copy_glm h g in
  match r with
  | Err e => (h1, Err e)
  | Ok g' =>
      if negb (forallb (fun i => Nat.ltb i (l_shape (g_loss g))) idx) then (h1, Err IndexError) else
      (write h1 (g_cw g') (vmul (read h1 (g_cw g')) (indicator (l_shape (g_loss g)) idx)), Ok g')
  end.
(** A program evaluating one glm again and again, in any mode *)
Inductive gop := GEval (beta : vec) (m : smode_arg) | GHess (beta d : vec).
Definition gstep (g : glm) (h : heap) (o : gop) : heap :=
  match o with GEval b m => fst (glm_eval h g b m) | GHess b d => fst (glm_hess h g b d) end.
Definition grun (g : glm) (h : heap) (l : list gop) : heap := fold_left (gstep g) l h.

(** ** quadratic_loss, regreg/smooth/quadratic.py:131-165; [Q] is Q_transform.linear_map *)
Definition quad_func (Q : option (vec -> vec)) (c : R) (off : option vec) (x0 : vec) : R :=
  let x := sub_offset off x0 in
  match Q with None => scale c (norm x * norm x) / 2 | Some Q => scale c (dot x (Q x)) / 2 end.
Definition quad_grad (Q : option (vec -> vec)) (c : R) (off : option vec) (x0 : vec) : vec :=
  let x := sub_offset off x0 in
  match Q with None => vscale c x | Some Q => vscale c (Q x) end.

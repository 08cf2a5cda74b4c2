(** Model of the Cox partial likelihood: regreg/smooth/cox.py, regreg/smooth/cox_utils.pyx, regreg/smooth/cox_fns.c.
    Arithmetic is real. A division by zero or the logarithm of a number that is not positive gives nan or an infinity in C: here the
    whole result is then [Err NaNResult]. Indices are in range in every theorem, so the C pointers stay inside their arrays. *)
From Coq Require Import Reals List Arith Bool.
From Verif Require Import M_affine Vec Spec M_quad M_buffer M_loss.
Import ListNotations.
Local Open Scope R_scope.

(** for (idx=0; idx<n; idx++), the loop body may produce nan *)
Fixpoint rloop {A} (body : A -> nat -> res A) (idxs : list nat) (st : A) : res A :=
  match idxs with [] => Ok st | i :: r => rbind (body st i) (rloop body r) end.

(** _update_cox_exp, cox_fns.c:11-41: the arrays at exp_ptr and exp_accum_ptr *)
Definition update_exp (eta cw : vec) (ord : list nat) (n : nat) (e acc : vec) : vec * vec :=
  let '(_, e1, acc1) :=
    fold_left (fun st idx =>
      let '(cur, e, acc) := st in
      let k := (n - 1 - idx)%nat in
      let o := nth k ord 0%nat in
      let v := exp (nth o eta 0) * nth o cw 0 in
      (cur + v, set_at o v e, set_at k (cur + v) acc)) (seq 0 n) (0, e, acc) in
  (e1, acc1).
(** _update_cox_expZ, cox_fns.c:43-71 *)
Definition update_expZ (z e : vec) (ord : list nat) (n : nat) (accZ : vec) : vec :=
  snd (fold_left (fun st idx =>
    let '(cur, acc) := st in
    let k := (n - 1 - idx)%nat in
    let o := nth k ord 0%nat in
    let cur1 := cur + nth o z 0 * nth o e 0 in
    (cur1, set_at k cur1 acc)) (seq 0 n) (0, accZ)).
(** _update_outer_1st, cox_fns.c:73-106 *)
Definition update_outer_1st (acc cw : vec) (cens ord rmin : list nat) (n : nat) (out : vec) : res vec :=
  rmap snd (rloop (fun st idx =>
    let '(cur, out) := st in
    let o := nth idx ord 0%nat in
    let d := nth (nth o rmin 0%nat) acc 0 in
    if Req_EM_T d 0 then Err NaNResult else
    let cur1 := cur + INR (nth o cens 0%nat) * nth o cw 0 / d in
    Ok (cur1, set_at idx cur1 out)) (seq 0 n) (0, out)).
(** _update_outer_2nd, cox_fns.c:108-142 *)
Definition update_outer_2nd (acc accZ cw : vec) (cens ord rmin : list nat) (n : nat) (out : vec) : res vec :=
  rmap snd (rloop (fun st idx =>
    let '(cur, out) := st in
    let o := nth idx ord 0%nat in
    let r := nth o rmin 0%nat in
    let d := nth r acc 0 in
    if Req_EM_T d 0 then Err NaNResult else
    let cur1 := cur + INR (nth o cens 0%nat) * nth o cw 0 * nth r accZ 0 / (d * d) in
    Ok (cur1, set_at idx cur1 out)) (seq 0 n) (0, out)).
(** _cox_objective, cox_fns.c:146-177 *)
Definition objective_c (eta acc cw : vec) (cens rmin : list nat) (n : nat) : res R :=
  rloop (fun cur idx =>
    let a := nth (nth idx rmin 0%nat) acc 0 in
    if Rle_dec a 0 then Err NaNResult else
    Ok (cur + INR (nth idx cens 0%nat) * nth idx cw 0 * (ln a - nth idx eta 0))) (seq 0 n) 0.
(** _cox_gradient, cox_fns.c:179-211 *)
Definition gradient_c (e outer1 cw : vec) (cens rmax : list nat) (n : nat) (g : vec) : vec :=
  fold_left (fun g idx => set_at idx (nth (nth idx rmax 0%nat) outer1 0 * nth idx e 0 - INR (nth idx cens 0%nat) * nth idx cw 0) g) (seq 0 n) g.
(** _cox_hessian, cox_fns.c:213-245 *)
Definition hessian_c (e z outer1 outer2 : vec) (rmax : list nat) (n : nat) (h : vec) : vec :=
  fold_left (fun h idx =>
    let r := nth idx rmax 0%nat in
    set_at idx (nth idx e 0 * (nth r outer1 0 * nth idx z 0 - nth r outer2 0)) h) (seq 0 n) h.

(** The attributes of cox_loglike the Cython functions receive: data, ordering and ranks; the scratch arrays _exp_buffer, _exp_accum, _outer_1st,
    _expZ_accum, _outer_2nd hold whatever earlier calls left there *)
Record cdata := mk_cdata { c_times : vec; c_cens : list nat; c_ord : list nat; c_rmin : list nat; c_rmax : list nat }.
Record scratch := mk_scratch { b_exp : vec; b_acc : vec; b_out1 : vec; b_accZ : vec; b_out2 : vec }.
Definition same_length (n : nat) (ls : list nat) : bool := forallb (Nat.eqb n) ls.
(** cox_objective, cox_utils.pyx:82-144: shape checks, then the three C functions; ncase = eta.shape[0] *)
Definition cox_objective (D : cdata) (b : scratch) (eta cw : vec) : res R :=
  let n := length eta in
  if same_length n [length (b_exp b); length (b_acc b); length (b_out1 b); length cw; length (c_cens D); length (c_ord D); length (c_rmin D); length (c_rmax D)] then
    let '(e, acc) := update_exp eta cw (c_ord D) n (b_exp b) (b_acc b) in
    rbind (update_outer_1st acc cw (c_cens D) (c_ord D) (c_rmin D) n (b_out1 b)) (fun _ => objective_c eta acc cw (c_cens D) (c_rmin D) n)
  else Err AssertionError.
(** cox_gradient, cox_utils.pyx:146-218; [g]: the array to fill *)
Definition cox_gradient (D : cdata) (b : scratch) (g eta cw : vec) : res vec :=
  let n := length eta in
  if same_length n [length g; length (b_exp b); length (b_acc b); length (b_out1 b); length cw; length (c_cens D); length (c_ord D); length (c_rmin D); length (c_rmax D)] then
    let '(e, acc) := update_exp eta cw (c_ord D) n (b_exp b) (b_acc b) in
    rbind (update_outer_1st acc cw (c_cens D) (c_ord D) (c_rmin D) n (b_out1 b)) (fun out1 =>
    Ok (gradient_c e out1 cw (c_cens D) (c_rmax D) n g))
  else Err AssertionError.
(** cox_hessian, cox_utils.pyx:220-323 *)
Definition cox_hessian (D : cdata) (b : scratch) (h eta z cw : vec) : res vec :=
  let n := length eta in
  if same_length n [length h; length z; length (b_exp b); length (b_acc b); length (b_accZ b); length (b_out1 b); length (b_out2 b); length cw; length (c_cens D);
                    length (c_ord D); length (c_rmin D); length (c_rmax D)] then
    let '(e, acc) := update_exp eta cw (c_ord D) n (b_exp b) (b_acc b) in
    rbind (update_outer_1st acc cw (c_cens D) (c_ord D) (c_rmin D) n (b_out1 b)) (fun out1 =>
    let accZ := update_expZ z e (c_ord D) n (b_accZ b) in
    rbind (update_outer_2nd acc accZ cw (c_cens D) (c_ord D) (c_rmin D) n (b_out2 b)) (fun out2 =>
    Ok (hessian_c e z out1 out2 (c_rmax D) n h)))
  else Err AssertionError.

(** rankdata(event_times, method='min') - 1 and method='max', cox.py:39-40 *)
Definition rank_min (T : vec) : list nat := map (fun a => length (filter (fun b => if Rlt_dec b a then true else false) T)) T.
Definition rank_max (T : vec) : list nat := map (fun a => (length (filter (fun b => if Rle_dec b a then true else false) T) - 1)%nat) T.
(** cox_loglike: [k_G] the array _G and [k_cw] case_weights live in the store. The censoring indicators are counts: set_data truncates them to integers
    (cox.py:199-202) and C reads them as size_t, so negative ones are outside the model *)
Record cox := mk_cox { k_data : cdata; k_coef : R; k_offset : option vec; k_quad : iq; k_cw : ref; k_G : ref }.
(** __init__, cox.py:19-56. [argsort]: np.argsort, whose order among ties is not fixed. case_weights is copied by astype; without it ones *)
Definition new_cox (h : heap) (argsort : vec -> list nat) (times : vec) (cens : list nat) (c : R) (off : option vec) (q : option iq) (weights : option vec) : heap * res cox :=
  if Rlt_dec c 0 then (h, Err ValueError) else
  if (match weights with Some w => any_neg w | None => false end) then (h, Err ValueError) else
  (h ++ [match weights with Some w => w | None => ones (length times) end; zeros (length times)],
   Ok (mk_cox (mk_cdata times cens (argsort times) (rank_min times) (rank_max times)) c
         (match off with Some v => if all_zero v then None else Some v | None => None end)
         (match q with Some q => q | None => mk_iq 0 (FScal 0) (FScal 0) 0 end) (length h) (S (length h)))).
(** cw = case_weights (or ones); cw *= self.case_weights, in place *)
Definition cox_weigh (h : heap) (k : cox) (arg : option ref) (n : nat) : heap * ref :=
  let '(h1, c) := match arg with Some r => (h, r) | None => (h ++ [ones n], length h) end in
  (write h1 c (vmul (read h1 c) (read h1 (k_cw k))), c).
(** What smooth_objective returns: a number and an array in the store *)
Inductive cval := KFunc (f : R) | KGrad (g : ref) | KBoth (f : R) (g : ref).
(** self.scale of an array: the array itself when coef is 1, otherwise a new one *)
Definition scale_ref (h : heap) (c : R) (r : ref) : heap * ref := if Req_EM_T c 1 then (h, r) else (h ++ [map (fun a => a * c) (read h r)], length h).
(** smooth_objective, cox.py:58-136. [b]: the scratch arrays before the call *)
Definition cox_eval (h : heap) (k : cox) (b : scratch) (arg : option ref) (x : vec) (m : smode_arg) : heap * res cval :=
  let '(h1, c) := cox_weigh h k arg (length x) in
  let cw := read h1 c in
  let eta := sub_offset (k_offset k) x in
  let grad := fun cont => match cox_gradient (k_data k) b (read h1 (k_G k)) eta cw with Err e => (h1, Err e) | Ok g => cont (write h1 (k_G k) g) end in
  match m with
  | EvFunc => (h1, rmap (fun f => KFunc (scale (k_coef k) f)) (cox_objective (k_data k) b eta cw))
  | EvGrad => grad (fun h2 => let '(h3, r) := scale_ref h2 (k_coef k) (k_G k) in (h3, Ok (KGrad r)))
  | EvBoth => grad (fun h2 => match cox_objective (k_data k) b eta cw with
                              | Err e => (h2, Err e)
                              | Ok f => let '(h3, r) := scale_ref h2 (k_coef k) (k_G k) in (h3, Ok (KBoth (scale (k_coef k) f) r))
                              end)
  | EvOther => (h1, Err ValueError)
  end.
(** hessian_mult, cox.py:140-194: the result is not scaled by coef *)
Definition cox_hess (h : heap) (k : cox) (b : scratch) (arg : option ref) (x z : vec) : heap * res vec :=
  let '(h1, c) := cox_weigh h k arg (length x) in
  let eta := sub_offset (k_offset k) x in
  (h1, cox_hessian (k_data k) b (zeros (length eta)) eta z (read h1 c)).
(** __copy__, cox.py:206-215, and subsample 217-248; case_idx holds integers from 0 on *)
Definition copy_cox (h : heap) (argsort : vec -> list nat) (k : cox) : heap * res cox :=
  new_cox h argsort (c_times (k_data k)) (c_cens (k_data k)) (k_coef k) (k_offset k) (Some (k_quad k)) (Some (read h (k_cw k))).
Definition subsample_cox (h : heap) (argsort : vec -> list nat) (k : cox) (idx : list nat) : heap * res cox :=
  let '(h1, r) := copy_cox h argsort k in
  match r with
  | Err e => (h1, Err e)
  | Ok k' => if negb (forallb (fun i => Nat.ltb i (length (read h1 (k_cw k')))) idx) then (h1, Err IndexError) else
             (write h1 (k_cw k') (vmul (read h1 (k_cw k')) (indicator (length (read h1 (k_cw k'))) idx)), Ok k')
  end.

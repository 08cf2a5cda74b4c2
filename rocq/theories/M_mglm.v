(** Model of regreg/smooth/mglm.py (multinomial_loglike, multinomial_baseline_loglike, stacked_common_loglike, mglm) and of
    stacked_loglike in regreg/smooth/glm.py. Two-dimensional arrays are stored row by row; arrays are float arrays of the right
    shape with at least one row and column; arithmetic is real. *)
From Coq Require Import Reals List Arith Bool.
From Verif Require Import M_affine Vec Spec M_quad M_buffer M_loss SpecBlock.
Import ListNotations.
Local Open Scope R_scope.

Fixpoint map3 {A B C D} (f : A -> B -> C -> D) (l1 : list A) (l2 : list B) (l3 : list C) : list D :=
  match l1, l2, l3 with a :: l1, b :: l2, c :: l3 => f a b c :: map3 f l1 l2 l3 | _, _, _ => [] end.

(** ** The multinomial losses. [base]: multinomial_baseline_loglike *)
(** np.clip(eta, -overflow_clip, overflow_clip), regreg/smooth/mglm.py:824-827 and 968-971 *)
Definition clip50 (a : R) : R := Rmax (-50) (Rmin a 50).
(** np.sum(exp_eta, axis=1), in the baseline class 1. + np.sum(exp_eta, axis=1) *)
Definition total (base : bool) (e : vec) : R := if base then 1 + vsum (map exp e) else vsum (map exp e).
(** counts, in the baseline class firstcounts (regreg/smooth/mglm.py:916) *)
Definition first_counts (base : bool) (ct : vec) : vec := if base then firstn (length ct - 1) ct else ct.
(** eta: the offset is subtracted before the clipping *)
Definition clipped (n q : nat) (off : option vec) (x : vec) : list vec := rows n q (map clip50 (sub_offset off x)).
(** f and g of smooth_objective, regreg/smooth/mglm.py:811-847 and 955-994; trials 782, 923 is np.sum(counts, axis=1) *)
Definition multi_func (base : bool) (n q : nat) (counts : list vec) (c : R) (off : option vec) (cw x : vec) : R :=
  let eta := clipped n q off x in
  - scale c (vsum (concat (map3 (fun w ct e => vmul (vscal w (first_counts base ct)) e) cw counts eta))
             - dot (vmul cw (map vsum counts)) (map (fun e => ln (total base e)) eta)).
Definition multi_grad (base : bool) (n q : nat) (counts : list vec) (c : R) (off : option vec) (cw x : vec) : vec :=
  let eta := clipped n q off x in
  vopp (vscale c (concat (map3 (fun w ct e => vscal w (vsub (first_counts base ct) (vscal (vsum ct / total base e) (map exp e)))) cw counts eta))).

(** Objects. The case weights are an array in the store. *)
Record multi := mk_multi { m_base : bool; m_rows : nat; m_cols : nat; m_counts : list vec; m_coef : R; m_offset : option vec; m_quad : iq; m_cw : option ref }.
(** loss_terms.sum(): 0 where np.log(saturated) * counts is nan *)
Definition multi_term (t a : R) : R := if Req_EM_T t 0 then 0 else if Req_EM_T a 0 then 0 else ln (a / (1 * t)) * a.
Definition multi_const (counts : list vec) (c : R) : R := - (- c * vsum (concat (map (fun ct => map (multi_term (vsum ct)) ct) counts))).
(** the checks of the constructors, regreg/smooth/mglm.py:755-801 and 892-945; smooth_atom.__init__ refuses a negative coef *)
Definition multi_check (base : bool) (q : nat) (counts : list vec) : bool :=
  negb (existsb any_neg counts) &&
  (if base then forallb (forallb near_integer) counts && Nat.eqb (S q) (match counts with ct :: _ => length ct | [] => 0%nat end) else true).
Definition new_multi (h : heap) (base : bool) (n q : nat) (counts : list vec) (c : R) (off : option vec) (qd : option iq) (weights : option ref) : res multi :=
  if Rlt_dec c 0 then Err ValueError else
  if negb (multi_check base q counts) then Err ValueError else
  rbind (q_add (match qd with Some qd => qd | None => mk_iq 0 (FScal 0) (FScal 0) 0 end) (AQuad (mk_iq 0 (FScal 0) (FScal 0) (multi_const counts c)))) (fun q1 =>
  if (match weights with Some r => any_neg (read h r) || negb (Nat.eqb (length (read h r)) n) | None => false end) then Err ValueError else
  Ok (mk_multi base n q counts c (match off with Some v => if all_zero v then None else Some v | None => None end) q1 weights)).
(** smooth_objective: cw is the argument, or new ones. self.case_weights is not read. *)
Definition multi_value (l : multi) (cw x : vec) (m : smode_arg) : res sval :=
  let f := multi_func (m_base l) (m_rows l) (m_cols l) (m_counts l) (m_coef l) (m_offset l) cw x in
  let g := multi_grad (m_base l) (m_rows l) (m_cols l) (m_counts l) (m_coef l) (m_offset l) cw x in
  match m with EvFunc => Ok (VFunc f) | EvGrad => Ok (VGrad g) | EvBoth => Ok (VBoth f g) | EvOther => Err ValueError end.
Definition multi_eval (h : heap) (l : multi) (arg : option ref) (x : vec) (m : smode_arg) : res sval :=
  multi_value l (match arg with Some r => read h r | None => ones (m_rows l) end) x m.
(** subsample, regreg/smooth/mglm.py:849-880 and 996-1027. The classes have no __copy__: copy(self) shares the array case_weights. *)
Definition subsample_multi (h : heap) (l : multi) (idx : list nat) : heap * res multi :=
  let n := m_rows l in
  if negb (forallb (fun i => Nat.ltb i n) idx) then (h, Err IndexError) else
  match m_cw l with
  | None => (h ++ [vmul (ones n) (indicator n idx)],
             Ok (mk_multi (m_base l) n (m_cols l) (m_counts l) (m_coef l) (m_offset l) (m_quad l) (Some (length h))))
  | Some w => (write h w (vmul (read h w) (indicator (length (read h w)) idx)), Ok l)
  end.

(** ** stacked_common_loglike, regreg/smooth/mglm.py:271-425. [s_buf]: the array _gradient *)
Record stacked := mk_stacked { s_losses : list loss; s_coef : R; s_offset : option vec; s_quad : iq; s_cw : option ref; s_buf : ref }.
Definition s_rows (s : stacked) : nat := match s_losses s with l :: _ => l_shape l | [] => 0%nat end.
Definition s_cols (s : stacked) : nat := length (s_losses s).
(** 282-311; losses[0] of an empty list raises IndexError *)
Definition new_stacked (h : heap) (losses : list loss) (c : R) (off : option vec) (qd : option iq) (weights : option ref) : heap * res stacked :=
  match losses with
  | [] => (h, Err IndexError)
  | l0 :: _ =>
      let n := l_shape l0 in
      if Rlt_dec c 0 then (h, Err ValueError) else
      if negb (forallb (fun l => Nat.eqb (l_shape l) n) losses) then (h, Err AssertionError) else
      if (match weights with Some r => any_neg (read h r) || negb (Nat.eqb (length (read h r)) n) | None => false end) then (h, Err ValueError) else
      (h ++ [zeros (n * length losses)],
       Ok (mk_stacked losses c (match off with Some v => if all_zero v then None else Some v | None => None end)
             (match qd with Some qd => qd | None => mk_iq 0 (FScal 0) (FScal 0) 0 end) weights (length h)))
  end.
(** x[:,i] and a[:,i] = v for an array of k columns *)
Definition column (n k i : nat) (x : vec) : vec := map (fun r => nth i r 0) (rows n k x).
Definition put_column (n k i : nat) (x v : vec) : vec := concat (map (fun p => set_at i (snd p) (fst p)) (combine (rows n k x) v)).
(** What smooth_objective returns: numbers, and arrays in the store *)
Inductive rval := RFunc (f : R) | RGrad (g : ref) | RBoth (f : R) (g : ref).
(** self.scale(self._gradient): the array itself when coef is 1 *)
Definition scale_ref (h : heap) (c : R) (r : ref) : heap * ref := if Req_EM_T c 1 then (h, r) else (h ++ [map (fun a => a * c) (read h r)], length h).
(** The loop 350-374: every loss is evaluated with the array cw, which its smooth_objective multiplies in place by its own weights *)
Fixpoint stack_loop (n k i : nat) (losses : list loss) (buf c : ref) (x : vec) (m : smode_arg) (v : R) (h : heap) : heap * res R :=
  match losses with
  | [] => (h, Ok v)
  | l :: rest =>
      let '(h1, r) := loss_eval h l (Some c) (column n k i x) m in
      match r with
      | Err e => (h1, Err e)
      | Ok (VFunc f) => stack_loop n k (S i) rest buf c x m (v + f) h1
      | Ok (VGrad g) => stack_loop n k (S i) rest buf c x m v (write h1 buf (put_column n k i (read h1 buf) g))
      | Ok (VBoth f g) => stack_loop n k (S i) rest buf c x m (v + f) (write h1 buf (put_column n k i (read h1 buf) g))
      end
  end.
(** smooth_objective 313-376 *)
Definition stacked_eval (h : heap) (s : stacked) (arg : option ref) (x : vec) (m : smode_arg) : heap * res rval :=
  let n := s_rows s in
  let '(h0, c) := match arg with Some r => (h, r) | None => (h ++ [ones n], length h) end in
  let h1 := match s_cw s with Some w => write h0 c (vmul (read h0 c) (read h0 w)) | None => h0 end in
  match m with
  | EvOther => (h1, Err ValueError)
  | _ =>
      let '(h2, r) := stack_loop n (s_cols s) 0 (s_losses s) (s_buf s) c (sub_offset (s_offset s) x) m 0 h1 in
      match r with
      | Err e => (h2, Err e)
      | Ok v => match m with
                | EvFunc => (h2, Ok (RFunc (scale (s_coef s) v)))
                | EvGrad => let '(h3, g) := scale_ref h2 (s_coef s) (s_buf s) in (h3, Ok (RGrad g))
                | _ => let '(h3, g) := scale_ref h2 (s_coef s) (s_buf s) in (h3, Ok (RBoth (scale (s_coef s) v) g))
                end
      end
  end.
(** __copy__ 386-392: the list of losses is copied, not the losses *)
Definition copy_stacked (h : heap) (s : stacked) : heap * res stacked :=
  match s_cw s with
  | Some w => new_stacked (h ++ [read h w]) (s_losses s) (s_coef s) (s_offset s) (Some (s_quad s)) (Some (length h))
  | None => new_stacked h (s_losses s) (s_coef s) (s_offset s) (Some (s_quad s)) None
  end.
(** subsample 394-425 *)
Definition subsample_stacked (h : heap) (s : stacked) (idx : list nat) : heap * res stacked :=
  let '(h1, r) := copy_stacked h s in
  match r with
  | Err e => (h1, Err e)
  | Ok s' =>
      if negb (forallb (fun i => Nat.ltb i (s_rows s)) idx) then (h1, Err IndexError) else
      match s_cw s' with
      | None => (h1 ++ [vmul (ones (s_rows s)) (indicator (s_rows s) idx)],
                 Ok (mk_stacked (s_losses s') (s_coef s') (s_offset s') (s_quad s') (Some (length h1)) (s_buf s')))
      | Some w => (write h1 w (vmul (read h1 w) (indicator (length (read h1 w)) idx)), Ok s')
      end
  end.

(** ** stacked_loglike, regreg/smooth/glm.py:1394-1555: the losses one after the other along one axis *)
Definition chain_size (s : stacked) : nat := fold_right Nat.add 0%nat (map l_shape (s_losses s)).
Definition new_chain (h : heap) (losses : list loss) (c : R) (off : option vec) (qd : option iq) (weights : option ref) : heap * res stacked :=
  let n := fold_right Nat.add 0%nat (map l_shape losses) in
  if Rlt_dec c 0 then (h, Err ValueError) else
  match losses with [] => (h, Err ValueError) | _ =>
  if (match weights with Some r => any_neg (read h r) || negb (Nat.eqb (length (read h r)) n) | None => false end) then (h ++ [zeros n], Err ValueError) else
  (h ++ [zeros n],
   Ok (mk_stacked losses c (match off with Some v => if all_zero v then None else Some v | None => None end)
         (match qd with Some qd => qd | None => mk_iq 0 (FScal 0) (FScal 0) 0 end) weights (length h))) end.
(** self._gradient[slice] = v, from position [lo] *)
Definition put_slice (lo : nat) (x v : vec) : vec := firstn lo x ++ v ++ skipn (lo + length v) x.
Fixpoint chain_loop (lo : nat) (losses : list loss) (buf : ref) (x : vec) (m : smode_arg) (v : R) (h : heap) : heap * res R :=
  match losses with
  | [] => (h, Ok v)
  | l :: rest =>
      let '(h1, r) := loss_eval h l None (firstn (l_shape l) (skipn lo x)) m in
      let hi := (lo + l_shape l)%nat in
      match r with
      | Err e => (h1, Err e)
      | Ok (VFunc f) => chain_loop hi rest buf x m (v + f) h1
      | Ok (VGrad g) => chain_loop hi rest buf x m v (write h1 buf (put_slice lo (read h1 buf) g))
      | Ok (VBoth f g) => chain_loop hi rest buf x m (v + f) (write h1 buf (put_slice lo (read h1 buf) g))
      end
  end.
(** smooth_objective 1449-1506: cw is formed, in place when it is the argument, and not used *)
Definition chain_eval (h : heap) (s : stacked) (arg : option ref) (x : vec) (m : smode_arg) : heap * res rval :=
  let '(h0, c) := match arg with Some r => (h, r) | None => (h ++ [ones (length x)], length h) end in
  let h1 := match s_cw s with Some w => write h0 c (vmul (read h0 c) (read h0 w)) | None => h0 end in
  match m with
  | EvOther => (h1, Err ValueError)
  | _ =>
      let '(h2, r) := chain_loop 0 (s_losses s) (s_buf s) (sub_offset (s_offset s) x) m 0 h1 in
      match r with
      | Err e => (h2, Err e)
      | Ok v => match m with
                | EvFunc => (h2, Ok (RFunc (scale (s_coef s) v)))
                | EvGrad => let '(h3, g) := scale_ref h2 (s_coef s) (s_buf s) in (h3, Ok (RGrad g))
                | _ => let '(h3, g) := scale_ref h2 (s_coef s) (s_buf s) in (h3, Ok (RBoth (scale (s_coef s) v) g))
                end
      end
  end.
(** __copy__ 1516-1522 and subsample 1524-1552 *)
Definition copy_chain (h : heap) (s : stacked) : heap * res stacked :=
  match s_cw s with
  | Some w => new_chain (h ++ [read h w]) (s_losses s) (s_coef s) (s_offset s) (Some (s_quad s)) (Some (length h))
  | None => new_chain h (s_losses s) (s_coef s) (s_offset s) (Some (s_quad s)) None
  end.
Definition subsample_chain (h : heap) (s : stacked) (idx : list nat) : heap * res stacked :=
  let '(h1, r) := copy_chain h s in
  match r with
  | Err e => (h1, Err e)
  | Ok s' =>
      if negb (forallb (fun i => Nat.ltb i (chain_size s)) idx) then (h1, Err IndexError) else
      match s_cw s' with
      | None => (h1 ++ [vmul (ones (chain_size s)) (indicator (chain_size s) idx)],
                 Ok (mk_stacked (s_losses s') (s_coef s') (s_offset s') (s_quad s') (Some (length h1)) (s_buf s')))
      | Some w => (write h1 w (vmul (read h1 w) (indicator (length (read h1 w)) idx)), Ok s')
      end
  end.

(** ** mglm, regreg/smooth/mglm.py:22-269 *)
Inductive sat := Multi (l : multi) | Stack (s : stacked).
Definition sat_rows (s : sat) : nat := match s with Multi l => m_rows l | Stack s => s_rows s end.
Definition sat_cols (s : sat) : nat := match s with Multi l => m_cols l | Stack s => s_cols s end.
(** [mg_X]: the rows of the design; the weights are not checked *)
Record mglm := mk_mglm { mg_sat : sat; mg_X : list vec; mg_p : nat; mg_offset : option vec; mg_quad : iq; mg_cw : ref }.
Definition new_mglm (h : heap) (X : list vec) (p : nat) (s : sat) (off : option vec) (qd : option iq) (weights : option ref) : heap * mglm :=
  let '(h1, r) := match weights with Some r => (h, r) | None => (h ++ [ones (length X)], length h) end in
  (h1, mk_mglm s X p (match off with Some v => if all_zero v then None else Some v | None => None end)
         (match qd with Some qd => qd | None => mk_iq 0 (FScal 0) (FScal 0) 0 end) r).
(** np.dot(X, B) and np.dot(X.T, U) for B with p rows and U with n rows, of q columns *)
Definition left_mul (X : list vec) (p q : nat) (B : vec) : vec := concat (map (fun r => mat_tvec q (rows p q B) r) X).
Definition transpose (p : nat) (X : list vec) : list vec := map (fun j => map (fun r => nth j r 0) X) (seq 0 p).
Definition left_tmul (X : list vec) (p q : nat) (U : vec) : vec := concat (map (fun r => mat_tvec q (rows (length X) q U) r) (transpose p X)).
(** smooth_objective is glm's, regreg/smooth/glm.py:96-135. An array handed on by the saturated loss is read by adjoint_map at once. *)
Definition sat_eval (h : heap) (s : sat) (arg : option ref) (x : vec) (m : smode_arg) : heap * res sval :=
  match s with
  | Multi l => (h, multi_eval h l arg x m)
  | Stack s => let '(h1, r) := stacked_eval h s arg x m in
               (h1, rbind r (fun r => match r with RFunc f => Ok (VFunc f) | RGrad g => Ok (VGrad (read h1 g)) | RBoth f g => Ok (VBoth f (read h1 g)) end))
  end.
Definition mglm_eval (h : heap) (g : mglm) (B : vec) (m : smode_arg) : heap * res sval :=
  let q := sat_cols (mg_sat g) in
  let '(h1, v) := sat_eval h (mg_sat g) (Some (mg_cw g)) (left_mul (mg_X g) (mg_p g) q (sub_offset (mg_offset g) B)) m in
  (h1, rbind v (fun v => match v with
                         | VFunc f => Ok (VFunc f)
                         | VGrad u => Ok (VGrad (left_tmul (mg_X g) (mg_p g) q u))
                         | VBoth f u => Ok (VBoth f (left_tmul (mg_X g) (mg_p g) q u))
                         end)).
(** hessian 118-131 *)
Definition mglm_hess (g : mglm) (B : vec) : res vec := Err NotImplementedError.
(** __copy__ 136-144: the saturated loss by its own __copy__, or field by field *)
Definition copy_mglm (h : heap) (g : mglm) : heap * res mglm :=
  match mg_sat g with
  | Multi l => (h ++ [read h (mg_cw g)], Ok (mk_mglm (Multi l) (mg_X g) (mg_p g) (mg_offset g) (mg_quad g) (length h)))
  | Stack s => let '(h1, r) := copy_stacked h s in
               match r with
               | Err e => (h1, Err e)
               | Ok s' => (h1 ++ [read h1 (mg_cw g)], Ok (mk_mglm (Stack s') (mg_X g) (mg_p g) (mg_offset g) (mg_quad g) (length h1)))
               end
  end.
(** subsample 85-115 *)
Definition subsample_mglm (h : heap) (g : mglm) (idx : list nat) : heap * res mglm :=
  let '(h1, r) := copy_mglm h g in
  match r with
  | Err e => (h1, Err e)
  | Ok g' =>
      if negb (forallb (fun i => Nat.ltb i (sat_rows (mg_sat g))) idx) then (h1, Err IndexError) else
      (write h1 (mg_cw g') (vmul (read h1 (mg_cw g')) (indicator (sat_rows (mg_sat g)) idx)), Ok g')
  end.
(** mglm.multinomial 146-211; trials and the shape come from the counts *)
Definition mglm_multinomial (h : heap) (X : list vec) (p : nat) (counts : list vec) (c : R) (soff off : option vec) (qd : option iq) (weights : option ref) (base : bool) : heap * res mglm :=
  let J := match counts with ct :: _ => length ct | [] => 0%nat end in
  match new_multi h base (length counts) (if base then (J - 1)%nat else J) counts c soff None None with
  | Err e => (h, Err e)
  | Ok l => let '(h1, g) := new_mglm h X p (Multi l) off qd weights in (h1, Ok g)
  end.
(** mglm.stacked 213-269: evaluates the undefined name successes *)
Definition mglm_stacked (h : heap) (X : list vec) (p : nat) (losses : list loss) (c : R) (soff off : option vec) (qd : option iq) (weights : option ref) : heap * res mglm :=
  (h, Err NameError).

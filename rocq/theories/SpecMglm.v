(** Multinomial regression and stacked losses. Matrices are stored row by row. *)
From Coq Require Import Reals List.
From Verif Require Import Vec Spec SpecBlock M_quad M_buffer M_loss SpecLoss M_mglm.
Import ListNotations.
Local Open Scope R_scope.

Definition entry (q : nat) (x : vec) (i j : nat) : R := nth (i * q + j) x 0.
(** Probabilities of the categories from their linear predictors *)
Definition softmax (e : vec) : vec := map (fun a => exp a / vsum (map exp e)) e.
(** - log likelihood of independent multinomial counts (one row of counts and one row of predictors for each case), with case weights *)
Definition neg_log_lik (counts : list vec) (cw : vec) (eta : list vec) : R :=
  - sum_over (length counts) (fun i => nth i cw 0 * dot (nth i counts []) (map ln (softmax (nth i eta [])))).
(** The predictors of all categories: in the baseline parametrization the last category has predictor 0 *)
Definition all_predictors (base : bool) (eta : list vec) : list vec := map (fun e => if base then e ++ [0] else e) eta.
Definition multi_fits (base : bool) (n q : nat) (counts : list vec) (off : option vec) (cw : vec) : Prop :=
  length counts = n /\ Forall (fun ct => length ct = if base then S q else q) counts /\ off_fits (n * q) off /\ length cw = n /\ (base = true \/ (0 < q)%nat).
(** Where np.clip changes nothing *)
Definition within (b : R) (x : vec) : Prop := Forall (fun a => - b <= a <= b) x.
Definition inside (b : R) (x : vec) : Prop := Forall (fun a => - b < a < b) x.
Definition counts_ok (counts : list vec) : Prop := Forall nonneg counts.
(** Twice the deviance: observed proportions against fitted probabilities. *)
Definition proportions (ct : vec) : vec := map (fun a => a / vsum ct) ct.
(** Matrix product of an n x p matrix (its rows) and a p x q matrix *)
Definition mat_times (X : list vec) (p q : nat) (B : vec) : list vec :=
  map (fun r => map (fun j => sum_over p (fun k => nth k r 0 * entry q B k j)) (seq 0 q)) X.
(** The columns of a matrix with q columns *)
Definition col (n q j : nat) (x : vec) : vec := map (fun i => entry q x i j) (seq 0 n).
(** Stacked losses: loss j of the list applied to column j, or to piece j, of the predictor *)
Definition stack_value (n : nat) (losses : list loss) (c : R) (cw z : vec) : R :=
  c * vsum (map (fun p => loss_func (l_fam (snd p)) (l_coef (snd p)) (l_offset (snd p)) cw (col n (length losses) (fst p) z)) (combine (seq 0 (length losses)) losses)).
Definition is_stack_grad (n : nat) (losses : list loss) (c : R) (cw z g : vec) : Prop :=
  length g = (n * length losses)%nat /\
  forall j l, nth_error losses j = Some l -> col n (length losses) j g = vscal c (loss_grad (l_fam l) (l_coef l) (l_offset l) cw (col n (length losses) j z)).
(** no entry of any column is on a seam of the loss of that column *)
Definition stack_regular (n : nat) (losses : list loss) (z : vec) : Prop :=
  forall j l, nth_error losses j = Some l -> regular (l_fam l) (predictor (l_fam l) (l_offset l) (col n (length losses) j z)).
(** consecutive pieces of the given sizes *)
Fixpoint pieces (sizes : list nat) (x : vec) : list vec := match sizes with [] => [] | k :: r => firstn k x :: pieces r (skipn k x) end.
Definition chain_value (losses : list loss) (c : R) (W : loss -> vec) (z : vec) : R :=
  c * vsum (map (fun p => loss_func (l_fam (fst p)) (l_coef (fst p)) (l_offset (fst p)) (W (fst p)) (snd p)) (combine losses (pieces (map l_shape losses) z))).
Definition chain_grad (losses : list loss) (c : R) (W : loss -> vec) (z : vec) : vec :=
  vscal c (concat (map (fun p => loss_grad (l_fam (fst p)) (l_coef (fst p)) (l_offset (fst p)) (W (fst p)) (snd p)) (combine losses (pieces (map l_shape losses) z)))).
Definition chain_regular (losses : list loss) (z : vec) : Prop :=
  Forall (fun p => regular (l_fam (fst p)) (predictor (l_fam (fst p)) (l_offset (fst p)) (snd p))) (combine losses (pieces (map l_shape losses) z)).
(** Losses with weights W of their own, each multiplied into the weights that the next ones see *)
Fixpoint compound (n k : nat) (W : loss -> vec) (j : nat) (losses : list loss) (cw z : vec) : R :=
  match losses with
  | [] => 0
  | l :: r => loss_func (l_fam l) (l_coef l) (l_offset l) (vmul cw (W l)) (col n k j z) + compound n k W (S j) r (vmul cw (W l)) z
  end.
(** What a stack should be: every loss with its own weights *)
Definition stack_own (n : nat) (losses : list loss) (c : R) (W : loss -> vec) (z : vec) : R :=
  c * vsum (map (fun p => loss_func (l_fam (snd p)) (l_coef (snd p)) (l_offset (snd p)) (W (snd p)) (col n (length losses) (fst p) z)) (combine (seq 0 (length losses)) losses)).

(** ** Objects in good order *)
(** a loss of n cases without weights of its own *)
Definition free_loss (n : nat) (l : loss) : Prop := l_cw l = None /\ fits (l_fam l) n /\ off_fits n (l_offset l).
(** one of the modes 'func', 'grad', 'both' *)
Definition is_eval (m : smode_arg) : Prop := match m with EvOther => False | _ => True end.
(** A stack of such losses; its arrays (the gradient buffer, the weights) are different arrays of the right length *)
Definition stack_ok (h : heap) (s : stacked) (n : nat) : Prop :=
  s_losses s <> [] /\ Forall (fun l => l_shape l = n) (s_losses s) /\ Forall (free_loss n) (s_losses s) /\ off_fits (n * s_cols s) (s_offset s) /\
  (s_buf s < length h)%nat /\ length (read h (s_buf s)) = (n * s_cols s)%nat /\ (forall w, s_cw s = Some w -> (w < length h)%nat /\ w <> s_buf s /\ length (read h w) = n).
Definition stack_weights (h : heap) (s : stacked) (n : nat) : vec := match s_cw s with Some w => read h w | None => ones n end.
(** the array of weights passed in *)
Definition arg_ok (h : heap) (s : stacked) (n : nat) (arg : option ref) : Prop := forall r, arg = Some r -> (r < length h)%nat /\ r <> s_buf s /\ length (read h r) = n.
Definition arg_weights (h : heap) (n : nat) (arg : option ref) : vec := match arg with Some r => read h r | None => ones n end.
(** evaluating a stack again and again without passing weights *)
Definition srun (s : stacked) (h : heap) (ops : list (vec * smode_arg)) : heap := fold_left (fun h o => fst (stacked_eval h s None (fst o) (snd o))) ops h.
(** what the constructor of a stack checks *)
Definition stack_sane (h : heap) (s : stacked) (n : nat) : Prop := 0 <= s_coef s /\ (match s_offset s with Some v => all_zero v = false | None => True end) /\ nonneg (stack_weights h s n).
(** Losses one after the other: each made by its constructor, the gradient buffer not among their weights *)
Definition total_size (losses : list loss) : nat := fold_right Nat.add 0%nat (map l_shape losses).
Definition chain_ok (h : heap) (s : stacked) : Prop :=
  (forall l, In l (s_losses s) -> made h l /\ (forall w, l_cw l = Some w -> w <> s_buf s)) /\ off_fits (total_size (s_losses s)) (s_offset s) /\ (s_buf s < length h)%nat /\ length (read h (s_buf s)) = total_size (s_losses s).
(** the array of weights passed in is not one of the arrays of the object *)
Definition arg_free (h : heap) (s : stacked) (arg : option ref) : Prop := forall r, arg = Some r -> (r < length h)%nat /\ r <> s_buf s /\ forall l, In l (s_losses s) -> l_cw l <> Some r.
(** A multiresponse model: an n x p design, a saturated loss of n rows, n weights *)
Definition mglm_shapes (h : heap) (g : mglm) : Prop := let q := sat_cols (mg_sat g) in
  Forall (fun r => length r = mg_p g) (mg_X g) /\ sat_rows (mg_sat g) = length (mg_X g) /\ off_fits (mg_p g * q) (mg_offset g) /\ (mg_cw g < length h)%nat /\ length (read h (mg_cw g)) = length (mg_X g).
(** its linear predictor X (B - offset) *)
Definition mglm_pred (g : mglm) (B : vec) : vec := concat (mat_times (mg_X g) (mg_p g) (sat_cols (mg_sat g)) (minus B (mg_offset g))).
(** what is returned, by mode *)
Definition both (m : smode_arg) (f : R) (u : vec) : sval := match m with EvFunc => VFunc f | EvGrad => VGrad u | _ => VBoth f u end.
(** evaluating a multiresponse model again and again *)
Definition mrun (g : mglm) (h : heap) (ops : list (vec * smode_arg)) : heap := fold_left (fun h o => fst (mglm_eval h g (fst o) (snd o))) ops h.

(** Model of the class methods of glm in regreg/smooth/glm.py (gaussian, logistic, cloglog, poisson, huber, huber_svm), of its data attribute, of
    the class methods of stacked_loglike in the same file and of stacked_common_loglike in regreg/smooth/mglm.py, and of the functions stacked_*
    of regreg/paths/sparse_group_block.py. Arrays are arrays of the right shape; arithmetic is real. *)
From Coq Require Import Reals ZArith List Arith Bool String.
From Verif Require Import Vec Spec M_quad M_buffer M_affine M_loss M_probit M_mglm.
Import ListNotations.
Local Open Scope R_scope.

(** ** The class methods of glm. What is passed as response, successes (with trials or None), counts. *)
Inductive dataspec :=
| DGaussian (response : vec)
| DLogistic (successes : vec) (trials : option vec)
| DCloglog (successes : vec) (trials : option vec)
| DPoisson (counts : vec)
| DHuber (response : vec) (smoothing : R)
| DHuberSvm (successes : vec) (smoothing : R).
(** self.data = (successes, trials) in the constructors of the binary losses, regreg/smooth/binary.py:35, 533 *)
Definition binary_data (s : vec) (t : option vec) : res (vec * vec) :=
  match set_data None s t with
  | (s', Some t', Ok _) => Ok (s', t')
  | (_, None, Ok _) => Err AttributeError
  | (_, _, Err e) => Err e
  end.
Definition data_family (D : dataspec) : res family :=
  match D with
  | DGaussian y => Ok (Gaussian y)
  | DLogistic s t => rmap (fun p => Logistic (fst p) (snd p)) (binary_data s t)
  | DCloglog s t => rmap (fun p => Cloglog (fst p) (snd p)) (binary_data s t)
  | DPoisson n => Ok (Poisson n)
  | DHuber y eps => Ok (Huber y eps)
  | DHuberSvm s eps => Ok (HuberSvm s eps)
  end.
(** loss.data = y, or (y, trials). set_data, regreg/smooth/binary.py:189-213, 675-700, 875-876, regreg/smooth/glm.py:966-967, 1161-1162,
    1337-1338: only the binary losses look at what they are given. A pair for another loss is outside the model: trials is not used there. *)
Definition with_family (l : loss) (k : family) : loss := mk_loss k (l_shape l) (l_coef l) (l_offset l) (l_quad l) (l_cw l).
Definition assign_loss (l : loss) (y : vec) (trials : option vec) : loss * res unit :=
  match l_fam l with
  | Gaussian _ => (with_family l (Gaussian y), Ok tt)
  | Poisson _ => (with_family l (Poisson y), Ok tt)
  | Huber _ eps => (with_family l (Huber y eps), Ok tt)
  | HuberSvm _ eps => (with_family l (HuberSvm y eps), Ok tt)
  | Logistic _ t => match set_data (Some t) y trials with (s', t', r) => (with_family l (Logistic s' (match t' with Some u => u | None => t end)), r) end
  | Cloglog _ t => match set_data (Some t) y trials with (s', t', r) => (with_family l (Cloglog s' (match t' with Some u => u | None => t end)), r) end
  end.
(** what the class methods pass on as Y: the response, or (successes, loss.trials) *)
Definition passed (k : family) : vec * option vec :=
  match k with
  | Gaussian y | Poisson y | Huber y _ | HuberSvm y _ => (y, None)
  | Logistic s t | Cloglog s t => (s, Some t)
  end.
(** glm.gaussian regreg/smooth/glm.py:296-358, logistic 360-427, cloglog 498-565, poisson 567-626, huber 628-695, huber_svm 697-764; __init__ 74-94
    assigns the data to the loss once more. saturated_offset goes to the loss, offset and quadratic to the glm. *)
Definition glm_make (h : heap) (X : transform) (D : dataspec) (c : R) (soff off : option vec) (q : option iq) (weights : option ref) : heap * res glm :=
  match rbind (data_family D) (fun k => new_loss h k (cases k) c soff None None) with
  | Err e => (h, Err e)
  | Ok l =>
      match assign_loss l (fst (passed (l_fam l))) (snd (passed (l_fam l))) with
      | (_, Err e) => (h, Err e)
      | (l', Ok _) => new_glm h l' X off q weights
      end
  end.
(** logistic_loss, regreg/smooth/glm.py:1986-2005 *)
Definition logistic_loss (h : heap) (X : transform) (Y : vec) (trials : option vec) (c : R) : heap * res glm :=
  glm_make h X (DLogistic Y trials) c None None None None.

(** ** The data attribute of a glm. [d_glm]: the object, whose affine_atom, made in __init__ (regreg/smooth/glm.py:76), smooth_objective uses;
    [d_X]: the attributes _X and _transform, which linear_predictor, hessian and copy use. The design is an array. *)
Record dglm := mk_dglm { d_glm : glm; d_X : transform }.
Definition with_loss (g : glm) (l : loss) : glm := mk_glm l (g_map g) (g_adj g) (g_cols g) (g_offset g) (g_quad g) (g_cw g).
(** a glm as its constructor leaves it, 74-76 *)
Definition fresh (X : transform) (g : glm) : dglm := mk_dglm g X.
(** set_data, regreg/smooth/glm.py:140-145: the design is replaced first *)
Definition glm_assign (g : dglm) (X2 : transform) (y : vec) (trials : option vec) : dglm * res unit :=
  let '(l, r) := assign_loss (g_loss (d_glm g)) y trials in (mk_dglm (with_loss (d_glm g) l) X2, r).
(** linear_predictor 149-166 *)
Definition d_predictor (g : dglm) (beta : vec) : vec := t_lin (d_X g) beta.
(** smooth_objective 96-135 *)
Definition d_eval (h : heap) (g : dglm) (beta : vec) (m : smode_arg) : heap * res sval := glm_eval h (d_glm g) beta m.
(** hessian 208-247, applied to a vector d *)
Definition d_hess (h : heap) (g : dglm) (beta d : vec) : heap * res vec :=
  let '(h1, w) := hess_eval h (g_loss (d_glm g)) (Some (g_cw (d_glm g))) (d_predictor g beta) in
  (h1, rbind w (fun w => Ok (t_adj (d_X g) (vmul w (t_lin (d_X g) d))))).
(** __copy__ 252-261: a new glm of the attributes _X and saturated_loss.data *)
Definition d_copy (h : heap) (g : dglm) : heap * res dglm :=
  let '(h1, r) := copy_loss h (g_loss (d_glm g)) in
  match r with
  | Err e => (h1, Err e)
  | Ok l =>
      match assign_loss l (fst (passed (l_fam (g_loss (d_glm g))))) None with
      | (_, Err e) => (h1, Err e)
      | (l', Ok _) =>
          let '(h2, g2) := new_glm (h1 ++ [read h1 (g_cw (d_glm g))]) l' (d_X g) (g_offset (d_glm g)) (Some (g_quad (d_glm g))) (Some (List.length h1)) in
          (h2, rmap (fresh (d_X g)) g2)
      end
  end.
(** A history of assignments glm.data = (X, y), whose exceptions are caught *)
Definition assignments (g : dglm) (hist : list (transform * vec * option vec)) : dglm :=
  fold_left (fun g o => fst (glm_assign g (fst (fst o)) (snd (fst o)) (snd o))) hist g.

(** ** Stacked losses *)
Fixpoint collect {A} (l : list (res A)) : res (list A) :=
  match l with [] => Ok [] | r :: rest => rbind r (fun a => rmap (cons a) (collect rest)) end.
(** stacked_loglike.gaussian, regreg/smooth/glm.py:1595-1604; coef goes to the losses and not to the stack *)
Definition gaussian_losses (h : heap) (Ys : list vec) (c : R) : res (list loss) :=
  collect (map (fun y => new_loss h (Gaussian y) (List.length y) c None None None) Ys).
Definition chain_gaussian (h : heap) (Ys : list vec) (c : R) (off : option vec) (q : option iq) (weights : option ref) : heap * res stacked :=
  match gaussian_losses h Ys c with Err e => (h, Err e) | Ok ls => new_chain h ls 1 off q weights end.
(** stacked_common_loglike.gaussian, regreg/smooth/mglm.py:465-474 *)
Definition stack_gaussian (h : heap) (Ys : list vec) (c : R) (off : option vec) (q : option iq) (weights : option ref) : heap * res stacked :=
  match gaussian_losses h Ys c with Err e => (h, Err e) | Ok ls => new_stacked h ls 1 off q weights end.
(** stacked_loglike.huber, regreg/smooth/glm.py:1861-1871, and huber_svm 1916-1926: coef is not passed on *)
Definition chain_huber (svm : bool) (h : heap) (Ys : list vec) (eps c : R) (off : option vec) (q : option iq) (weights : option ref) : heap * res stacked :=
  match collect (map (fun y => new_loss h (if svm then HuberSvm y eps else Huber y eps) (List.length y) 1 None None None) Ys) with
  | Err e => (h, Err e)
  | Ok ls => new_chain h ls 1 off q weights
  end.
(** stacked_common_loglike.huber_svm, regreg/smooth/mglm.py:678-688; huber 580-633 uses the name responses, its argument is called response *)
Definition stack_huber_svm (h : heap) (Ys : list vec) (eps c : R) (off : option vec) (q : option iq) (weights : option ref) : heap * res stacked :=
  match collect (map (fun y => new_loss h (HuberSvm y eps) (List.length y) 1 None None None) Ys) with
  | Err e => (h, Err e)
  | Ok ls => new_stacked h ls 1 off q weights
  end.
(** ** logistic, probit and cloglog of stacked_loglike, regreg/smooth/glm.py:1649-1652, 1703-1706, 1757-1760, and logistic of stacked_common_loglike,
    regreg/smooth/mglm.py:519-522: logistic_loglike(successes[i], trials[i], coef=coef), where the arguments of the constructor are shape,
    successes, trials. Arrays of floats, or of integers. *)
Inductive narray := Floats (v : vec) | Ints (z : list Z).
(** np.zeros(shape) for an array as shape: floats raise TypeError, negative sizes and more than 32 dimensions ValueError. Exhausted memory is outside the model. *)
Definition zeros_shape (a : narray) : res (list Z) :=
  match a with
  | Floats [] => Ok []
  | Floats _ => Err TypeError
  | Ints z => if Nat.ltb 32 (List.length z) then Err ValueError else if existsb (fun k => Z.ltb k 0) z then Err ValueError else Ok z
  end.
(** the constructor of the loss, called in this way: its shape, and the successes it holds *)
Definition misread (c : R) (successes : narray) (trials : vec) : res (list Z * vec) :=
  rbind (zeros_shape successes) (fun z =>
  if Rlt_dec c 0 then Err ValueError else rmap (fun p => (z, fst p)) (binary_data trials None)).
(** the list comprehension; trials[i] for trials None raises TypeError *)
Definition binary_losses (c : R) (successes : list narray) (trials : option (list vec)) : res (list (list Z * vec)) :=
  collect (map (fun p => match trials with
                         | None => Err TypeError
                         | Some ts => match nth_error ts (fst p) with None => Err IndexError | Some t => misread c (snd p) t end
                         end) (combine (seq 0 (List.length successes)) successes)).
(** the rest of the constructor of stacked_loglike, 1407-1447, without case weights: l.shape[0] summed, the data of the losses. The stack's shape and data. *)
Definition first_dims (ls : list (list Z * vec)) : res (list Z) := collect (map (fun l => match fst l with [] => Err IndexError | k :: _ => Ok k end) ls).
Definition chain_binary (c : R) (successes : list narray) (trials : option (list vec)) : res (Z * list vec) :=
  rbind (binary_losses c successes trials) (fun ls => rbind (first_dims ls) (fun ks =>
  match ls with [] => Err ValueError | _ => Ok (fold_right Z.add 0%Z ks, map snd ls) end)).
(** the rest of the constructor of stacked_common_loglike, regreg/smooth/mglm.py:290-300, without case weights: losses[0].shape + (len(losses),) adds
    the number of losses to every entry when the shape is an array *)
Definition stack_binary (c : R) (successes : list narray) (trials : option (list vec)) : res (list Z * list vec) :=
  rbind (binary_losses c successes trials) (fun ls =>
  match ls with
  | [] => Err IndexError
  | (z, _) :: _ =>
      if forallb (fun l => if list_eq_dec Z.eq_dec (fst l) z then true else false) ls
      then Ok (map (fun k => (k + Z.of_nat (List.length ls))%Z) z, map snd ls) else Err AssertionError
  end).

(** ** How Python binds the arguments of a call: the parameters (those with a default are marked true) and the number of positional arguments *)
Definition signature := list (string * bool).
Definition binds (s : signature) (positional : nat) : bool := Nat.leb positional (List.length s) && forallb snd (skipn positional s).
Local Open Scope string_scope.
(** the class methods of stacked_loglike, without klass: regreg/smooth/glm.py:1557-1564, 1607-1615 (probit, cloglog alike), 1768-1775, 1818-1827, 1873-1882, 1927-1936 *)
Definition rest_args : signature := [("case_weights", true); ("coef", true); ("offset", true); ("quadratic", true); ("initial", true)].
Inductive stacked_kind := KGaussian | KCox | KLogistic | KProbit | KCloglog | KPoisson | KHuber | KHuberSvm.
Definition stacked_signature (k : stacked_kind) : signature :=
  match k with
  | KGaussian => ("responses", false) :: rest_args
  | KLogistic | KProbit | KCloglog => ("successes", false) :: ("trials", true) :: rest_args
  | KPoisson => ("counts", false) :: rest_args
  | KHuber => ("X", false) :: ("responses", false) :: ("smoothing_parameter", false) :: rest_args
  | KHuberSvm => ("X", false) :: ("successes", false) :: ("smoothing_parameter", false) :: rest_args
  | KCox => ("X", false) :: ("event_times", false) :: ("censoring", false) :: ("coef", true) :: ("offset", true) :: ("quadratic", true) :: ("initial", true) :: ("case_weights", true) :: []
  end.
(** the number of arguments that regreg/paths/sparse_group_block.py:420-452 passes: stacked_gaussian, stacked_logistic, ... pass Ys, stacked_cox passes Ts and Cs,
    stacked_huber and stacked_huber_svm pass Ys and smoothing_parameter *)
Definition block_arguments (k : stacked_kind) : nat := match k with KCox | KHuber | KHuberSvm => 2 | _ => 1 end.
(** The loss that stacked_<kind>(Xs, Ys, ...) builds first, 420-452. [Ys]: the response vectors (times and censoring, for KCox, do not get anywhere).
    poisson, regreg/smooth/glm.py:1807-1810, reads the name successes, which is not one of its arguments. *)
Inductive block_loss := Stack_of (s : stacked) | Binary_of (shape : Z) (data : list vec).
Definition block_factory (h : heap) (k : stacked_kind) (Ys : list vec) : heap * res block_loss :=
  if negb (binds (stacked_signature k) (block_arguments k)) then (h, Err TypeError) else
  match k with
  | KGaussian => let '(h1, r) := chain_gaussian h Ys 1 None None None in (h1, rmap Stack_of r)
  | KLogistic | KProbit | KCloglog => (h, rmap (fun p => Binary_of (fst p) (snd p)) (chain_binary 1 (map Floats Ys) None))
  | KPoisson => (h, Err NameError)
  | KHuber | KHuberSvm | KCox => (h, Err TypeError)
  end.

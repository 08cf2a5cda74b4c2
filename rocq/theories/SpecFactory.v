(** What the class methods that build models are documented to do. *)
From Coq Require Import Reals ZArith List.
From Verif Require Import Vec Spec M_quad M_buffer M_affine M_loss SpecLoss M_mglm SpecMglm M_factory.
Import ListNotations.
Local Open Scope R_scope.

(** The data of the model: without trials, one trial for each case. *)
Definition doc_family (D : dataspec) : family :=
  match D with
  | DGaussian y => Gaussian y
  | DLogistic s t => Logistic s (match t with Some t => t | None => ones (length s) end)
  | DCloglog s t => Cloglog s (match t with Some t => t | None => ones (length s) end)
  | DPoisson n => Poisson n
  | DHuber y eps => Huber y eps
  | DHuberSvm s eps => HuberSvm s eps
  end.
(** data for n cases *)
Definition data_fits (D : dataspec) (n : nat) : Prop := fits (doc_family D) n.
(** successes between zero and the number of trials, or zeros and ones; counts whole and not negative *)
Definition legal_spec (D : dataspec) : Prop :=
  match D with
  | DLogistic s None | DCloglog s None => Forall (fun a => a = 0 \/ a = 1) s
  | _ => legal_data (doc_family D)
  end.
(** the weights in force *)
Definition weights_of (h : heap) (n : nat) (w : option ref) : vec := match w with Some r => read h r | None => ones n end.
(** the linear predictor of the case i, x_i'(b - offset) - saturated_offset_i (the complementary log-log loss has no saturated offset) *)
Definition eta (X : transform) (k : family) (soff off : option vec) (b : vec) : vec := predictor k soff (t_lin X (minus b off)).
(** The same kind of loss *)
Definition same_kind (D1 D2 : dataspec) : Prop :=
  match D1, D2 with
  | DGaussian _, DGaussian _ | DLogistic _ _, DLogistic _ _ | DCloglog _ _, DCloglog _ _ | DPoisson _, DPoisson _ => True
  | DHuber _ e, DHuber _ e' | DHuberSvm _ e, DHuberSvm _ e' => e = e'
  | _, _ => False
  end.
(** what is assigned to the attribute data to give a model the data D; trials are named *)
Definition assigned (D : dataspec) : vec * option vec :=
  match D with DGaussian y | DPoisson y | DHuber y _ | DHuberSvm y _ => (y, None) | DLogistic s t | DCloglog s t => (s, t) end.
Definition names_trials (D : dataspec) : Prop := match D with DLogistic _ None | DCloglog _ None => False | _ => True end.
(** ** Stacked losses *)
(** 1/2 |x - y|^2 summed over the responses, one after the other *)
Definition squares (c : R) (Ys : list vec) (z : vec) : R := c / 2 * sqn (vsub z (concat Ys)).
(** The sum of the losses of the responses, one after the other, each of coefficient c *)
Definition pieces_loss (K : vec -> family) (c : R) (Ys : list vec) (z : vec) : R :=
  vsum (map (fun p => doc_loss (K (fst p)) (length (fst p)) c (ones (length (fst p))) (snd p)) (combine Ys (pieces (map (@length R) Ys) z))).
(** The sum of the losses of the columns of z, with weights w, each of coefficient c *)
Definition columns_loss (K : vec -> family) (n : nat) (c : R) (w : vec) (Ys : list vec) (z : vec) : R :=
  vsum (map (fun p => doc_loss (K (snd p)) n c w (col n (length Ys) (fst p) z)) (combine (seq 0 (length Ys)) Ys)).
(** Arrays of the same shape (as far as np.zeros can tell): integers, or none *)
Definition integer_array (a : narray) : Prop := match a with Floats v => v = [] | Ints _ => True end.
(** the design with one case and one feature *)
Definition one_by_one (a : R) : transform := matrix [[a]] 1 None.

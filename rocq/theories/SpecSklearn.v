(** What the estimators of regreg.sklearn are documented to do. *)
From Coq Require Import Reals List Arith.
From Verif Require Import M_affine M_loss M_buffer Vec Spec M_quad M_mode SpecLoss M_sklearn.
Import ListNotations.
Local Open Scope R_scope.

Definition opt {A} (o : option A) : list A := match o with Some a => [a] | None => [] end.
Definition given {A} (o : option A) : bool := match o with Some _ => true | None => false end.
(** y is an array with n rows whose columns are the responses, then the case weights if there are any, then the offset if there is one. *)
Definition laid_out (h : heap) (cw off : bool) (n : nat) (responses : list vec) (w o : option vec) (y : yarg) : Prop :=
  exists rs rw ro, y = Y2 n (rs ++ opt rw ++ opt ro) /\ responses = map (read h) rs /\ w = option_map (read h) rw /\ o = option_map (read h) ro /\
    cw = given rw /\ off = given ro /\ Forall (fun r => (r < length h)%nat /\ length (read h r) = n) (rs ++ opt rw ++ opt ro) /\ NoDup (rs ++ opt rw ++ opt ro).
(** y as the notes of the constructors describe it: a one-dimensional response, or columns *)
Definition described (h : heap) (cw off : bool) (n : nat) (responses : list vec) (w o : option vec) (y : yarg) : Prop :=
  (cw = false /\ off = false /\ w = None /\ o = None /\ exists r, y = Y1 r /\ (r < length h)%nat /\ length (read h r) = n /\ responses = [read h r]) \/
  (laid_out h cw off n responses w o y /\ responses <> [] /\ (cw = true \/ off = true \/ (2 <= length responses)%nat)).
(** The data of the loss: one response; for binomial data successes, or successes and trials. *)
Definition doc_data (e : efam) (n : nat) (responses : list vec) : option family :=
  match e, responses with
  | EGaussian, [y] => Some (Gaussian y)
  | EHuber s, [y] => Some (Huber y s)
  | EHuberSvm s, [y] => Some (HuberSvm y s)
  | ELogistic, [s] => Some (Logistic s (ones n))
  | ECloglog, [s] => Some (Cloglog s (ones n))
  | ELogistic, [s; t] => Some (Logistic s t)
  | ECloglog, [s; t] => Some (Cloglog s t)
  | _, _ => None
  end.
Definition legal_response (e : efam) (responses : list vec) : Prop :=
  match e, responses with
  | EHuber s, _ | EHuberSvm s, _ => 0 < s
  | ELogistic, [s] | ECloglog, [s] => Forall (fun a => a = 0 \/ a = 1) s
  | ELogistic, [s; t] | ECloglog, [s; t] => Forall2 (fun a b => 0 <= a <= b) s t
  | _, _ => True
  end.
(** y holds, for n cases, the data k, the case weights w and the offset o *)
Definition holds (h : heap) (e : est) (n : nat) (y : yarg) (k : family) (w o : option vec) : Prop :=
  exists responses, described h (e_cw e) (e_off e) n responses w o y /\ doc_data (e_fam e) n responses = Some k /\ legal_response (e_fam e) responses /\
    forall v, w = Some v -> Forall (fun a => 0 <= a) v.
Definition weights (n : nat) (w : option vec) : vec := match w with Some w => w | None => ones n end.
(** X has n rows and p columns. *)
Definition design (n p : nat) (X : list vec) : Prop := length X = n /\ Forall (fun r => length r = p) X.
(** The families whose code computes the documented loss everywhere *)
Definition exact_family (k : family) : Prop := match k with Gaussian _ | Huber _ _ => True | HuberSvm _ s => s = 1 | _ => False end.
(** the coefficients a fitted estimator holds *)
Definition has_coefs (e : est) (b : vec) : Prop := e_coefs e = Some b.
(** the case weights after scoring with sample weights *)
Definition reweighted (w s : option vec) : option vec := match w, s with Some w, Some s => Some (vmul w s) | _, _ => w end.
(** sample weights for n cases *)
Definition legal_sample (n : nat) (s : option vec) : Prop := forall v, s = Some v -> length v = n /\ Forall (fun a => 0 <= a) v.
(** w times s, k times over *)
Definition times_power (w s : vec) (k : nat) : vec := vzip (fun a b => a * b ^ k) w s.
(** Scoring the same data again and again, each time with the same sample weights *)
Fixpoint score_times (k : nat) (h : heap) (e : est) (X : list vec) (y : yarg) (s : vec) : heap :=
  match k with O => h | S k => fst (score (score_times k h e X y s) e X y (Some s)) end.
(** the deviance is twice the negative log-likelihood; for the two Huber losses it is the loss itself *)
Definition deviance_scale (e : efam) : R := match e with EHuber _ | EHuberSvm _ => 1 | _ => 2 end.
(** number of cases for which P holds *)
Definition how_many (n : nat) (P : nat -> bool) : R := INR (length (filter P (seq 0 n))).
(** the ordinary fraction of variance explained *)
Definition average (y : vec) : R := vsum y / INR (length y).
Definition sum_of_squares (y u : vec) : R := sum_over (length y) (fun i => (nth i u 0 - nth i y 0) * (nth i u 0 - nth i y 0)).
(** y holds, for n cases, one response v, the case weights w and the offset o *)
Definition observes (h : heap) (e : est) (n : nat) (y : yarg) (v : vec) (w o : option vec) : Prop :=
  described h (e_cw e) (e_off e) n [v] w o y /\ legal_response (e_fam e) [v] /\ forall u, w = Some u -> Forall (fun a => 0 <= a) u.

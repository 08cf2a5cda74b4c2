(** Specification vocabulary used in the theorem statements.
    Nothing here refers to the model of the code. *)
From Coq Require Import Reals List.
From Verif Require Import Vec.
Import ListNotations.
Local Open Scope R_scope.

(** Values of objectives: a real number or +infinity. *)
Inductive ext := Fin (r : R) | PInf.

Definition ext_add (a b : ext) : ext :=
  match a, b with Fin r, Fin s => Fin (r + s) | _, _ => PInf end.
Definition ext_le (a b : ext) : Prop :=
  match a, b with
  | Fin r, Fin s => r <= s
  | PInf, Fin _ => False
  | _, PInf => True
  end.
(** [scale lam e] is lam*e for lam >= 0, with the convention 0*inf = inf
    (a constraint is a constraint, whatever the multiplier). *)
Definition ext_scale (a : R) (e : ext) : ext :=
  match e with Fin r => Fin (a * r) | PInf => PInf end.

(** [x] is the one and only minimizer of [F] over R^n. *)
Definition is_argmin (n : nat) (F : vec -> ext) (x : vec) : Prop :=
  length x = n /\ (exists r, F x = Fin r) /\
  forall v, length v = n -> ext_le (F x) (F v).
Definition is_unique_argmin (n : nat) (F : vec -> ext) (x : vec) : Prop :=
  is_argmin n F x /\ forall v, length v = n -> ext_le (F v) (F x) -> v = x.

(** [p] is the Euclidean projection of [c] onto the set [S] of vectors of length n. *)
Definition is_proj (n : nat) (S : vec -> Prop) (c p : vec) : Prop :=
  length p = n /\ S p /\
  forall v, length v = n -> S v -> sqn (vsub c p) <= sqn (vsub c v) /\
     (sqn (vsub c v) = sqn (vsub c p) -> v = p).

(** The objective of a proximal problem:  L/2 ||c - v||^2 + g(v). *)
Definition prox_objective (L : R) (c : vec) (g : vec -> ext) (v : vec) : ext :=
  ext_add (Fin (L / 2 * sqn (vsub c v))) (g v).

(** [s] is the value at [u] of the Fenchel conjugate of [F]:
    the supremum over R^n of <u,x> - F(x). *)
Definition is_fenchel (n : nat) (F : vec -> ext) (u : vec) (s : ext) : Prop :=
  match s with
  | Fin v =>
      (forall x r, length x = n -> F x = Fin r -> dot u x - r <= v) /\
      (forall e, 0 < e -> exists x r, length x = n /\ F x = Fin r /\ v - e < dot u x - r)
  | PInf =>
      forall M, exists x r, length x = n /\ F x = Fin r /\ M < dot u x - r
  end.

(** Gradient, first order: value of [f] is differentiable along every line
    through [x] with directional derivative <g, d>. *)
Definition is_gradient (n : nat) (f : vec -> R) (x g : vec) : Prop :=
  length g = n /\
  forall d, length d = n ->
    derivable_pt_lim (fun t => f (vadd x (vscal t d))) 0 (dot g d).

(** Textbook norms and seminorms. *)
Definition ell1 (x : vec) : R := vsum (map Rabs x).
Definition ell2 (x : vec) : R := sqrt (vsum (map (fun a => a * a) x)).
(** [max_list d x] is the largest of [d] and the entries of [x]. *)
Fixpoint max_list (d : R) (x : vec) : R :=
  match x with [] => d | a :: x' => Rmax a (max_list d x') end.
Definition ellinf (x : vec) : R := max_list 0 (map Rabs x).
Definition pos (a : R) : R := Rmax a 0.
Definition sum_pos (x : vec) : R := vsum (map pos x).
Definition max_pos (x : vec) : R := max_list 0 x.
Definition all_nonneg (x : vec) : Prop := Forall (fun a => 0 <= a) x.

(** Indicator: 0 on the set, +infinity off it. *)
Definition is_indicator (S : vec -> Prop) (g : vec -> ext) : Prop :=
  forall v, (S v -> g v = Fin 0) /\ (~ S v -> g v = PInf).
(** [restricted f S g]: g equals f on S and +infinity off S. *)
Definition restricted (f : vec -> R) (S : vec -> Prop) (g : vec -> ext) : Prop :=
  forall v, (S v -> g v = Fin (f v)) /\ (~ S v -> g v = PInf).

(** Results of Python calls: a value or a raised exception. *)
Inductive exn := ValueError | IndexError | AttributeError | TypeError | NameError
  | ZeroDivisionError | NotImplementedError | NaNResult | OutOfFuel | AssertionError.
Inductive res (A : Type) := Ok (a : A) | Err (e : exn).
Arguments Ok {A} _.
Arguments Err {A} _.
Definition rbind {A B} (r : res A) (f : A -> res B) : res B :=
  match r with Ok a => f a | Err e => Err e end.
Definition rmap {A B} (f : A -> B) (r : res A) : res B :=
  match r with Ok a => Ok (f a) | Err e => Err e end.

(** The quadratic  L/2 ||x - mu||^2 + <eta, x> + gamma. *)
Definition quad_fun (L : R) (mu eta : vec) (gamma : R) (x : vec) : R :=
  L / 2 * sqn (vsub x mu) + dot eta x + gamma.

(** The seven seminorm classes of regreg/atoms/seminorms.py and the function each one
    documents (objective_template of the class). *)
Inductive snclass := CL1 | CSup | CL2 | CPosPart | CConMax | CConPosPart | CMaxPos.

Definition nonneg_dec (x : vec) : {all_nonneg x} + {~ all_nonneg x} :=
  Forall_dec (fun a => 0 <= a) (fun a => Rle_dec 0 a) x.

Definition doc_seminorm (c : snclass) (x : vec) : ext :=
  match c with
  | CL1 => Fin (ell1 x)
  | CSup => Fin (ellinf x)
  | CL2 => Fin (ell2 x)
  | CPosPart => Fin (sum_pos x)
  | CConMax => if nonneg_dec x then Fin (ellinf x) else PInf
  | CConPosPart => if nonneg_dec x then Fin (ell1 x) else PInf
  | CMaxPos => Fin (max_pos x)
  end.

(** The ball {h <= b}. *)
Definition in_ball (c : snclass) (b : R) (x : vec) : Prop := ext_le (doc_seminorm c x) (Fin b).

(** The two modes of a seminorm atom and the function it then documents:
    lam*h(v), or the indicator of {h <= b}. *)
Inductive smode := Lagrange (lam : R) | Bound (b : R).
Definition mode_fun (c : snclass) (m : smode) (v : vec) : ext :=
  match m with
  | Lagrange lam => ext_scale lam (doc_seminorm c v)
  | Bound b => match doc_seminorm c v with
               | Fin r => if Rle_dec r b then Fin 0 else PInf
               | PInf => PInf
               end
  end.
(** An atom shifted by [offset] plus a quadratic:  h(v - offset) + L/2||v-mu||^2 + <eta,v> + gamma. *)
Definition doc_objective (c : snclass) (m : smode) (offset : vec) (L : R) (mu eta : vec) (gamma : R) (v : vec) : ext :=
  ext_add (mode_fun c m (vsub v offset)) (Fin (quad_fun L mu eta gamma v)).

(** The standard normal distribution. *)
From Coq Require Import Reals.
Local Open Scope R_scope.

(** [cdf] is the distribution function with density [pdf], and [pdf] is proportional to exp(-x^2/2). These conditions determine both. *)
Record is_normal (cdf pdf : R -> R) : Prop := {
  nm_density : forall x, derivable_pt_lim cdf x (pdf x);
  nm_shape : forall x, pdf x = pdf 0 * exp (- (x * x / 2));
  nm_positive : 0 < pdf 0;
  nm_left : forall eps, 0 < eps -> exists M, forall x, x <= M -> Rabs (cdf x) < eps;
  nm_right : forall eps, 0 < eps -> exists M, forall x, M <= x -> Rabs (cdf x - 1) < eps }.

(** C76: differences over a two-dimensional lattice. *)
From Coq Require Import Reals List Lra Lia Arith.
From Verif Require Import Vec Spec M_quad M_image SpecImage P_image P_image2 P_image3.
Import ListNotations.
Local Open Scope R_scope.

(** The smaller matrix has one row for each edge of the lattice, the difference over it, and no other row. *)
Theorem C76_smaller : forall m n, (1 <= m)%nat -> (1 <= n)%nat -> exists T es, formD_smaller m n = Ok T /\ NoDup es /\ (forall e, In e es <-> lattice_edge m n e) /\
  let nrow := (2 * (m - 1) * (n - 1) + (m - 1) + (n - 1))%nat in length es = nrow /\ forall x, sp_mul nrow T x = map (edge_diff n x) es.
Proof. exact small_rows. Qed.
Print Assumptions C76_smaller.
(** The matrix of the transform has the same rows, and zero rows after them, one for each pixel of the last row and column but the corner. *)
Theorem C76_edges : forall m n, (1 <= m)%nat -> (1 <= n)%nat -> exists T es, formD m n = Ok T /\ NoDup es /\ (forall e, In e es <-> lattice_edge m n e) /\
  forall x, sp_mul (formD_rows m n) T x = map (edge_diff n x) es ++ zeros ((m - 1) + (n - 1)).
Proof. exact formD_values. Qed.
Print Assumptions C76_edges.
Example C76_instance : lattice_edge 2 3 ((0, 1)%nat, (1, 1)%nat) /\ lattice_edge 2 3 ((1, 1)%nat, (1, 2)%nat) /\ ~ lattice_edge 2 3 ((0, 2)%nat, (0, 3)%nat).
Proof. unfold lattice_edge, in_lattice. cbn. repeat split; auto; try lia. Qed.
(** Seen as pairs, the result of the transform holds at each pixel but the last the discrete gradient, up to signs: its squared length is that of the gradient. *)
Theorem C76_gradient : forall m n off, (1 <= m)%nat -> (1 <= n)%nat -> exists I vs, im_new m n off = Ok I /\ NoDup vs /\ length vs = (m * n - 1)%nat /\
  (forall v, In v vs <-> in_lattice m n v /\ v <> (m - 1, n - 1)%nat) /\
  forall x, length x = (m * n)%nat -> exists y, im_linear I x = Ok y /\ length y = (2 * (m * n - 1))%nat /\
    forall r, (r < m * n - 1)%nat -> nth (r * 2) y 0 * nth (r * 2) y 0 + nth (r * 2 + 1) y 0 * nth (r * 2 + 1) y 0 = grad2 m n x (nth r vs (0, 0)%nat).
Proof. exact im_gradient. Qed.
Print Assumptions C76_gradient.
(** The adjoint is the adjoint of the linear map, and the affine map adds the offset. *)
Theorem C76_adjoint : forall m n off I x u, (1 <= m)%nat -> (1 <= n)%nat -> im_new m n off = Ok I -> length x = (m * n)%nat -> length u = (2 * (m * n - 1))%nat ->
  exists y a, im_linear I x = Ok y /\ im_adjoint I u = Ok a /\ length y = length u /\ length a = (m * n)%nat /\ dot y u = dot x a /\
    (forall o, off = Some o -> length o = length u -> im_affine I x = Ok (vadd y o)) /\ (off = None -> im_affine I x = Ok y).
Proof. exact im_adjoint_spec. Qed.
Print Assumptions C76_adjoint.
Example C76_new_instance : exists I, im_new 2 3 (Some (zeros 10)) = Ok I /\ length (zeros 10) = (2 * (2 * 3 - 1))%nat.
Proof. destruct (im_values 2 3 (Some (zeros 10)) ltac:(lia) ltac:(lia)) as (I & E & _). exists I. auto. Qed.

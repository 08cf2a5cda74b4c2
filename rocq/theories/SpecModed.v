(** What an object with a mode, an offset and a quadratic stands for. *)
From Coq Require Import Reals List.
From Verif Require Import Vec Spec M_quad M_prox M_semi SpecAtom M_shift SpecBase SpecMode M_mode.
Import ListNotations.
Local Open Scope R_scope.

(** [a] is in mode [m] and has consistent shapes. *)
Definition moded_wf (n : nat) (a : moded) (m : smode) : Prop :=
  m_lagrange a = lag_of m /\ m_bound a = bnd_of m /\ mode_ok m /\ base_wf n (m_base a).
(** The documented function  h-in-mode-m (v - offset) + quadratic(v). *)
Definition moded_doc (n : nat) (h : vec -> ext) (a : moded) (m : smode) : vec -> ext :=
  base_doc n (gmode h m) (m_base a).

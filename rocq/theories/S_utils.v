(** Specification: broadcasting, axes, refractive index. *)
From Coq Require Import Reals ZArith.
From mathcomp Require Import all_ssreflect all_algebra.
From Verif Require Import CField Err LinAlg M_utils.
Set Implicit Arguments. Unset Strict Implicit. Unset Printing Implicit Defensive.
Local Open Scope ring_scope.

(** Size of a shape along the axis [i], counted from the last; missing axes have size 1. *)
Definition axis_size (s : seq nat) (i : nat) : nat := nth 1%N (rev s) i.
(** numpy's broadcasting rule: along each axis, sizes other than 1 agree. *)
Definition broadcastable (shapes : seq (seq nat)) := forall s t i, s \in shapes -> t \in shapes ->
  axis_size s i = 1%N \/ axis_size t i = 1%N \/ axis_size s i = axis_size t i.
(** An empty axis of one shape meets a singleton axis of another. *)
Definition empty_meets_singleton (shapes : seq (seq nat)) := exists s t i, 
  [/\ s \in shapes, t \in shapes, axis_size s i = 0%N & axis_size t i = 1%N].

(** [r] is the nonnegative number of axis [a] in an array with [ndim] axes; negative axes
    count from the end. *)
Definition axis_number (ndim : nat) (a r : Z) :=
  (0 <= r < Z.of_nat ndim)%coqZ /\ (r = a \/ r = a + Z.of_nat ndim)%coqZ.

(** [n] is the refractive index of permittivity [eps]: its root in the right half plane, or
    on the positive imaginary axis. *)
Definition right_half (n : C) := (0 < re n)%coqR \/ re n = 0%coqR /\ (0 <= im n)%coqR.
Definition refractive_index (eps n : C) := n * n = eps /\ right_half n.

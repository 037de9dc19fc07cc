(** Specification: fields on points of space. *)
From Coq Require Import Reals ZArith.
From mathcomp Require Import all_ssreflect all_algebra.
From Verif Require Import CField Err LinAlg M_utils M_basis M_fft M_fmm_matrices M_fmm M_scattering M_fields S_maxwell.
Set Implicit Arguments. Unset Strict Implicit. Unset Printing Implicit Defensive.
Import GRing.Theory.
Local Open Scope ring_scope.

Definition dot (a b : R * R) : R := (a.1 * b.1 + a.2 * b.2)%coqR.
Definition vadd (a b : R * R) : R * R := (a.1 + b.1, a.2 + b.2)%coqR.
(** The lattice point [a u + b v]. *)
Definition lattice_point (plv : lattice) (a b : Z) : R * R :=
  (IZR a * (lat_u plv).1 + IZR b * (lat_v plv).1, IZR a * (lat_u plv).2 + IZR b * (lat_v plv).2)%coqR.
(** [G] is the reciprocal lattice vector of order [(p, q)]. *)
Definition bragg (plv : lattice) (order : Z * Z) (G : R * R) :=
  dot G (lat_u plv) = (2 * PI * IZR order.1)%coqR /\ dot G (lat_v plv) = (2 * PI * IZR order.2)%coqR.
(** [sum_i f_i exp(i (k + G_i) . r)] for the amplitudes in column [j]. *)
Definition plane_waves n m (k : R * R) (G : 'I_n -> R * R) (f : 'M[C]_(n, m)) (r : R * R) (j : 'I_m) : C :=
  \sum_i f i j * cexp (Ci * RtoC (dot (vadd k (G i)) r)).
(** Multiplication of a field by a number. *)
Definition times P m (c : C) (h : xyfield P m) : xyfield P m := fun pt j => c * h pt j.

(** The height of sample [i] of [num] in a layer of thickness [t]: equally spaced from 0
    to [t] inclusive (a single sample is at 0). *)
Definition sample_height (t : R) (num i : nat) : R := (INR i * t / INR (num - 1))%coqR.
Definition rsum (s : seq R) : R := foldr Rplus 0%coqR s.
(** Samples in order of height. *)
Fixpoint ascending (s : seq R) : Prop :=
  match s with [::] => True | x :: s' => (forall y, List.In y s' -> (x <= y)%coqR) /\ ascending s' end.

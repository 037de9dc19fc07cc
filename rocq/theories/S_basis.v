(** Specification: lattices, reciprocal lattices and expansion orders. *)
From Coq Require Import Reals ZArith.
From mathcomp Require Import all_ssreflect all_algebra.
From Verif Require Import CField Err LinAlg M_utils M_basis M_fft M_fmm_matrices M_fmm M_scattering M_fields S_maxwell S_fields.
Set Implicit Arguments. Unset Strict Implicit. Unset Printing Implicit Defensive.

(** Integers with decidable equality. *)
Lemma Z_eqP : Equality.axiom Z.eqb.
Proof. by move=> x y; apply: (iffP idP) => [/Z.eqb_eq|/Z.eqb_eq]. Qed.
Definition Z_eqMixin := EqMixin Z_eqP.
Canonical Z_eqType := EqType Z Z_eqMixin.

Section Lattice.
Variable plv : lattice.
(** The unit cell has an area. *)
Definition cell_area : R := Rabs (cross_product (lat_u plv) (lat_v plv)).
Definition nondegenerate := cell_area <> 0%coqR.
Definition length2 (v : R * R) : R := dot v v.

(** The reciprocal lattice vector of order [o] ([bragg], S_fields.v) lies inside the circle
    whose area is that of [num] reciprocal unit cells. *)
Definition in_circle (num : Z) (o : Z * Z) :=
  exists G, bragg plv o G /\ (PI * length2 G < IZR num * ((2 * PI) ^ 2 / cell_area))%coqR.

(** Neither lattice vector is much longer than the other, for the number of terms. *)
Definition compact (num : Z) :=
  (length2 (lat_u plv) * IZR num <= PI * cell_area * (IZR (num / 2) + 1) ^ 2)%coqR /\
  (length2 (lat_v plv) * IZR num <= PI * cell_area * (IZR (num / 2) + 1) ^ 2)%coqR.

(** Orders listed by increasing length of their reciprocal lattice vectors. *)
Definition by_length (s : seq (Z * Z)) := forall i j G G', (i <= j < size s)%N ->
  bragg plv (nth (0, 0)%coqZ s i) G -> bragg plv (nth (0, 0)%coqZ s j) G' -> (length2 G <= length2 G')%coqR.

Definition negation_closed (s : seq (Z * Z)) := forall o, o \in s -> (- o.1, - o.2)%coqZ \in s.
End Lattice.

(** The wavevector at fractions [fi, fj] of the two reciprocal lattice vectors. *)
Definition at_fractions (plv : lattice) (fi fj : R) (k : R * R) :=
  dot k (lat_u plv) = (2 * PI * fi)%coqR /\ dot k (lat_v plv) = (2 * PI * fj)%coqR.
(** The centre of cell [i] of [num] equal cells of the interval from -1/2 to 1/2. *)
Definition cell_centre (num i : nat) : R := ((INR i + 1 / 2) / INR num - 1 / 2)%coqR.

(** Model of the expansion generation of src/fmmax/basis.py, for one lattice (the code's
    functions have no batch dimensions here). *)
From Coq Require Import Reals ZArith.
From mathcomp Require Import all_ssreflect all_algebra.
From Verif Require Import CField Err LinAlg M_utils M_basis M_fft M_fmm_matrices M_fmm M_scattering M_fields.
Set Implicit Arguments. Unset Strict Implicit. Unset Printing Implicit Defensive.

(** [numpy.argsort] with the default, unstable, sorting algorithm: some order of the indices
    that sorts the values. Which one is left open: see [argsort_spec]. *)
Definition argsort_fn := seq R -> seq nat.
Definition argsort_spec (argsort : argsort_fn) := forall s,
  perm_eq (argsort s) (iota 0 (size s)) /\
  forall i j, (i <= j < size s)%N -> (nth R0 s (nth 0%N (argsort s) i) <= nth R0 s (nth 0%N (argsort s) j))%coqR.

(** [numpy.arange(a, b)] on integers *)
Definition arangeZ (a b : Z) : seq Z := [seq (a + Z.of_nat i)%coqZ | i <- iota 0 (Z.to_nat (b - a))].
(** [numpy.meshgrid(.., indexing="ij")], flattened *)
Definition meshgrid_flat (g h : seq Z) : seq (Z * Z) := [seq (x, y) | x <- g, y <- h].

(** basis.py 301-305, 377-381: the length of [G1 u + G2 v] *)
Definition vector_magnitude (l : lattice) (c : Z * Z) : R :=
  norm2 (IZR c.1 * (lat_u l).1 + IZR c.2 * (lat_v l).1, IZR c.1 * (lat_u l).2 + IZR c.2 * (lat_v l).2)%coqR.

(** [G[..., order, :]] *)
Definition take_order (G : seq (Z * Z)) (order : seq nat) : seq (Z * Z) :=
  [seq nth (0, 0)%coqZ G i | i <- order].

(** basis.py 272-324 [_basis_coefficients_circular]. For a negative number of terms the
    cutoff is the square root of a negative number; numpy's nan and Coq's 0 both give an
    empty mask. Python's [//] is [Z.div]. *)
Definition basis_coefficients_circular (argsort : argsort_fn) (l : lattice) (approximate_num_terms : Z)
    : seq (Z * Z) :=
  let g := arangeZ ((- approximate_num_terms) / 2)%coqZ (approximate_num_terms / 2 + 1)%coqZ in
  let G := meshgrid_flat g g in
  let max_magnitude :=
    sqrt (IZR approximate_num_terms * Rabs (cross_product (lat_u l) (lat_v l)) / PI)%coqR in
  let G := [seq c <- G | Rlt_dec (vector_magnitude l c) max_magnitude] in
  take_order G (argsort [seq vector_magnitude l c | c <- G]).

(** basis.py 361-366 [_solve_quadratic]; [int] of nan raises a ValueError. *)
Definition solve_quadratic (approximate_num_terms : Z) (ratio : R) : res Z :=
  let a := (4 * ratio)%coqR in
  let b := (2 * (ratio + 1))%coqR in
  let c := (1 - IZR approximate_num_terms)%coqR in
  let d := (b ^ 2 - 4 * a * c)%coqR in
  if Rlt_dec d 0 then Exn ValueError else
  Val (round_half_even ((- b + sqrt d) / (2 * a))%coqR).

(** basis.py 327-388 [_basis_coefficients_parallelogramic] *)
Definition basis_coefficients_parallelogramic (argsort : argsort_fn) (l : lattice) (approximate_num_terms : Z)
    : res (seq (Z * Z)) :=
  let ku := norm2 (lat_u l) in
  let kv := norm2 (lat_v l) in
  nu <- solve_quadratic approximate_num_terms (ku / kv)%coqR;;
  nv <- solve_quadratic approximate_num_terms (kv / ku)%coqR;;
  let G := meshgrid_flat (arangeZ (- nu) (nu + 1))%coqZ (arangeZ (- nv) (nv + 1))%coqZ in
  Val (take_order G (argsort [seq vector_magnitude l c | c <- G])).

(** basis.py 77-83 [Truncation], 86-115 [generate_expansion]. Collinear lattice vectors have
    no finite reciprocal vectors. *)
Inductive truncation := Circular | Parallelogramic.
Definition generate_expansion (argsort : argsort_fn) (plv : lattice) (approximate_num_terms : Z)
    (trunc : truncation) : res (seq (Z * Z)) :=
  rv <- reciprocal plv;;
  match trunc with
  | Circular => Val (basis_coefficients_circular argsort rv approximate_num_terms)
  | Parallelogramic => basis_coefficients_parallelogramic argsort rv approximate_num_terms
  end.

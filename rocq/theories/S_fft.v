(** Specification: Fourier series on a grid of [nx] by [ny] points of the unit cell. *)
From Coq Require Import Reals ZArith.
From mathcomp Require Import all_ssreflect all_algebra.
From Verif Require Import CField Err LinAlg M_utils M_basis M_fft.
Set Implicit Arguments. Unset Strict Implicit. Unset Printing Implicit Defensive.
Import GRing.Theory.
Local Open Scope ring_scope.

(** [exp(2 pi i g a / N)]: the plane wave of order [g] at point [a] of [N]. *)
Definition wave (N : nat) (g : Z) (a : nat) : C :=
  cexp (Ci * RtoC (2 * PI * (IZR g * INR a / INR N))%coqR).

(** The coefficient of order [g] of an array. *)
Definition fourier_coefficient nx ny (x : 'M[C]_(nx, ny)) (g : Z * Z) : C :=
  (\sum_(a < nx) \sum_(b < ny) x a b * Cconj (wave nx g.1 a * wave ny g.2 b))
  / RtoC (INR nx * INR ny)%coqR.

(** The array with coefficient [y_i] at order [i] of the expansion. *)
Definition fourier_series n (expn : n.-tuple (Z * Z)) (y : 'cV[C]_n) nx ny : 'M[C]_(nx, ny) :=
  \matrix_(a, b) \sum_i y i 0 * (wave nx (tnth expn i).1 a * wave ny (tnth expn i).2 b).

(** Every order of the expansion is resolved by the grid. *)
Definition resolves (nx ny : nat) n (expn : n.-tuple (Z * Z)) :=
  forall i, (2 * Z.abs (tnth expn i).1 < Z.of_nat nx)%coqZ /\ (2 * Z.abs (tnth expn i).2 < Z.of_nat ny)%coqZ.

(** Elementwise product. *)
Definition pointwise nx ny (x y : 'M[C]_(nx, ny)) : 'M[C]_(nx, ny) := \matrix_(a, b) (x a b * y a b).

(** No order occurs twice. *)
Definition distinct n (expn : n.-tuple (Z * Z)) := forall i j, tnth expn i = tnth expn j -> i = j.

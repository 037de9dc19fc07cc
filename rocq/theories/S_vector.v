(** Specification: vector fields on a grid and their normalisation. *)
From Coq Require Import Reals ZArith.
From mathcomp Require Import all_ssreflect all_algebra.
From Verif Require Import CField Err LinAlg M_utils M_basis M_fft S_fft M_fmm_matrices M_fmm M_scattering M_fields S_maxwell S_fields S_basis.
Set Implicit Arguments. Unset Strict Implicit. Unset Printing Implicit Defensive.
Import GRing.Theory.
Local Open Scope ring_scope.

(** The length of a complex 2-vector. *)
Definition vector_length (x y : C) : R := sqrt (Cmod x ^ 2 + Cmod y ^ 2).
(** The length of a field at a point. *)
Definition length_at nx ny (v : 'M[C]_(nx, ny) * 'M[C]_(nx, ny)) (i : 'I_nx) (j : 'I_ny) : R :=
  vector_length (v.1 i j) (v.2 i j).
(** Lengths up to this one count as zero. *)
Definition tolerance : R := (/ 10 ^ 8)%coqR.
(** Two components without relative phase: common complex factor times real numbers. *)
Definition in_phase (x y : C) : Prop := exists u a b, x = u * RtoC a /\ y = u * RtoC b.


(** ** Gradients on a periodic grid of the unit cell *)
(** The places after and before, periodically. *)
Lemma next_proof N (i : 'I_N) : ((i + 1) %% N < N)%N.
Proof. by rewrite ltn_mod; apply: leq_ltn_trans (ltn_ord i). Qed.
Definition next N (i : 'I_N) : 'I_N := Ordinal (next_proof i).
Lemma previous_proof N (i : 'I_N) : ((i + N - 1) %% N < N)%N.
Proof. by rewrite ltn_mod; apply: leq_ltn_trans (ltn_ord i). Qed.
Definition previous N (i : 'I_N) : 'I_N := Ordinal (previous_proof i).
(** [g] is the gradient with derivatives [du] and [dv] along the lattice vectors, in units where
    the unit cell has area one. *)
Definition gradient_of (l : lattice) (gx gy du dv : C) : Prop :=
  gx * RtoC (lat_u l).1 + gy * RtoC (lat_u l).2 = RtoC (sqrt (cell_area l)) * du /\
  gx * RtoC (lat_v l).1 + gy * RtoC (lat_v l).2 = RtoC (sqrt (cell_area l)) * dv.
Definition central_gradient nx ny (l : lattice) (x : 'M[C]_(nx, ny)) (g : 'M[C]_(nx, ny) * 'M[C]_(nx, ny)) :=
  forall i j, gradient_of l (g.1 i j) (g.2 i j)
    (RtoC (INR nx / 2) * (x (next i) j - x (previous i) j)) (RtoC (INR ny / 2) * (x i (next j) - x i (previous j))).
Definition forward_gradient nx ny (l : lattice) (x : 'M[C]_(nx, ny)) (g : 'M[C]_(nx, ny) * 'M[C]_(nx, ny)) :=
  forall i j, gradient_of l (g.1 i j) (g.2 i j)
    (RtoC (INR nx) * (x (next i) j - x i j)) (RtoC (INR ny) * (x i (next j) - x i j)).

(** ** The objective of tangent fields *)
(** The field with Fourier coefficients [F], one column for each component. *)
Definition field_series n (expn : n.-tuple (Z * Z)) (F : 'M[C]_(n, 2)) nx ny : 'M[C]_(nx, ny) * 'M[C]_(nx, ny) :=
  (fourier_series expn (col 0 F) nx ny, fourier_series expn (col 1 F) nx ny).
Definition mean nx ny (f : 'I_nx -> 'I_ny -> R) : R := ((\sum_i \sum_j f i j)%R / (INR nx * INR ny))%coqR.
(** The objective of the field with coefficients [F] has the value [x]: the weighted mean squared
    distance to the target, plus [fw] times the power of the coefficients weighted by their
    squared wavevectors, plus [sw] times the mean squared gradient component. *)
Definition objective nx ny n (expn : n.-tuple (Z * Z)) (l : lattice)
    (target : 'M[C]_(nx, ny) * 'M[C]_(nx, ny)) (weight : 'I_nx -> 'I_ny -> R) (fw sw : R)
    (F : 'M[C]_(n, 2)) (x : R) : Prop :=
  let v := field_series expn F nx ny in
  exists (k : 'I_n -> R * R) (gx gy : 'M[C]_(nx, ny) * 'M[C]_(nx, ny)),
  [/\ (forall i, bragg l (tnth expn i) (k i)), forward_gradient l v.1 gx, forward_gradient l v.2 gy &
    x = (mean (fun i j => weight i j * (abs2 (v.1 i j - target.1 i j)%R + abs2 (v.2 i j - target.2 i j)%R))
         + fw * (\sum_i (abs2 (F i 0) + abs2 (F i 1)) * (length2 (k i) * cell_area l)%coqR)%R
         + sw * mean (fun i j => (length_at gx i j ^ 2 + length_at gy i j ^ 2) / 4))%coqR].

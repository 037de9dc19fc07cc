(** Model of src/fmmax/basis.py, for one batch element (no leading batch dimensions).
    The n-dimensional array version of [reciprocal] and [transverse_wavevectors], with
    the code's broadcasting, is in M_batch.v. *)
From Coq Require Import Reals ZArith.
From mathcomp Require Import all_ssreflect all_algebra.
From Verif Require Import CField Err LinAlg M_utils.
Set Implicit Arguments. Unset Strict Implicit. Unset Printing Implicit Defensive.

(** basis.py 22-48 [LatticeVectors]; a vector is a pair of reals. *)
Record lattice := Lattice { lat_u : R * R; lat_v : R * R }.

(** basis.py 391-393 [_cross_product] *)
Definition cross_product (x y : R * R) : R := (x.1 * y.2 - x.2 * y.1)%coqR.

(** basis.py 118-129 [reciprocal]; collinear vectors give a division by zero. *)
Definition reciprocal (l : lattice) : res lattice :=
  r <- recipR (cross_product (lat_u l) (lat_v l));;
  Val (Lattice ((lat_v l).2 * r, - (lat_v l).1 * r)%coqR
               (- (lat_u l).2 * r, (lat_u l).1 * r)%coqR).

(** basis.py 132-155 [unit_cell_coordinates]: the coordinates of grid point [(i, j)],
    [0 <= i < num_unit_cells[0] * shape[0]], [0 <= j < num_unit_cells[1] * shape[1]]. *)
Definition unit_cell_coordinate (l : lattice) (shape : nat * nat) (i j : nat) : R * R :=
  let fi := (INR i / INR shape.1)%coqR in
  let fj := (INR j / INR shape.2)%coqR in
  (fi * (lat_u l).1 + fj * (lat_v l).1, fi * (lat_u l).2 + fj * (lat_v l).2)%coqR.

(** basis.py 163-194 [plane_wave_in_plane_wavevector]; [jnp.sqrt] of a negative real is nan. *)
Definition plane_wave_in_plane_wavevector
    (wavelength polar_angle azimuthal_angle : R) (permittivity : C) : res (R * R) :=
  w <- angular_frequency wavelength;;
  if Rlt_dec (re permittivity) 0 then Exn NonFinite else
  Val (w * sin polar_angle * cos azimuthal_angle * sqrt (re permittivity),
       w * sin polar_angle * sin azimuthal_angle * sqrt (re permittivity))%coqR.

(** Tuple comparison [(a, b) < (1, 1)] in python is lexicographic. *)
Definition tuple_lt (x y : Z * Z) : bool :=
  Z.ltb x.1 y.1 || (Z.eqb x.1 y.1 && Z.ltb x.2 y.2).

(** [jnp.arange(start, stop, step)] with real arguments and [step > 0]: the elements
    [start + i step] for [i < ceil((stop - start) / step)]; the count is 0 when negative. *)
Definition Rceil (x : R) : Z := (- Int_part (- x)%coqR)%coqZ.
Definition arangeR (start stop step : R) : seq R :=
  [seq (start + INR i * step)%coqR | i <- iota 0 (Z.to_nat (Rceil ((stop - start) / step)%coqR))].

(** basis.py 197-237 [brillouin_zone_in_plane_wavevector]: rows are indexed by the first
    grid axis. [1 / 0] on python ints raises [ZeroDivisionError]. *)
Definition py_inv (z : Z) : res R :=
  if Z.eqb z 0 then Exn ZeroDivisionError else Val (/ IZR z)%coqR.
Definition brillouin_zone_in_plane_wavevector (shape : seq Z) (l : lattice)
    : res (seq (seq (R * R))) :=
  match shape with
  | [:: a; b] =>
    check (~~ tuple_lt (a, b) (1, 1)%coqZ) ValueError
    (spacing_i <- py_inv a;;
     spacing_j <- py_inv b;;
     let si := arangeR (- (1/2) + spacing_i / 2)%coqR (1/2)%coqR spacing_i in
     let sj := arangeR (- (1/2) + spacing_j / 2)%coqR (1/2)%coqR spacing_j in
     rv <- reciprocal l;;
     Val [seq [seq (2 * PI * (i * (lat_u rv).1 + j * (lat_v rv).1),
                    2 * PI * (i * (lat_u rv).2 + j * (lat_v rv).2))%coqR | j <- sj] | i <- si])
  | _ => Exn ValueError
  end.

(** basis.py 240-264 [transverse_wavevectors]: [(kx, ky)], each a vector over the orders. *)
Definition transverse_wavevectors n (in_plane_wavevector : R * R) (l : lattice)
    (expansion : n.-tuple (Z * Z)) : res ('rV[R]_n * 'rV[R]_n) :=
  rv <- reciprocal l;;
  Val (\row_i (in_plane_wavevector.1 + 2 * PI *
         (IZR (tnth expansion i).1 * (lat_u rv).1 + IZR (tnth expansion i).2 * (lat_v rv).1))%coqR,
       \row_i (in_plane_wavevector.2 + 2 * PI *
         (IZR (tnth expansion i).1 * (lat_u rv).2 + IZR (tnth expansion i).2 * (lat_v rv).2))%coqR)%R.

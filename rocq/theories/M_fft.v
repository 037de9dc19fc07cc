(** Model of src/fmmax/fft.py, for one batch element: a real-space array of shape
    [(nx, ny)] is a matrix ['M[C]_(nx, ny)], a vector of Fourier coefficients is a
    column ['cV[C]_n]. *)
From Coq Require Import Reals ZArith.
From mathcomp Require Import all_ssreflect all_algebra.
From Verif Require Import CField Err LinAlg M_utils M_basis.
Set Implicit Arguments. Unset Strict Implicit. Unset Printing Implicit Defensive.
Import GRing.Theory.

(** jax indexing with an integer array, reading: a negative index is increased by the
    axis size once, then clamped into range. *)
Definition gather_index (size : nat) (z : Z) : nat :=
  let z' := if Z.ltb z 0 then (z + Z.of_nat size)%coqZ else z in
  Z.to_nat (Z.min (Z.max z' 0) (Z.of_nat size - 1)).
(** jax indexed update [.at[..].set(..)]: out-of-range updates are dropped. *)
Definition scatter_index (size : nat) (z : Z) : option nat :=
  let z' := if Z.ltb z 0 then (z + Z.of_nat size)%coqZ else z in
  if Z.leb 0 z' && Z.ltb z' (Z.of_nat size) then Some (Z.to_nat z') else None.

(** Element [(i, j)] of an array; the default is unreachable for the clamped indices
    above when the array is not empty. *)
Definition mxget nx ny (x : 'M[C]_(nx, ny)) (i j : nat) : C :=
  match insub i, insub j with Some i', Some j' => x i' j' | _, _ => 0%R end.

(** [exp(-2 pi i k a / N)] *)
Definition dft_kernel (N k a : nat) : C :=
  cexp (- (Ci * RtoC (2 * PI * (INR k * INR a / INR N))%coqR))%R.

(** jnp.fft.fft2 (unnormalised) and ifft2 with norm="forward" (unnormalised). *)
Definition fft2 nx ny (x : 'M[C]_(nx, ny)) : 'M[C]_(nx, ny) :=
  (\matrix_(k, l) \sum_(a < nx) \sum_(b < ny) x a b * (dft_kernel nx k a * dft_kernel ny l b))%R.
Definition ifft2_forward nx ny (X : 'M[C]_(nx, ny)) : 'M[C]_(nx, ny) :=
  (\matrix_(a, b) \sum_(k < nx) \sum_(l < ny)
     X k l * (Cconj (dft_kernel nx k a) * Cconj (dft_kernel ny l b)))%R.

(** fft.py 140-146 [min_array_shape_for_expansion]; [max] of an empty array raises. *)
Definition min_array_shape_for_expansion n (expansion : n.-tuple (Z * Z)) : res (Z * Z) :=
  check (n != 0) ValueError
   (Val ((2 * foldr Z.max 0 [seq Z.abs c.1 | c <- expansion] + 1)%coqZ,
         (2 * foldr Z.max 0 [seq Z.abs c.2 | c <- expansion] + 1)%coqZ)).

(** fft.py 127-137 [_validate_shape_for_expansion] on the final two axes. *)
Definition validate_shape_for_expansion n (shape : nat * nat) (expansion : n.-tuple (Z * Z)) : res unit :=
  min_shape <- min_array_shape_for_expansion expansion;;
  check (~~ (Z.ltb (Z.of_nat shape.1) min_shape.1 || Z.ltb (Z.of_nat shape.2) min_shape.2))
    ValueError (Val tt).

(** fft.py 40-56 [_standard_toeplitz_indices] *)
Definition standard_toeplitz_index n (expansion : n.-tuple (Z * Z)) (i j : 'I_n) : Z * Z :=
  ((tnth expansion i).1 - (tnth expansion j).1, (tnth expansion i).2 - (tnth expansion j).2)%coqZ.

(** fft.py 14-37 [fourier_convolution_matrix] *)
Definition fourier_convolution_matrix nx ny n (x : 'M[C]_(nx, ny)) (expansion : n.-tuple (Z * Z))
    : res 'M[C]_n :=
  _ <- validate_shape_for_expansion (nx, ny) expansion;;
  let x_fft := (\matrix_(k, l) (fft2 x k l / RtoC (INR (nx * ny)%N)))%R : 'M[C]_(nx, ny) in
  Val (\matrix_(i, j)
        mxget x_fft (gather_index nx (standard_toeplitz_index expansion i j).1)
                    (gather_index ny (standard_toeplitz_index expansion i j).2))%R.

(** fft.py 59-86 [fft], on the two transformed axes. *)
Definition fft nx ny n (x : 'M[C]_(nx, ny)) (expansion : n.-tuple (Z * Z)) : res 'cV[C]_n :=
  _ <- validate_shape_for_expansion (nx, ny) expansion;;
  let x_fft := (\matrix_(k, l) (fft2 x k l / RtoC (INR (nx * ny)%N)))%R : 'M[C]_(nx, ny) in
  Val (\col_i mxget x_fft (gather_index nx (tnth expansion i).1)
                          (gather_index ny (tnth expansion i).2))%R.

(** [x.at[c0, c1].set(y)] on an array of zeros: later updates win (jax leaves the order
    of duplicate updates unspecified; the theorems assume distinct orders). *)
Definition scatter nx ny n (expansion : n.-tuple (Z * Z)) (y : 'cV[C]_n) : 'M[C]_(nx, ny) :=
  (\matrix_(k, l)
     foldl (fun (acc : C) (i : 'I_n) =>
              if (scatter_index nx (tnth expansion i).1 == Some (k : nat)) &&
                 (scatter_index ny (tnth expansion i).2 == Some (l : nat))
              then y i 0 else acc) 0 (enum 'I_n))%R.

(** fft.py 122-124: the last lines of [ifft], applied to one vector along [axis]. *)
Definition ifft_values n (y : 'cV[C]_n) (expansion : n.-tuple (Z * Z)) nx ny : 'M[C]_(nx, ny) :=
  ifft2_forward (scatter nx ny expansion y).
(** fft.py 89-124 [ifft]; the assertion [y.shape[axis] == num] holds by typing. *)
Definition ifft n (y : 'cV[C]_n) (expansion : n.-tuple (Z * Z)) nx ny : res 'M[C]_(nx, ny) :=
  _ <- validate_shape_for_expansion (nx, ny) expansion;;
  Val (ifft_values y expansion nx ny).

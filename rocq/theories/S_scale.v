(** Specification: the same structure with every length multiplied by [s]. *)
From Coq Require Import Reals ZArith.
From mathcomp Require Import all_ssreflect all_algebra.
From Verif Require Import CField Err LinAlg M_utils M_basis M_fft M_fmm_matrices M_fmm M_scattering M_fields.
Set Implicit Arguments. Unset Strict Implicit. Unset Printing Implicit Defensive.
Import GRing.Theory.
Local Open Scope ring_scope.

Section Scale.
Variable s : R.
Definition scale_vec (v : R * R) : R * R := (s * v.1, s * v.2)%coqR.
Definition scale_lattice (l : lattice) : lattice := Lattice (scale_vec (lat_u l)) (scale_vec (lat_v l)).
(** Wavevectors are inverse lengths. *)
Definition scale_wavevector (k : R * R) : R * R := (k.1 / s, k.2 / s)%coqR.
(** A solved layer: eigenvalues (wavenumbers along z) are divided by [s], eigenvectors and
    material matrices are the same. *)
Definition scale_layer n (l : layer_solve_result n) : layer_solve_result n :=
  {| wavelength := (s * wavelength l)%coqR;
     in_plane_wavevector := scale_wavevector (in_plane_wavevector l);
     primitive_lattice_vectors := scale_lattice (primitive_lattice_vectors l);
     expansion := expansion l;
     eigenvalues := RtoC (/ s)%coqR *: eigenvalues l;
     eigenvectors := eigenvectors l;
     z_permittivity_matrix := z_permittivity_matrix l;
     inverse_z_permittivity_matrix := inverse_z_permittivity_matrix l;
     z_permeability_matrix := z_permeability_matrix l;
     inverse_z_permeability_matrix := inverse_z_permeability_matrix l;
     transverse_permeability_matrix := transverse_permeability_matrix l;
     tangent_vector_field := tangent_vector_field l |}.
(** A scattering matrix between scaled layers, with the same four blocks. *)
Definition scale_s_matrix n (m : scattering_matrix n) : scattering_matrix n :=
  SMat (s11 m) (s12 m) (s21 m) (s22 m)
       (scale_layer (start_layer_solve_result m)) (s * start_layer_thickness m)%coqR
       (scale_layer (end_layer_solve_result m)) (s * end_layer_thickness m)%coqR.
End Scale.

(** A numerical eigensolver that commutes with multiplication by positive numbers. *)
Definition eig_homogeneous (eig : eig_fn) := forall (c : R) m (A : 'M[C]_m),
  (0 < c)%coqR -> eig m (RtoC c *: A) = rmap (fun vV => (RtoC c *: vV.1, vV.2)) (eig m A).

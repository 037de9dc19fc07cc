(** Specification: two solved layers that describe one medium, possibly with other modes. *)
From Coq Require Import Reals ZArith.
From mathcomp Require Import all_ssreflect all_algebra.
From Verif Require Import CField Err LinAlg M_utils M_basis M_fft M_fmm_matrices M_fmm M_scattering M_fields S_stack S_maxwell.
Set Implicit Arguments. Unset Strict Implicit. Unset Printing Implicit Defensive.
Import GRing.Theory.
Local Open Scope ring_scope.

(** Of the two square roots of a number, the one the library uses as a wavenumber: a wave
    [exp(i q z)] decays along z, or is a propagating wave with nonnegative wavenumber. *)
Definition forward_root (q : C) := (0 < im q)%coqR \/ (im q = 0 /\ 0 <= re q)%coqR.

(** The same structure and the same material matrices. The modes of both layers solve the
    same eigenvalue problem, but they may be ordered, scaled or combined differently. *)
Record same_medium n (l l' : layer_solve_result n) : Prop := SameMedium {
  sm_wavelength : wavelength l' = wavelength l;
  sm_wavevector : in_plane_wavevector l' = in_plane_wavevector l;
  sm_lattice : primitive_lattice_vectors l' = primitive_lattice_vectors l;
  sm_expansion : expansion l' = expansion l;
  sm_eps_z : z_permittivity_matrix l' = z_permittivity_matrix l;
  sm_inv_eps_z : inverse_z_permittivity_matrix l' = inverse_z_permittivity_matrix l;
  sm_mu_z : z_permeability_matrix l' = z_permeability_matrix l;
  sm_inv_mu_z : inverse_z_permeability_matrix l' = inverse_z_permeability_matrix l;
  sm_mu_t : transverse_permeability_matrix l' = transverse_permeability_matrix l;
  sm_modes : exists eps_t, exact_modes l eps_t /\ exact_modes l' eps_t;
  sm_root : forall i, forward_root (eigenvalues l 0 i);
  sm_root' : forall i, forward_root (eigenvalues l' 0 i) }.

(** One call of a public solver, made with two eigensolvers. *)
Inductive same_solve (eig eig' : eig_fn) n : layer_solve_result n -> layer_solve_result n -> Prop :=
| same_isotropic nx ny wl k0 plv (permittivity : 'M[C]_(nx, ny)) expn form l l' :
    eigensolve_isotropic_media eig wl k0 plv permittivity expn form = Val l ->
    eigensolve_isotropic_media eig' wl k0 plv permittivity expn form = Val l' -> same_solve eig eig' l l'
| same_anisotropic nx ny wl k0 plv (eps : tensor 'M[C]_(nx, ny)) expn form l l' :
    eigensolve_anisotropic_media eig wl k0 plv eps expn form = Val l ->
    eigensolve_anisotropic_media eig' wl k0 plv eps expn form = Val l' -> same_solve eig eig' l l'
| same_general nx ny wl k0 plv (eps mu : tensor 'M[C]_(nx, ny)) expn form src l l' :
    eigensolve_general_anisotropic_media eig wl k0 plv eps mu expn form src = Val l ->
    eigensolve_general_anisotropic_media eig' wl k0 plv eps mu expn form src = Val l' ->
    same_solve eig eig' l l'.

(** The amplitudes [x] in the layer [k] and [x'] in the layer [k'] are one electromagnetic
    field: all six components agree at every depth. *)
Definition same_field n m (k : layer n) (x : layer_amplitudes n m) (k' : layer n) (x' : layer_amplitudes n m) :=
  forall z, reported_fields k.1 k.2 x.1 x.2 z = reported_fields k'.1 k'.2 x'.1 x'.2 z.

(** Every magnetic field in the layer is a superposition of its modes, in one way. *)
Definition independent_modes n (ls : seq (layer_solve_result n)) :=
  forall l, List.In l ls -> eigenvectors l \in unitmx.

(** Model of src/fmmax/sources.py, for one leading batch element; the trailing batch axis
    (size [m]) is the columns of a matrix. *)
From Coq Require Import Reals ZArith.
From mathcomp Require Import all_ssreflect all_algebra.
From Verif Require Import CField Err LinAlg M_utils M_basis M_fft M_fmm_matrices M_fmm M_scattering M_fields.
Set Implicit Arguments. Unset Strict Implicit. Unset Printing Implicit Defensive.
Import GRing.Theory.
Local Open Scope ring_scope.

(** A field on a grid of points, with a trailing batch axis; the shape is kept apart. *)
Definition grid_field m := nat -> nat -> 'I_m -> C.

(** sources.py 94-107 [_process_field]: divide by the Bloch phase, split the supercell into its
    unit cells, transform each and add the transforms. *)
Definition process_field n m (l : layer_solve_result n) (cell cells : nat * nat) (field : grid_field m)
    : res 'M[C]_(n, m) :=
  let phase i j :=
    let xy := unit_cell_coordinate (primitive_lattice_vectors l) cell i j in
    cexp (Ci * RtoC ((in_plane_wavevector l).1 * xy.1 + (in_plane_wavevector l).2 * xy.2)) in
  let flat i j c := field i j c / phase i j in
  _ <- validate_shape_for_expansion cell (expansion l);;
  let block (p q : nat) (c : 'I_m) : 'M[C]_(cell.1, cell.2) :=
    \matrix_(i, j) flat (p * cell.1 + i)%N (q * cell.2 + j)%N c in
  let coefficients (x : 'M[C]_(cell.1, cell.2)) : 'cV[C]_n :=
    let x_fft : 'M[C]_(cell.1, cell.2) := \matrix_(k, l) (fft2 x k l / RtoC (INR (cell.1 * cell.2)%N)) in
    \col_i mxget x_fft (gather_index cell.1 (tnth (expansion l) i).1)
                       (gather_index cell.2 (tnth (expansion l) i).2) in
  Val (\matrix_(i, c) \sum_(p < cells.1) \sum_(q < cells.2) coefficients (block p q c) i 0).

(** sources.py 13-119 [amplitudes_for_fields] for one point of the Brillouin zone grid (an
    element of the batch of solve results). [shape] is that of the trailing grid axes of the
    fields, [brillouin_grid_shape] is (1, 1) when no Brillouin grid axes are given. The checks
    of batch shapes are in M_shapes.v. Python's [%] by zero raises. *)
Definition amplitudes_for_fields n m (ex ey hx hy : grid_field m) (shape : nat * nat)
    (l : layer_solve_result n) (brillouin_grid_shape : nat * nat)
    : res ('M[C]_(n + n, m) * 'M[C]_(n + n, m)) :=
  check ((brillouin_grid_shape.1 != 0%N) && (brillouin_grid_shape.2 != 0%N)) ZeroDivisionError
  (check ((shape.1 %% brillouin_grid_shape.1 == 0)%N && (shape.2 %% brillouin_grid_shape.2 == 0)%N) ValueError
  (let cell := (shape.1 %/ brillouin_grid_shape.1, shape.2 %/ brillouin_grid_shape.2)%N in
   ex <- process_field l cell brillouin_grid_shape ex;;
   ey <- process_field l cell brillouin_grid_shape ey;;
   hx <- process_field l cell brillouin_grid_shape hx;;
   hy <- process_field l cell brillouin_grid_shape hy;;
   let stacked_fields := col_mx (col_mx (- ey) ex) (col_mx hx hy) in
   matrix <- field_conversion_matrix l;;
   amplitudes <- solve matrix stacked_fields;;
   Val (usubmx amplitudes, dsubmx amplitudes))).

(** sources.py 127-171 [dirac_delta_source]; the locations are a list of [m] points. *)
Definition dirac_delta_source n m (location : 'I_m -> R * R) (in_plane_wavevector : R * R)
    (plv : lattice) (expn : n.-tuple (Z * Z)) : res 'M[C]_(n, m) :=
  k <- transverse_wavevectors in_plane_wavevector plv expn;;
  Val (\matrix_(i, j) cexp (- Ci * RtoC (k.1 0 i * (location j).1 + k.2 0 i * (location j).2))).

(** sources.py 174-223 [gaussian_source]; [fwhm] is a scalar. *)
Definition gaussian_source n m (fwhm : R) (location : 'I_m -> R * R) (in_plane_wavevector : R * R)
    (plv : lattice) (expn : n.-tuple (Z * Z)) : res 'M[C]_(n, m) :=
  k <- transverse_wavevectors in_plane_wavevector plv expn;;
  let sigma := (fwhm / (2 * sqrt (2 * ln 2)))%coqR in
  Val (\matrix_(i, j) (cexp (- Ci * RtoC (k.1 0 i * (location j).1 + k.2 0 i * (location j).2))
    * RtoC (exp (- (sigma ^ 2) * ((k.1 0%R i) ^ 2 + (k.2 0%R i) ^ 2) / 2)%coqR))).

(** sources.py 310-363 [polarization_terms] *)
Definition polarization_terms n m (jx jy jz : 'M[C]_(n, m)) (l : layer_solve_result n)
    : res 'M[C]_((n + n) + (n + n), m) :=
  let p_parallel := col_mx jy (- jx) in
  k <- transverse_wavevectors (in_plane_wavevector l) (primitive_lattice_vectors l) (expansion l);;
  let eta_matrix := inverse_z_permittivity_matrix l in
  let pzy := rowscale (vC k.2) eta_matrix *m jz in
  let pzx := rowscale (vC k.1) eta_matrix *m jz in
  let pz := col_mx (- pzy) pzx in
  Val (col_mx pz p_parallel).

(** sources.py 366-417 [emission_matrix] *)
Definition emission_matrix n (before after : scattering_matrix n) : res 'M[C]_((n + n) + (n + n)) :=
  let l := end_layer_solve_result before in
  let next := start_layer_solve_result after in
  let q := eigenvalues l in
  let phi := eigenvectors l in
  omega_k <- omega_script_k_matrix l;;
  let next_q := eigenvalues next in
  let next_phi := eigenvectors next in
  next_omega_k <- omega_script_k_matrix next;;
  let fd := phase q (end_layer_thickness before) in
  let next_fd := phase next_q (start_layer_thickness after) in
  let fd_s12_before := diag fd *m s12 before in
  let fd_s21_after := diag next_fd *m s21 after in
  let eye := diag (const_mx 1) in
  inv_next_q <- recip next_q;;
  inv_q <- recip q;;
  Val (block_mx
    (next_omega_k *m next_phi *m diag inv_next_q *m (eye - fd_s21_after))
    (omega_k *m phi *m diag inv_q *m (eye - fd_s12_before))
    (next_phi *m (eye + fd_s21_after))
    (- phi *m (eye + fd_s12_before))).

(** sources.py 226-307 [amplitudes_for_source] *)
Record source_amplitudes n m := SourceAmplitudes {
  bwd_amplitude_0_end : 'M[C]_(n + n, m); fwd_amplitude_before_start : 'M[C]_(n + n, m);
  bwd_amplitude_before_end : 'M[C]_(n + n, m); fwd_amplitude_after_start : 'M[C]_(n + n, m);
  bwd_amplitude_after_end : 'M[C]_(n + n, m); fwd_amplitude_N_start : 'M[C]_(n + n, m) }.
Definition amplitudes_for_source n m (jx jy jz : 'M[C]_(n, m)) (before after : scattering_matrix n)
    : res (source_amplitudes n m) :=
  pol <- polarization_terms jx jy jz (end_layer_solve_result before);;
  matrix <- emission_matrix before after;;
  ab <- solve matrix pol;;
  let fwd_after_start := usubmx ab in
  let bwd_before_end := dsubmx ab in
  Val (SourceAmplitudes
    (s22 before *m bwd_before_end) (s12 before *m bwd_before_end) bwd_before_end
    fwd_after_start (s21 after *m fwd_after_start) (s11 after *m fwd_after_start)).

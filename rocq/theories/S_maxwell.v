(** Specification: Maxwell's equations for the Fourier coefficients of a field with time
    dependence exp(-i w t) and in-plane dependence exp(i (kx x + ky y)), in units where
    curl E = i w B and curl H = - i w D. *)
From Coq Require Import Reals ZArith.
From mathcomp Require Import all_ssreflect all_algebra.
From Verif Require Import CField Err LinAlg M_utils M_basis M_fft M_fmm_matrices M_fmm M_scattering M_fields.
Set Implicit Arguments. Unset Strict Implicit. Unset Printing Implicit Defensive.
Import GRing.Theory.
Local Open Scope ring_scope.

(** The derivative of a complex function of one real variable. *)
Definition has_derivative (f : R -> C) (z : R) (d : C) :=
  derivable_pt_lim (fun x => re (f x)) z (re d) /\ derivable_pt_lim (fun x => im (f x)) z (im d).

Section Maxwell.
Variables (n m : nat).
(** A vector field: the Fourier coefficients of its three components ([m] columns). *)
Record vec3 := Vec3 { v_x : 'M[C]_(n, m); v_y : 'M[C]_(n, m); v_z : 'M[C]_(n, m) }.

Section Curl.
Variables (kx ky : 'rV[R]_n) (V W : R -> vec3).
(** [curl V = W] at depth [z]: [d/dx] is multiplication by [i kx], [d/dy] by [i ky]. *)
Definition curl_is (z : R) := forall i j,
  let ikx := Ci * RtoC (kx 0 i) in
  let iky := Ci * RtoC (ky 0 i) in
  [/\ has_derivative (fun x => v_y (V x) i j) z (iky * v_z (V z) i j - v_x (W z) i j),
      has_derivative (fun x => v_x (V x) i j) z (ikx * v_z (V z) i j + v_y (W z) i j) &
      ikx * v_y (V z) i j - iky * v_x (V z) i j = v_z (W z) i j].
End Curl.

Definition vec3_scale (c : C) (v : vec3) := Vec3 (c *: v_x v) (c *: v_y v) (c *: v_z v).
Definition maxwell (w : R) (kx ky : 'rV[R]_n) (E H D B : R -> vec3) := forall z,
  curl_is kx ky E (fun x => vec3_scale (Ci * RtoC w) (B x)) z /\
  curl_is kx ky H (fun x => vec3_scale (- (Ci * RtoC w)) (D x)) z.

(** [D] and [E] related by the transverse permittivity matrix (which acts on [(-Ey, Ex)]) and
    the z permittivity matrix; [B] and [H] by the permeability matrices (on [(Hx, Hy)]). *)
Definition permittivity_relation (eps_t : 'M[C]_(n + n)) (eps_z : 'M[C]_n) (D E : vec3) :=
  col_mx (- v_y D) (v_x D) = eps_t *m col_mx (- v_y E) (v_x E) /\ v_z D = eps_z *m v_z E.
Definition permeability_relation (mu_t : 'M[C]_(n + n)) (mu_z : 'M[C]_n) (B H : vec3) :=
  col_mx (v_x B) (v_y B) = mu_t *m col_mx (v_x H) (v_y H) /\ v_z B = mu_z *m v_z H.

(** The fields the library reports at depth [z] of a layer of thickness [t] for a forward
    amplitude [a] at its start and a backward amplitude [b] at its end. *)
Definition reported_fields (l : layer_solve_result n) (t : R) (a b : 'M[C]_(n + n, m)) (z : R)
    : res (fields6 'M[C]_(n, m)) :=
  let ab := colocate_amplitudes a b (const_mx z) l t in
  fields_from_wave_amplitudes ab.1 ab.2 l.
End Maxwell.

(** The layer's eigenvalues and eigenvectors solve the eigenvalue problem of the magnetic
    field for the transverse permittivity [eps_t]. *)
Definition exact_modes n (l : layer_solve_result n) (eps_t : 'M[C]_(n + n)) :=
  exists k K O,
  [/\ transverse_wavevectors (in_plane_wavevector l) (primitive_lattice_vectors l) (expansion l) = Val k,
      k_matrix_patterned (z_permeability_matrix l) k = Val K,
      omega_script_k_matrix l = Val O &
      (eps_t *m O - K *m transverse_permeability_matrix l) *m eigenvectors l
      = eigenvectors l *m diag (\row_i (eigenvalues l 0 i) ^+ 2)].

(** ** Power flow *)
Section Power.
Variables (n m : nat).
(** The z component of the Poynting vector carried by Fourier order [i] (column [j]). *)
Definition poynting_z (f : fields6 'M[C]_(n, m)) (i : 'I_n) (j : 'I_m) : R :=
  re (f_ex f i j * Cconj (f_hy f i j) - f_ey f i j * Cconj (f_hx f i j)).
(** Summed over the orders. *)
Definition total_poynting_z (f : fields6 'M[C]_(n, m)) (j : 'I_m) : R := \sum_i poynting_z f i j.
End Power.

(** The layer has no loss: its modes are those of Hermitian material matrices. *)
Definition hermitian p (A : 'M[C]_p) := adjm A = A.
Definition lossless n (l : layer_solve_result n) := exists eps_t,
  exact_modes l eps_t /\
  [/\ hermitian eps_t, hermitian (z_permittivity_matrix l),
      hermitian (transverse_permeability_matrix l) & hermitian (z_permeability_matrix l)].

(** A layer solve result returned by one of the public solvers. *)
Inductive solved (eig : eig_fn) n : layer_solve_result n -> Prop :=
| solved_isotropic nx ny wl k0 plv (permittivity : 'M[C]_(nx, ny)) expn form l :
    eigensolve_isotropic_media eig wl k0 plv permittivity expn form = Val l -> solved eig l
| solved_anisotropic nx ny wl k0 plv (eps : tensor 'M[C]_(nx, ny)) expn form l :
    eigensolve_anisotropic_media eig wl k0 plv eps expn form = Val l -> solved eig l
| solved_general nx ny wl k0 plv (eps mu : tensor 'M[C]_(nx, ny)) expn form src l :
    eigensolve_general_anisotropic_media eig wl k0 plv eps mu expn form src = Val l -> solved eig l.

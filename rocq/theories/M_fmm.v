(** Model of src/fmmax/fmm.py, for one batch element. Array shapes and the shape checks
    of [_validate_and_broadcast] and [LayerSolveResult.__post_init__] are in M_batch.v. *)
From Coq Require Import Reals ZArith.
From mathcomp Require Import all_ssreflect all_algebra.
From Verif Require Import CField Err LinAlg M_utils M_basis M_fft M_fmm_matrices.
Set Implicit Arguments. Unset Strict Implicit. Unset Printing Implicit Defensive.
Import GRing.Theory.
Local Open Scope ring_scope.

(** A pair of real-space arrays of one shape (the tangent vector field). *)
Record grid_pair := GridPair { gp_nx : nat; gp_ny : nat;
                               gp_x : 'M[C]_(gp_nx, gp_ny); gp_y : 'M[C]_(gp_nx, gp_ny) }.

(** fmm.py 227-264 [LayerSolveResult] *)
Record layer_solve_result (n : nat) := LSR {
  wavelength : R;
  in_plane_wavevector : R * R;
  primitive_lattice_vectors : lattice;
  expansion : n.-tuple (Z * Z);
  eigenvalues : 'rV[C]_(n + n);
  eigenvectors : 'M[C]_(n + n);
  z_permittivity_matrix : 'M[C]_n;
  inverse_z_permittivity_matrix : 'M[C]_n;
  z_permeability_matrix : 'M[C]_n;
  inverse_z_permeability_matrix : 'M[C]_n;
  transverse_permeability_matrix : 'M[C]_(n + n);
  tangent_vector_field : option grid_pair }.

(** fmm.py 270-282 [LayerSolveResult.omega_script_k_matrix] *)
Definition omega_script_k_matrix n (l : layer_solve_result n) : res 'M[C]_(n + n) :=
  k <- transverse_wavevectors (in_plane_wavevector l) (primitive_lattice_vectors l) (expansion l);;
  omega_script_k_matrix_patterned (wavelength l) (z_permittivity_matrix l)
    (transverse_permeability_matrix l) k.

(** fmm.py 1114-1123 [_select_eigenvalues_sign] *)
Definition select_eigenvalue_sign (q : C) : C := if Rlt_dec (im q) 0 then - q else q.
Definition select_eigenvalues_sign n (q : 'rV[C]_n) : 'rV[C]_n := map_mx select_eigenvalue_sign q.

(** fmm.py 377-475 [_eigensolve_uniform_isotropic_media] *)
Definition eigensolve_uniform_isotropic_media n (wl : R) (k0 : R * R) (plv : lattice)
    (permittivity : C) (expn : n.-tuple (Z * Z)) : res (layer_solve_result n) :=
  k <- transverse_wavevectors k0 plv expn;;
  w <- angular_frequency wl;;
  let kx := k.1 in let ky := k.2 in
  let q := select_eigenvalues_sign
    (\row_i csqrt (permittivity * RtoC (w * w) - RtoC (kx 0 i ^+ 2) - RtoC (ky 0 i ^+ 2))) in
  r <- recipC permittivity;;
  Val {| wavelength := wl; in_plane_wavevector := k0; primitive_lattice_vectors := plv;
         expansion := expn;
         eigenvalues := row_mx q q;
         eigenvectors := 1%:M;
         z_permittivity_matrix := diag (const_mx permittivity);
         inverse_z_permittivity_matrix := diag (const_mx r);
         z_permeability_matrix := diag (const_mx 1);
         inverse_z_permeability_matrix := diag (const_mx 1);
         transverse_permeability_matrix := diag (const_mx 1);
         tangent_vector_field := None |}.

(** utils.py 111-175 ([eig]), as an oracle: eigenvalues and the matrix of right eigenvectors
    (columns). Its specification is [eig_spec]; which of the solutions is returned, and
    whether one is returned, is left open. *)
Definition eig_fn := forall m, 'M[C]_m -> res ('rV[C]_m * 'M[C]_m).
Definition eig_spec (eig : eig_fn) :=
  forall m (A : 'M[C]_m) v V, eig m A = Val (v, V) -> A *m V = V *m diag v.

(** fmm.py 766-846 [_numerical_eigensolve] *)
Definition numerical_eigensolve (eig : eig_fn) n (wl : R) (k0 : R * R) (plv : lattice)
    (eps_z inv_eps_z : 'M[C]_n) (eps_t : 'M[C]_(n + n))
    (mu_z inv_mu_z : 'M[C]_n) (mu_t : 'M[C]_(n + n))
    (expn : n.-tuple (Z * Z)) (tvf : option grid_pair) : res (layer_solve_result n) :=
  k <- transverse_wavevectors k0 plv expn;;
  k_matrix <- k_matrix_patterned mu_z k;;
  omega_script_k <- omega_script_k_matrix_patterned wl eps_z mu_t k;;
  let matrix := eps_t *m omega_script_k - k_matrix *m mu_t in
  '(q2, phi) <- eig _ matrix;;
  let q := select_eigenvalues_sign (map_mx csqrt q2) in
  Val {| wavelength := wl; in_plane_wavevector := k0; primitive_lattice_vectors := plv;
         expansion := expn; eigenvalues := q; eigenvectors := phi;
         z_permittivity_matrix := eps_z; inverse_z_permittivity_matrix := inv_eps_z;
         z_permeability_matrix := mu_z; inverse_z_permeability_matrix := inv_mu_z;
         transverse_permeability_matrix := mu_t; tangent_vector_field := tvf |}.

(** [Formulation | VectorFn]: a callable that computes the tangent vector field. The named
    vector formulations select such a callable from [vector.VECTOR_FIELD_SCHEMES] (M_vector.v). *)
Definition vector_fn nx ny n :=
  'M[C]_(nx, ny) -> n.-tuple (Z * Z) -> lattice -> res ('M[C]_(nx, ny) * 'M[C]_(nx, ny)).
Inductive formulation nx ny n := FFT | Vector of vector_fn nx ny n.
Arguments FFT {nx ny n}.

(** fmm.py 854-915 [fourier_matrices_patterned_isotropic_media] *)
Definition fourier_matrices_patterned_isotropic_media nx ny n (plv : lattice)
    (permittivity : 'M[C]_(nx, ny)) (expn : n.-tuple (Z * Z)) (form : formulation nx ny n)
    : res ('M[C]_n * 'M[C]_n * 'M[C]_(n + n) * option grid_pair) :=
  let transform x := fourier_convolution_matrix x expn in
  tvf <- (match form with
          | FFT => Val None
          | Vector f => '(tx, ty) <- f permittivity expn plv;; Val (Some (tx, ty))
          end);;
  inv_permittivity <- recipM permittivity;;
  inv_eps_z <- transform inv_permittivity;;
  eps_z <- transform permittivity;;
  eps_t <- (match tvf with
            | None => transverse_permittivity_fft permittivity expn
            | Some (tx, ty) => transverse_permittivity_vector permittivity tx ty expn
            end);;
  Val (inv_eps_z, eps_z, eps_t, omap (fun t => GridPair t.1 t.2) tvf).

(** fmm.py 478-550 [_eigensolve_patterned_isotropic_media] *)
Definition eigensolve_patterned_isotropic_media (eig : eig_fn) nx ny n (wl : R) (k0 : R * R)
    (plv : lattice) (permittivity : 'M[C]_(nx, ny)) (expn : n.-tuple (Z * Z))
    (form : formulation nx ny n) : res (layer_solve_result n) :=
  '(inv_eps_z, eps_z, eps_t, tvf) <-
     fourier_matrices_patterned_isotropic_media plv permittivity expn form;;
  let one := diag (const_mx 1) : 'M[C]_n in
  let zero := diag (const_mx 0) : 'M[C]_n in
  numerical_eigensolve eig wl k0 plv eps_z inv_eps_z eps_t one one (block_mx one zero zero one)
    expn tvf.

(** A permittivity or permeability tensor [(xx, xy, yx, yy, zz)]. *)
Record tensor (T : Type) := Tensor { t_xx : T; t_xy : T; t_yx : T; t_yy : T; t_zz : T }.

(** fmm.py 553-658 [_eigensolve_uniform_general_anisotropic_media]; every component has
    trailing shape (1, 1), i.e. is one number (otherwise a ValueError: M_batch.v). *)
Definition eigensolve_uniform_general_anisotropic_media (eig : eig_fn) n (wl : R) (k0 : R * R)
    (plv : lattice) (eps mu : tensor C) (expn : n.-tuple (Z * Z)) : res (layer_solve_result n) :=
  let d (x : C) := diag (const_mx x) : 'M[C]_n in
  r_eps <- recipC (t_zz eps);;
  r_mu <- recipC (t_zz mu);;
  numerical_eigensolve eig wl k0 plv
    (d (t_zz eps)) (d r_eps)
    (block_mx (d (t_yy eps)) (d (- t_yx eps)) (d (- t_xy eps)) (d (t_xx eps)))
    (d (t_zz mu)) (d r_mu)
    (block_mx (d (t_xx mu)) (d (t_xy mu)) (d (t_yx mu)) (d (t_yy mu)))
    expn None.

(** fmm.py 918-1047 [fourier_matrices_patterned_anisotropic_media] *)
Definition fourier_matrices_patterned_anisotropic_media nx ny n (plv : lattice)
    (eps mu : tensor 'M[C]_(nx, ny)) (expn : n.-tuple (Z * Z)) (form : formulation nx ny n)
    (vector_field_source : 'M[C]_(nx, ny))
    : res ('M[C]_n * 'M[C]_n * 'M[C]_(n + n) * 'M[C]_n * 'M[C]_n * 'M[C]_(n + n) * option grid_pair) :=
  let transform x := fourier_convolution_matrix x expn in
  tvf <- (match form with
          | FFT => Val None
          | Vector f => '(tx, ty) <- f vector_field_source expn plv;; Val (Some (tx, ty))
          end);;
  inv_zz_eps <- recipM (t_zz eps);;
  inv_eps_z <- transform inv_zz_eps;;
  eps_z <- transform (t_zz eps);;
  eps_t <- (match tvf with
            | None => transverse_permittivity_fft_anisotropic
                        (t_xx eps) (t_xy eps) (t_yx eps) (t_yy eps) expn
            | Some (tx, ty) => transverse_permittivity_vector_anisotropic
                        (t_xx eps) (t_xy eps) (t_yx eps) (t_yy eps) tx ty expn
            end);;
  inv_zz_mu <- recipM (t_zz mu);;
  inv_mu_z <- transform inv_zz_mu;;
  mu_z <- transform (t_zz mu);;
  mu_t <- (match tvf with
           | None => transverse_permeability_fft_anisotropic
                       (t_xx mu) (t_xy mu) (t_yx mu) (t_yy mu) expn
           | Some (tx, ty) => transverse_permeability_vector_anisotropic
                       (t_xx mu) (t_xy mu) (t_yx mu) (t_yy mu) tx ty expn
           end);;
  Val (inv_eps_z, eps_z, eps_t, inv_mu_z, mu_z, mu_t, omap (fun t => GridPair t.1 t.2) tvf).

(** fmm.py 661-758 [_eigensolve_patterned_general_anisotropic_media] *)
Definition eigensolve_patterned_general_anisotropic_media (eig : eig_fn) nx ny n (wl : R)
    (k0 : R * R) (plv : lattice) (eps mu : tensor 'M[C]_(nx, ny)) (expn : n.-tuple (Z * Z))
    (form : formulation nx ny n) (vector_field_source : 'M[C]_(nx, ny))
    : res (layer_solve_result n) :=
  '(inv_eps_z, eps_z, eps_t, inv_mu_z, mu_z, mu_t, tvf) <-
     fourier_matrices_patterned_anisotropic_media plv eps mu expn form vector_field_source;;
  numerical_eigensolve eig wl k0 plv eps_z inv_eps_z eps_t mu_z inv_mu_z mu_t expn tvf.

(** The single element of an array of trailing shape (1, 1). *)
Definition squeeze11 nx ny (x : 'M[C]_(nx, ny)) : C := mxget x 0 0.

(** fmm.py 41-81 [eigensolve_isotropic_media] *)
Definition eigensolve_isotropic_media (eig : eig_fn) nx ny n (wl : R) (k0 : R * R) (plv : lattice)
    (permittivity : 'M[C]_(nx, ny)) (expn : n.-tuple (Z * Z)) (form : formulation nx ny n)
    : res (layer_solve_result n) :=
  if (nx, ny) == (1, 1)%N
  then eigensolve_uniform_isotropic_media wl k0 plv (squeeze11 permittivity) expn
  else eigensolve_patterned_isotropic_media eig wl k0 plv permittivity expn form.

Definition tensor_map (A B : Type) (f : A -> B) (t : tensor A) : tensor B :=
  Tensor (f (t_xx t)) (f (t_xy t)) (f (t_yx t)) (f (t_yy t)) (f (t_zz t)).

(** fmm.py 139-224 [eigensolve_general_anisotropic_media]; all components have the same
    shape (otherwise a ValueError: M_batch.v). *)
Definition eigensolve_general_anisotropic_media (eig : eig_fn) nx ny n (wl : R) (k0 : R * R)
    (plv : lattice) (eps mu : tensor 'M[C]_(nx, ny)) (expn : n.-tuple (Z * Z))
    (form : formulation nx ny n) (vector_field_source : option 'M[C]_(nx, ny))
    : res (layer_solve_result n) :=
  if (nx, ny) == (1, 1)%N
  then eigensolve_uniform_general_anisotropic_media eig wl k0 plv
         (tensor_map (@squeeze11 nx ny) eps) (tensor_map (@squeeze11 nx ny) mu) expn
  else
    let source := match vector_field_source with
                  | Some s => s
                  | None => map_mx (fun z : C => z / RtoC 2%coqR) (t_xx eps + t_yy eps)
                  end in
    eigensolve_patterned_general_anisotropic_media eig wl k0 plv eps mu expn form source.

(** fmm.py 85-136 [eigensolve_anisotropic_media] *)
Definition eigensolve_anisotropic_media (eig : eig_fn) nx ny n (wl : R) (k0 : R * R)
    (plv : lattice) (eps : tensor 'M[C]_(nx, ny)) (expn : n.-tuple (Z * Z))
    (form : formulation nx ny n) : res (layer_solve_result n) :=
  let ones := const_mx 1 : 'M[C]_(nx, ny) in
  let zeros := const_mx 0 : 'M[C]_(nx, ny) in
  eigensolve_general_anisotropic_media eig wl k0 plv eps
    (Tensor ones zeros zeros ones ones) expn form None.

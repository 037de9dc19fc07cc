(** Model of src/fmmax/fmm_matrices.py, for one batch element. *)
From Coq Require Import Reals ZArith.
From mathcomp Require Import all_ssreflect all_algebra.
From Verif Require Import CField Err LinAlg M_utils M_basis M_fft.
Set Implicit Arguments. Unset Strict Implicit. Unset Printing Implicit Defensive.
Import GRing.Theory.
Local Open Scope ring_scope.

(** fmm_matrices.py 56-71 [script_k_matrix_patterned] *)
Definition script_k_matrix_patterned n (z_permittivity_matrix : 'M[C]_n)
    (transverse_wavevectors : 'rV[R]_n * 'rV[R]_n) : res 'M[C]_(n + n) :=
  let kx := vC transverse_wavevectors.1 in
  let ky := vC transverse_wavevectors.2 in
  z_inv_kx <- solve z_permittivity_matrix (diag kx);;
  z_inv_ky <- solve z_permittivity_matrix (diag ky);;
  Val (block_mx (rowscale ky z_inv_ky) (rowscale (- ky) z_inv_kx)
                (rowscale (- kx) z_inv_ky) (rowscale kx z_inv_kx)).

(** fmm_matrices.py 74-89 [k_matrix_patterned] *)
Definition k_matrix_patterned n (z_permeability_matrix : 'M[C]_n)
    (transverse_wavevectors : 'rV[R]_n * 'rV[R]_n) : res 'M[C]_(n + n) :=
  let kx := vC transverse_wavevectors.1 in
  let ky := vC transverse_wavevectors.2 in
  z_inv_kx <- solve z_permeability_matrix (diag kx);;
  z_inv_ky <- solve z_permeability_matrix (diag ky);;
  Val (block_mx (rowscale kx z_inv_kx) (rowscale kx z_inv_ky)
                (rowscale ky z_inv_kx) (rowscale ky z_inv_ky)).

(** fmm_matrices.py 35-53 [script_k_matrix_uniform] *)
Definition script_k_matrix_uniform n (permittivity : C)
    (transverse_wavevectors : 'rV[R]_n * 'rV[R]_n) : res 'M[C]_(n + n) :=
  let kx := vC transverse_wavevectors.1 in
  let ky := vC transverse_wavevectors.2 in
  r <- recipC permittivity;;
  Val (block_mx (diag (\row_i (ky 0 i * r * ky 0 i))) (diag (\row_i (- ky 0 i * r * kx 0 i)))
                (diag (\row_i (- kx 0 i * r * ky 0 i))) (diag (\row_i (kx 0 i * r * kx 0 i)))).

(** fmm_matrices.py 14-27 [omega_script_k_matrix_patterned] *)
Definition omega_script_k_matrix_patterned n (wavelength : R) (z_permittivity_matrix : 'M[C]_n)
    (transverse_permeability_matrix : 'M[C]_(n + n))
    (transverse_wavevectors : 'rV[R]_n * 'rV[R]_n) : res 'M[C]_(n + n) :=
  script_k_matrix <- script_k_matrix_patterned z_permittivity_matrix transverse_wavevectors;;
  w <- angular_frequency wavelength;;
  Val (RtoC (w * w) *: transverse_permeability_matrix - script_k_matrix).

(** Elementwise [1 / x] on a real-space array. *)
Definition recipM nx ny (x : 'M[C]_(nx, ny)) : res 'M[C]_(nx, ny) :=
  if [forall i, forall j, x i j != 0] then Val (map_mx (fun z : C => z^-1) x) else Exn NonFinite.

(** fmm_matrices.py 97-112 [transverse_permittivity_fft] *)
Definition transverse_permittivity_fft nx ny n (permittivity : 'M[C]_(nx, ny))
    (expansion : n.-tuple (Z * Z)) : res 'M[C]_(n + n) :=
  eps_hat <- fourier_convolution_matrix permittivity expansion;;
  Val (block_mx eps_hat 0 0 eps_hat).

(** [jnp.isclose(x, 0)] with default tolerances: [|x| <= 1e-8]. *)
Definition isclose0 (x : R) : bool := if Rle_dec (Rabs x) (/ 10 ^ 8)%coqR then true else false.

(** fmm_matrices.py 152-183 [_tangent_terms], at one grid point: [(Pxx, Pxy, Pyx, Pyy)]. *)
Definition tangent_terms (tx ty : C) : C * C * C * C :=
  let denom := (Cmod tx ^ 2 + Cmod ty ^ 2)%coqR in
  let denom_safe := if isclose0 denom then 1%coqR else denom in
  let Pyy := RtoC (Cmod tx ^ 2 / denom_safe)%coqR in
  let Pyx := Cconj tx * ty / RtoC denom_safe in
  let Pxy := tx * Cconj ty / RtoC denom_safe in
  let Pxx := RtoC (Cmod ty ^ 2 / denom_safe)%coqR in
  (Pxx, Pxy, Pyx, Pyy).

(** fmm_matrices.py 115-149 [transverse_permittivity_vector] *)
Definition transverse_permittivity_vector nx ny n (permittivity tx ty : 'M[C]_(nx, ny))
    (expansion : n.-tuple (Z * Z)) : res 'M[C]_(n + n) :=
  let transform x := fourier_convolution_matrix x expansion in
  eps_hat <- transform permittivity;;
  eta <- recipM permittivity;;
  eta_hat <- transform eta;;
  inv_eta_hat <- inv eta_hat;;
  let delta_hat := eps_hat - inv_eta_hat in
  pyy <- transform (\matrix_(i, j) (tangent_terms (tx i j) (ty i j)).2);;
  pyx <- transform (\matrix_(i, j) (tangent_terms (tx i j) (ty i j)).1.2);;
  pxy <- transform (\matrix_(i, j) (tangent_terms (tx i j) (ty i j)).1.1.2);;
  pxx <- transform (\matrix_(i, j) (tangent_terms (tx i j) (ty i j)).1.1.1);;
  Val (block_mx eps_hat 0 0 eps_hat - block_mx delta_hat 0 0 delta_hat *m block_mx pyy pyx pxy pxx).

(** fmm_matrices.py 191-205 [transverse_permittivity_fft_anisotropic] *)
Definition transverse_permittivity_fft_anisotropic nx ny n
    (permittivity_xx permittivity_xy permittivity_yx permittivity_yy : 'M[C]_(nx, ny))
    (expansion : n.-tuple (Z * Z)) : res 'M[C]_(n + n) :=
  let transform x := fourier_convolution_matrix x expansion in
  a <- transform permittivity_yy;;
  b <- transform (- permittivity_yx);;
  c <- transform (- permittivity_xy);;
  d <- transform permittivity_xx;;
  Val (block_mx a b c d).

(** fmm_matrices.py 208-222 [transverse_permeability_fft_anisotropic] *)
Definition transverse_permeability_fft_anisotropic nx ny n
    (permeability_xx permeability_xy permeability_yx permeability_yy : 'M[C]_(nx, ny))
    (expansion : n.-tuple (Z * Z)) : res 'M[C]_(n + n) :=
  let transform x := fourier_convolution_matrix x expansion in
  a <- transform permeability_xx;;
  b <- transform permeability_xy;;
  c <- transform permeability_yx;;
  d <- transform permeability_yy;;
  Val (block_mx a b c d).

(** A field of 2x2 matrices over the real-space grid: [(m00, m01, m10, m11)]. *)
Record grid22 nx ny := Grid22 { g00 : 'M[C]_(nx, ny); g01 : 'M[C]_(nx, ny);
                                g10 : 'M[C]_(nx, ny); g11 : 'M[C]_(nx, ny) }.
(** The 2x2 matrix at grid point [(i, j)]. *)
Definition mx22 (a b c d : C) : 'M[C]_2 :=
  \matrix_(i, j) (if (i == 0) then (if j == 0 then a else b) else (if j == 0 then c else d)).
Definition at22 nx ny (g : grid22 nx ny) i j : 'M[C]_2 :=
  mx22 (g00 g i j) (g01 g i j) (g10 g i j) (g11 g i j).
(** [jnp.linalg.solve(T, A @ T)] at each grid point: non-finite if [T] is singular anywhere. *)
Definition solve22 nx ny (T A : grid22 nx ny) : res (grid22 nx ny) :=
  if [forall i, forall j, at22 T i j \in unitmx] then
    let X i j := invmx (at22 T i j) *m (at22 A i j *m at22 T i j) in
    Val (Grid22 (\matrix_(i, j) X i j 0 0) (\matrix_(i, j) X i j 0 1)
                (\matrix_(i, j) X i j 1 0) (\matrix_(i, j) X i j 1 1))
  else Exn NonFinite.

(** fmm_matrices.py 408-447 [_rotation_matrices]: real-space matrix, its blockwise
    transform, and the blockwise transform of its inverse. *)
Definition rotation_matrices nx ny n (t00 t01 t10 t11 : 'M[C]_(nx, ny))
    (expansion : n.-tuple (Z * Z)) : res (grid22 nx ny * 'M[C]_(n + n) * 'M[C]_(n + n)) :=
  let transform x := fourier_convolution_matrix x expansion in
  f00 <- transform t00;; f01 <- transform t01;;
  f10 <- transform t10;; f11 <- transform t11;;
  let denom := fun i j => Cmod (t00 i j * t11 i j - t10 i j * t01 i j) in
  let denom_safe := fun i j => if isclose0 (denom i j) then 1%coqR else denom i j in
  i00 <- transform (\matrix_(i, j) (t11 i j / RtoC (denom_safe i j)));;
  i01 <- transform (\matrix_(i, j) (- t01 i j / RtoC (denom_safe i j)));;
  i10 <- transform (\matrix_(i, j) (- t10 i j / RtoC (denom_safe i j)));;
  i11 <- transform (\matrix_(i, j) (t00 i j / RtoC (denom_safe i j)));;
  Val (Grid22 t00 t01 t10 t11, block_mx f00 f01 f10 f11, block_mx i00 i01 i10 i11).

(** Shared tail of the two vector functions below (fmm_matrices.py 285-310 and 377-405). *)
Definition rotated_fourier_matrix nx ny n (tensor : grid22 nx ny)
    (rot : grid22 nx ny * 'M[C]_(n + n) * 'M[C]_(n + n))
    (expansion : n.-tuple (Z * Z)) : res 'M[C]_(n + n) :=
  let transform x := fourier_convolution_matrix x expansion in
  rotated <- solve22 rot.1.1 tensor;;
  a <- transform (g00 rotated);;
  b <- transform (g01 rotated);;
  c <- transform (g10 rotated);;
  r11 <- recipM (g11 rotated);;
  t11 <- transform r11;;
  d <- inv t11;;
  Val (rot.1.2 *m block_mx a b c d *m rot.2).

(** fmm_matrices.py 225-310 [transverse_permittivity_vector_anisotropic] *)
Definition transverse_permittivity_vector_anisotropic nx ny n
    (permittivity_xx permittivity_xy permittivity_yx permittivity_yy tx ty : 'M[C]_(nx, ny))
    (expansion : n.-tuple (Z * Z)) : res 'M[C]_(n + n) :=
  rot <- rotation_matrices ty (conjm tx) (- tx) (conjm ty) expansion;;
  rotated_fourier_matrix
    (Grid22 permittivity_yy (- permittivity_yx) (- permittivity_xy) permittivity_xx) rot expansion.

(** fmm_matrices.py 313-405 [transverse_permeability_vector_anisotropic] *)
Definition transverse_permeability_vector_anisotropic nx ny n
    (permeability_xx permeability_xy permeability_yx permeability_yy tx ty : 'M[C]_(nx, ny))
    (expansion : n.-tuple (Z * Z)) : res 'M[C]_(n + n) :=
  rot <- rotation_matrices tx (- conjm ty) ty (conjm tx) expansion;;
  rotated_fourier_matrix
    (Grid22 permeability_xx permeability_xy permeability_yx permeability_yy) rot expansion.

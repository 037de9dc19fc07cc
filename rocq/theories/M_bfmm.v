(** Model of fmm.py and fmm_matrices.py with batch dimensions: patterned and anisotropic layers.
    Arrays of matrices are arrays, over the batch axes, of matrices (M_bstack.v). *)
From Coq Require Import Reals ZArith.
From mathcomp Require Import all_ssreflect all_algebra.
From Verif Require Import CField Err LinAlg M_utils M_basis M_fft M_fmm_matrices M_nd M_fmm M_vector M_batch M_bstack M_bvector.
Set Implicit Arguments. Unset Strict Implicit. Unset Printing Implicit Defensive.
Import GRing.Theory.

(** The array with trailing axes given by an array of matrices, or of vectors. *)
Definition entries n p (x : batch 'M[C]_(n, p)) : nd (res C) :=
  Nd (nshape x ++ [:: n; p]) (fun idx =>
    rmap (fun A => mxget A (nth 0 idx (size idx - 2)) (last 0 idx)) (nget x (butlast 2 idx))).
Definition ventries n (x : batch 'rV[C]_n) : nd (res C) :=
  Nd (nshape x ++ [:: n]) (fun idx => rmap (fun v => mxget v 0 (last 0 idx)) (nget x (butlast 1 idx))).

(** ** fmm_matrices.py *)
(** fmm_matrices.py 74-89 [k_matrix_patterned] *)
Definition k_matrix_patterned_b n (z_permeability_matrix : batch 'M[C]_n) (kx ky : batch 'rV[R]_n)
    : res (batch 'M[C]_(n + n)) :=
  let kx := bmap (fun k => vC k) kx in
  let ky := bmap (fun k => vC k) ky in
  z_inv_kx <- bsolve z_permeability_matrix (bmap (fun k => diag k) kx);;
  z_inv_ky <- bsolve z_permeability_matrix (bmap (fun k => diag k) ky);;
  b11 <- brow kx z_inv_kx;;
  b12 <- brow kx z_inv_ky;;
  b21 <- brow ky z_inv_kx;;
  b22 <- brow ky z_inv_ky;;
  bblock b11 b12 b21 b22.

(** fft.py 14-37 [fourier_convolution_matrix]: the transform is along the last two axes, for each
    element of the batch. *)
Definition fourier_convolution_matrix_b nx ny n (x : batch 'M[C]_(nx, ny)) (expansion : n.-tuple (Z * Z))
    : res (batch 'M[C]_n) :=
  _ <- validate_shape_for_expansion (nx, ny) expansion;;
  Val (pmap (fun a => fourier_convolution_matrix a expansion) x).

(** fmm_matrices.py 97-112 [transverse_permittivity_fft] *)
Definition transverse_permittivity_fft_b nx ny n (permittivity : batch 'M[C]_(nx, ny)) (expansion : n.-tuple (Z * Z))
    : res (batch 'M[C]_(n + n)) :=
  eps_hat <- fourier_convolution_matrix_b permittivity expansion;;
  let zeros := zeros n (nshape eps_hat) in
  bblock eps_hat zeros zeros eps_hat.

(** fmm_matrices.py 115-149 [transverse_permittivity_vector], with 152-183 [_tangent_terms] *)
Definition transverse_permittivity_vector_b nx ny n (permittivity tx ty : batch 'M[C]_(nx, ny))
    (expansion : n.-tuple (Z * Z)) : res (batch 'M[C]_(n + n)) :=
  let transform x := fourier_convolution_matrix_b x expansion in
  eps_hat <- transform permittivity;;
  let zeros := zeros n (nshape eps_hat) in
  eps_matrix <- bblock eps_hat zeros zeros eps_hat;;
  let eta := pmap (fun a => recipM a) permittivity in
  eta_hat <- transform eta;;
  delta_hat <- bsub eps_hat (pmap (fun a => inv a) eta_hat);;
  delta_matrix <- bblock delta_hat zeros zeros delta_hat;;
  let term (p : C * C * C * C -> C) :=
    x <- bmap2 (fun tx ty : 'M[C]_(nx, ny) => \matrix_(i, j) p (tangent_terms (tx i j) (ty i j)))%R tx ty;;
    transform x in
  pyy <- term (fun t => t.2);;
  pyx <- term (fun t => t.1.2);;
  pxy <- term (fun t => t.1.1.2);;
  pxx <- term (fun t => t.1.1.1);;
  p_matrix <- bblock pyy pyx pxy pxx;;
  dp <- bmul delta_matrix p_matrix;;
  bsub eps_matrix dp.

(** fmm_matrices.py 191-205 [transverse_permittivity_fft_anisotropic] *)
Definition transverse_permittivity_fft_anisotropic_b nx ny n
    (permittivity_xx permittivity_xy permittivity_yx permittivity_yy : batch 'M[C]_(nx, ny))
    (expansion : n.-tuple (Z * Z)) : res (batch 'M[C]_(n + n)) :=
  let transform x := fourier_convolution_matrix_b x expansion in
  a <- transform permittivity_yy;;
  b <- transform (bmap (fun x => - x)%R permittivity_yx);;
  c <- transform (bmap (fun x => - x)%R permittivity_xy);;
  d <- transform permittivity_xx;;
  bblock a b c d.

(** fmm_matrices.py 208-222 [transverse_permeability_fft_anisotropic] *)
Definition transverse_permeability_fft_anisotropic_b nx ny n
    (permeability_xx permeability_xy permeability_yx permeability_yy : batch 'M[C]_(nx, ny))
    (expansion : n.-tuple (Z * Z)) : res (batch 'M[C]_(n + n)) :=
  let transform x := fourier_convolution_matrix_b x expansion in
  a <- transform permeability_xx;;
  b <- transform permeability_xy;;
  c <- transform permeability_yx;;
  d <- transform permeability_yy;;
  bblock a b c d.

(** [jnp.block] of four arrays with two new trailing axes *)
Definition bgrid22 nx ny (a b c d : batch 'M[C]_(nx, ny)) : res (batch (grid22 nx ny)) :=
  check [&& nshape b == nshape a, nshape c == nshape a & nshape d == nshape a] ValueError
  (Val (Nd (nshape a) (fun idx =>
     w <- nget a idx;; x <- nget b idx;; y <- nget c idx;; z <- nget d idx;; Val (Grid22 w x y z)))).

(** fmm_matrices.py 408-447 [_rotation_matrices] *)
Definition rotation_matrices_b nx ny n (t00 t01 t10 t11 : batch 'M[C]_(nx, ny)) (expansion : n.-tuple (Z * Z))
    : res (batch (grid22 nx ny) * batch 'M[C]_(n + n) * batch 'M[C]_(n + n)) :=
  let transform x := fourier_convolution_matrix_b x expansion in
  rotation_matrix <- bgrid22 t00 t01 t10 t11;;
  f00 <- transform t00;; f01 <- transform t01;; f10 <- transform t10;; f11 <- transform t11;;
  fourier_rotation_matrix <- bblock f00 f01 f10 f11;;
  let times := bmap2 (fun a b : 'M[C]_(nx, ny) => \matrix_(i, j) (a i j * b i j))%R in
  x <- times t00 t11;; y <- times t10 t01;; det <- bsub x y;;
  let denom := bmap (fun a => map_mx Cmod a) det in
  let denom_safe := bmap (fun a => map_mx (fun d : R => if isclose0 d then 1%coqR else d) a) denom in
  let over t := bmap2 (fun (a : 'M[C]_(nx, ny)) (d : 'M[R]_(nx, ny)) => \matrix_(i, j) (a i j / RtoC (d i j)))%R t denom_safe in
  let neg := bmap (fun a : 'M[C]_(nx, ny) => - a)%R in
  i00 <- over t11;; i01 <- over (neg t01);; i10 <- over (neg t10);; i11 <- over t00;;
  i00 <- transform i00;; i01 <- transform i01;; i10 <- transform i10;; i11 <- transform i11;;
  fourier_inverse_rotation_matrix <- bblock i00 i01 i10 i11;;
  Val (rotation_matrix, fourier_rotation_matrix, fourier_inverse_rotation_matrix).

(** Shared tail of the two vector functions (fmm_matrices.py 285-310 and 377-405). *)
Definition rotated_fourier_matrix_b nx ny n (tensor : batch (grid22 nx ny))
    (rot : batch (grid22 nx ny) * batch 'M[C]_(n + n) * batch 'M[C]_(n + n)) (expansion : n.-tuple (Z * Z))
    : res (batch 'M[C]_(n + n)) :=
  let transform x := fourier_convolution_matrix_b x expansion in
  rotated <- pmap2 (fun T A => solve22 T A) rot.1.1 tensor;;
  a <- transform (bmap (fun g => g00 g) rotated);;
  b <- transform (bmap (fun g => g01 g) rotated);;
  c <- transform (bmap (fun g => g10 g) rotated);;
  t11 <- transform (pmap (fun g => recipM (g11 g)) rotated);;
  m <- bblock a b c (pmap (fun x => inv x) t11);;
  y <- bmul rot.1.2 m;;
  bmul y rot.2.

(** fmm_matrices.py 225-310 [transverse_permittivity_vector_anisotropic] *)
Definition transverse_permittivity_vector_anisotropic_b nx ny n
    (permittivity_xx permittivity_xy permittivity_yx permittivity_yy tx ty : batch 'M[C]_(nx, ny))
    (expansion : n.-tuple (Z * Z)) : res (batch 'M[C]_(n + n)) :=
  let neg := bmap (fun a : 'M[C]_(nx, ny) => - a)%R in
  let conj := bmap (fun a : 'M[C]_(nx, ny) => conjm a) in
  rot <- rotation_matrices_b ty (conj tx) (neg tx) (conj ty) expansion;;
  tensor <- bgrid22 permittivity_yy (neg permittivity_yx) (neg permittivity_xy) permittivity_xx;;
  rotated_fourier_matrix_b tensor rot expansion.

(** fmm_matrices.py 313-405 [transverse_permeability_vector_anisotropic] *)
Definition transverse_permeability_vector_anisotropic_b nx ny n
    (permeability_xx permeability_xy permeability_yx permeability_yy tx ty : batch 'M[C]_(nx, ny))
    (expansion : n.-tuple (Z * Z)) : res (batch 'M[C]_(n + n)) :=
  let neg := bmap (fun a : 'M[C]_(nx, ny) => - a)%R in
  let conj := bmap (fun a : 'M[C]_(nx, ny) => conjm a) in
  rot <- rotation_matrices_b tx (neg (conj ty)) ty (conj tx) expansion;;
  tensor <- bgrid22 permeability_xx permeability_xy permeability_yx permeability_yy;;
  rotated_fourier_matrix_b tensor rot expansion.

(** ** fmm.py *)
(** [Formulation | VectorFn], for arrays with batch dimensions *)
Inductive bformulation nx ny n := BFFT | BVector of bvector_fn nx ny n.
Arguments BFFT {nx ny n}.
Definition tangent_b nx ny n (form : bformulation nx ny n) (source : batch 'M[C]_(nx, ny)) (expn : n.-tuple (Z * Z))
    (u v : nd R) : res (option (batch 'M[C]_(nx, ny) * batch 'M[C]_(nx, ny))) :=
  match form with
  | BFFT => Val None
  | BVector f => t <- f source expn u v;; Val (Some t)
  end.

(** fmm.py 854-915 [fourier_matrices_patterned_isotropic_media] *)
Definition fourier_matrices_patterned_isotropic_media_b nx ny n (u v : nd R) (permittivity : batch 'M[C]_(nx, ny))
    (expn : n.-tuple (Z * Z)) (form : bformulation nx ny n)
    : res (batch 'M[C]_n * batch 'M[C]_n * batch 'M[C]_(n + n) * option (batch 'M[C]_(nx, ny) * batch 'M[C]_(nx, ny))) :=
  let transform x := fourier_convolution_matrix_b x expn in
  tvf <- tangent_b form permittivity expn u v;;
  inv_eps_z <- transform (pmap (fun a => recipM a) permittivity);;
  eps_z <- transform permittivity;;
  eps_t <- (match tvf with
            | None => transverse_permittivity_fft_b permittivity expn
            | Some (tx, ty) => transverse_permittivity_vector_b permittivity tx ty expn
            end);;
  Val (inv_eps_z, eps_z, eps_t, tvf).

(** fmm.py 918-1047 [fourier_matrices_patterned_anisotropic_media] *)
Definition fourier_matrices_patterned_anisotropic_media_b nx ny n (u v : nd R) (eps mu : tensor (batch 'M[C]_(nx, ny)))
    (expn : n.-tuple (Z * Z)) (form : bformulation nx ny n) (vector_field_source : batch 'M[C]_(nx, ny))
    : res (batch 'M[C]_n * batch 'M[C]_n * batch 'M[C]_(n + n) * batch 'M[C]_n * batch 'M[C]_n * batch 'M[C]_(n + n) *
           option (batch 'M[C]_(nx, ny) * batch 'M[C]_(nx, ny))) :=
  let transform x := fourier_convolution_matrix_b x expn in
  tvf <- tangent_b form vector_field_source expn u v;;
  inv_eps_z <- transform (pmap (fun a => recipM a) (t_zz eps));;
  eps_z <- transform (t_zz eps);;
  eps_t <- (match tvf with
            | None => transverse_permittivity_fft_anisotropic_b (t_xx eps) (t_xy eps) (t_yx eps) (t_yy eps) expn
            | Some (tx, ty) =>
                transverse_permittivity_vector_anisotropic_b (t_xx eps) (t_xy eps) (t_yx eps) (t_yy eps) tx ty expn
            end);;
  inv_mu_z <- transform (pmap (fun a => recipM a) (t_zz mu));;
  mu_z <- transform (t_zz mu);;
  mu_t <- (match tvf with
           | None => transverse_permeability_fft_anisotropic_b (t_xx mu) (t_xy mu) (t_yx mu) (t_yy mu) expn
           | Some (tx, ty) =>
               transverse_permeability_vector_anisotropic_b (t_xx mu) (t_xy mu) (t_yx mu) (t_yy mu) tx ty expn
           end);;
  Val (inv_eps_z, eps_z, eps_t, inv_mu_z, mu_z, mu_t, tvf).

(** fmm.py 766-846 [_numerical_eigensolve]. [utils.eig] acts on each matrix of the batch. *)
Definition numerical_eigensolve_b (eig : eig_fn) n (wl k u v : nd R)
    (eps_z inv_eps_z : batch 'M[C]_n) (eps_t : batch 'M[C]_(n + n))
    (mu_z inv_mu_z : batch 'M[C]_n) (mu_t : batch 'M[C]_(n + n))
    (expn : n.-tuple (Z * Z)) (tvf : option (nd (res C) * nd (res C))) : res (batched_result n) :=
  transverse_wavevectors <- transverse_wavevectors_b (fin k) (fin u) (fin v) expn;;
  kx <- vectors 0%coqR n (component 0 transverse_wavevectors);;
  ky <- vectors 0%coqR n (component 1 transverse_wavevectors);;
  k_matrix <- k_matrix_patterned_b mu_z kx ky;;
  omega_script_k <- omega_script_k_matrix_patterned_b wl eps_z mu_t kx ky;;
  x <- bmul eps_t omega_script_k;;
  y <- bmul k_matrix mu_t;;
  matrix <- bsub x y;;
  let e := pmap (fun A => eig (n + n) A) matrix in
  let eigenvalues := bmap (fun e => select_eigenvalues_sign (map_mx csqrt e.1)) e in
  let eigenvectors := bmap (fun e => e.2) e in
  let r := BatchedResult wl k u v expn (ventries eigenvalues) (entries eigenvectors) (entries eps_z) (entries inv_eps_z)
    (entries mu_z) (entries inv_mu_z) (entries mu_t) tvf in
  _ <- post_init (shapes_of r);; Val r.
Definition tangent_entries nx ny (tvf : option (batch 'M[C]_(nx, ny) * batch 'M[C]_(nx, ny))) :=
  omap (fun t => (entries t.1, entries t.2)) tvf.

(** fmm.py 478-550 [_eigensolve_patterned_isotropic_media]; [nx] and [ny] are the trailing sizes of
    the permittivity. *)
Definition eigensolve_patterned_isotropic_media_b (eig : eig_fn) nx ny n (wavelength k u v : nd R) (permittivity : nd C)
    (expn : n.-tuple (Z * Z)) (form : bformulation nx ny n) : res (batched_result n) :=
  num_batch_dims <- validate_shapes (nshape wavelength) (nshape k) (nshape u) (nshape v) [:: nshape permittivity];;
  let wavelength := atleast_nd wavelength num_batch_dims in
  let k := atleast_nd k num_batch_dims.+1 in
  let u := atleast_nd u num_batch_dims.+1 in
  let v := atleast_nd v num_batch_dims.+1 in
  permittivity <- matrices (0 : C)%R nx ny (fin (atleast_nd permittivity num_batch_dims.+2));;
  '(inv_eps_z, eps_z, eps_t, tvf) <- fourier_matrices_patterned_isotropic_media_b u v permittivity expn form;;
  let one := eyes n (nshape eps_z) in
  let zero := zeros n (nshape eps_z) in
  mu_t <- bblock one zero zero one;;
  numerical_eigensolve_b eig wavelength k u v eps_z inv_eps_z eps_t one one mu_t expn (tangent_entries tvf).

(** fmm.py 41-81 [eigensolve_isotropic_media] *)
Definition eigensolve_isotropic_media_b (eig : eig_fn) nx ny n (wavelength k u v : nd R) (permittivity : nd C)
    (expn : n.-tuple (Z * Z)) (form : bformulation nx ny n) : res (batched_result n) :=
  if trailing2 (nshape permittivity) == [:: 1; 1]
  then eigensolve_uniform_isotropic_media_b wavelength k u v permittivity expn
  else eigensolve_patterned_isotropic_media_b eig wavelength k u v permittivity expn form.

Definition tensor_seq T (t : tensor T) : seq T := [:: t_xx t; t_xy t; t_yx t; t_yy t; t_zz t].
Definition tensor_mapM T U (f : T -> res U) (t : tensor T) : res (tensor U) :=
  xx <- f (t_xx t);; xy <- f (t_xy t);; yx <- f (t_yx t);; yy <- f (t_yy t);; zz <- f (t_zz t);;
  Val (Tensor xx xy yx yy zz).

(** fmm.py 553-658 [_eigensolve_uniform_general_anisotropic_media] *)
Definition eigensolve_uniform_general_anisotropic_media_b (eig : eig_fn) n (wavelength k u v : nd R)
    (eps mu : tensor (nd C)) (expn : n.-tuple (Z * Z)) : res (batched_result n) :=
  check (all (fun p => trailing2 (nshape p) == [:: 1; 1]) (tensor_seq eps ++ tensor_seq mu)) ValueError
  (num_batch_dims <- validate_shapes (nshape wavelength) (nshape k) (nshape u) (nshape v)
     (map (fun p => nshape p) (tensor_seq eps ++ tensor_seq mu));;
   let wavelength := atleast_nd wavelength num_batch_dims in
   let k := atleast_nd k num_batch_dims.+1 in
   let u := atleast_nd u num_batch_dims.+1 in
   let v := atleast_nd v num_batch_dims.+1 in
   let eps := tensor_map (fun p => atleast_nd p num_batch_dims.+2) eps in
   let mu := tensor_map (fun p => atleast_nd p num_batch_dims.+2) mu in
   s <- broadcast_shapes (nshape wavelength) (butlast 1 (nshape k));;
   batch_shape <- broadcast_shapes s (butlast 2 (nshape (t_xx eps)));;
   let shape := rcons batch_shape n in
   let component p := x <- broadcast_to (fin (component 0 p)) shape;; vectors (0 : C)%R n x in
   eps <- tensor_mapM component eps;;
   mu <- tensor_mapM component mu;;
   let diag := bmap (fun v : 'rV[C]_n => diag v) in
   let neg := bmap (fun v : 'rV[C]_n => - v)%R in
   eps_t <- bblock (diag (t_yy eps)) (diag (neg (t_yx eps))) (diag (neg (t_xy eps))) (diag (t_xx eps));;
   mu_t <- bblock (diag (t_xx mu)) (diag (t_xy mu)) (diag (t_yx mu)) (diag (t_yy mu));;
   numerical_eigensolve_b eig wavelength k u v
     (diag (t_zz eps)) (diag (pmap (fun v => recip v) (t_zz eps))) eps_t
     (diag (t_zz mu)) (diag (pmap (fun v => recip v) (t_zz mu))) mu_t expn None).

(** fmm.py 661-758 [_eigensolve_patterned_general_anisotropic_media] *)
Definition eigensolve_patterned_general_anisotropic_media_b (eig : eig_fn) nx ny n (wavelength k u v : nd R)
    (eps mu : tensor (nd C)) (expn : n.-tuple (Z * Z)) (form : bformulation nx ny n) (vector_field_source : nd C)
    : res (batched_result n) :=
  num_batch_dims <- validate_shapes (nshape wavelength) (nshape k) (nshape u) (nshape v)
    (map (fun p => nshape p) (tensor_seq eps ++ tensor_seq mu ++ [:: vector_field_source]));;
  let wavelength := atleast_nd wavelength num_batch_dims in
  let k := atleast_nd k num_batch_dims.+1 in
  let u := atleast_nd u num_batch_dims.+1 in
  let v := atleast_nd v num_batch_dims.+1 in
  let grid p := matrices (0 : C)%R nx ny (fin (atleast_nd p num_batch_dims.+2)) in
  eps <- tensor_mapM grid eps;;
  mu <- tensor_mapM grid mu;;
  source <- grid vector_field_source;;
  '(inv_eps_z, eps_z, eps_t, inv_mu_z, mu_z, mu_t, tvf) <-
     fourier_matrices_patterned_anisotropic_media_b u v eps mu expn form source;;
  numerical_eigensolve_b eig wavelength k u v eps_z inv_eps_z eps_t mu_z inv_mu_z mu_t expn (tangent_entries tvf).

(** fmm.py 139-224 [eigensolve_general_anisotropic_media] *)
Definition eigensolve_general_anisotropic_media_b (eig : eig_fn) nx ny n (wavelength k u v : nd R)
    (eps mu : tensor (nd C)) (expn : n.-tuple (Z * Z)) (form : bformulation nx ny n) (vector_field_source : option (nd C))
    : res (batched_result n) :=
  if trailing2 (nshape (t_xx eps)) == [:: 1; 1]
  then eigensolve_uniform_general_anisotropic_media_b eig wavelength k u v eps mu expn
  else
    source <- (match vector_field_source with
               | Some s => Val s
               | None => s <- nmap2 (fun a b : C => a + b)%R (t_xx eps) (t_yy eps);;
                         Val (nmap (fun z : C => z / RtoC 2%coqR)%R s)
               end);;
    eigensolve_patterned_general_anisotropic_media_b eig wavelength k u v eps mu expn form source.

(** fmm.py 85-136 [eigensolve_anisotropic_media] *)
Definition eigensolve_anisotropic_media_b (eig : eig_fn) nx ny n (wavelength k u v : nd R) (eps : tensor (nd C))
    (expn : n.-tuple (Z * Z)) (form : bformulation nx ny n) : res (batched_result n) :=
  let ones := Nd (nshape (t_xx eps)) (fun=> 1 : C)%R in
  let zeros := Nd (nshape (t_xx eps)) (fun=> 0 : C)%R in
  eigensolve_general_anisotropic_media_b eig wavelength k u v eps (Tensor ones zeros zeros ones ones) expn form None.

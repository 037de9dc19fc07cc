(** Model of src/fmmax/vector.py, for one array without batch dimensions. A vector field on the
    grid is a pair of arrays; [stop_gradient] has no effect on values. *)
From Coq Require Import Reals ZArith.
From mathcomp Require Import all_ssreflect all_algebra.
From Verif Require Import CField Err LinAlg M_utils M_basis M_fft M_fmm_matrices M_fmm M_fields M_nd M_farfield.
Set Implicit Arguments. Unset Strict Implicit. Unset Printing Implicit Defensive.
Import GRing.Theory.
Local Open Scope ring_scope.

Definition vfield nx ny := ('M[C]_(nx, ny) * 'M[C]_(nx, ny))%type.
(** Elementwise function of the two components. *)
Definition vmap nx ny (f : C -> C -> 'I_nx -> 'I_ny -> C * C) (v : vfield nx ny) : vfield nx ny :=
  (\matrix_(i, j) (f (v.1 i j) (v.2 i j) i j).1, \matrix_(i, j) (f (v.1 i j) (v.2 i j) i j).2).

(** [jnp.isclose] with the default relative tolerance. *)
Definition isclose (atol a b : R) : bool :=
  if Rle_dec (Rabs (a - b)) (atol + / 10 ^ 5 * Rabs b) then true else false.
(** [jnp.isclose(x, 0)] for a complex [x]; [isclose0] is the same for a real one. *)
Definition isclose0C (x : C) : bool := isclose0 (Cmod x).

(** vector.py 297-302 [_field_magnitude] *)
Definition field_magnitude nx ny (v : vfield nx ny) i j : R :=
  let magnitude_squared := (Cmod (v.1 i j) ^ 2 + Cmod (v.2 i j) ^ 2)%coqR in
  if magnitude_squared == 0%coqR then 0%coqR else sqrt magnitude_squared.
(** The points of the grid in the order of [flatten]. *)
Definition grid_points nx ny : seq ('I_nx * 'I_ny) := [seq (i, j) | i <- enum 'I_nx, j <- enum 'I_ny].
(** vector.py 305-307 [_max_field_magnitude]; the magnitudes are nonnegative. (The maximum of an
    empty array raises; here it is zero.) *)
Definition max_field_magnitude nx ny (v : vfield nx ny) : R :=
  foldr Rmax 0%coqR [seq field_magnitude v p.1 p.2 | p <- grid_points nx ny].
(** vector.py 290-294 [normalize] *)
Definition normalize nx ny (v : vfield nx ny) : vfield nx ny :=
  let max_magnitude := max_field_magnitude v in
  let safe := RtoC (if isclose0 max_magnitude then 1%coqR else max_magnitude) in
  vmap (fun x y _ _ => (x / safe, y / safe)) v.
(** vector.py 283-287 [normalize_elementwise] *)
Definition normalize_elementwise nx ny (v : vfield nx ny) : vfield nx ny :=
  let safe i j := RtoC (if isclose0 (field_magnitude v i j) then 1%coqR else field_magnitude v i j) in
  vmap (fun x y i j => (x / safe i j, y / safe i j)) v.
(** vector.py 310-316 [_angle] *)
Definition carg (z : C) : R := atan2 (im z) (re z).
Definition angle (x : C) : R := carg (if isclose0C x then 1 else x).
(** vector.py 256-280 [normalize_jones]; the second part is elementwise. *)
Definition jones_vector (tx ty : C) (magnitude : R) : C * C :=
  let near_zero := isclose0 magnitude in
  let safe := RtoC (if near_zero then 1%coqR else magnitude) in
  let tx_norm := if near_zero then RtoC (1 / sqrt 2)%coqR else tx / safe in
  let ty_norm := if near_zero then RtoC (1 / sqrt 2)%coqR else ty / safe in
  let phi := (PI / 8 * (1 + cos (PI * magnitude)))%coqR in
  let theta := angle (tx_norm + Ci * ty_norm) in
  (cexp (Ci * RtoC theta) * (tx_norm * RtoC (cos phi) - ty_norm * Ci * RtoC (sin phi)),
   cexp (Ci * RtoC theta) * (ty_norm * RtoC (cos phi) + tx_norm * Ci * RtoC (sin phi))).
Definition normalize_jones nx ny (v : vfield nx ny) : vfield nx ny :=
  let v := normalize v in
  vmap (fun x y i j => jones_vector x y (field_magnitude v i j)) v.

(** vector.py 529-535, 570-576: the matrix with columns [u] and [v], divided by the square root
    of the unit cell area. *)
Definition cell_area (l : lattice) : R := Rabs ((lat_u l).1 * (lat_v l).2 - (lat_v l).1 * (lat_u l).2).
Definition normalized_basis (l : lattice) : res 'M[C]_2 :=
  r <- recipR (sqrt (cell_area l));;
  Val (mx22 (RtoC ((lat_u l).1 * r)) (RtoC ((lat_v l).1 * r))
            (RtoC ((lat_u l).2 * r)) (RtoC ((lat_v l).2 * r))).
Definition row2 (x y : C) : 'rV[C]_2 := \row_j (if j == 0 then x else y).
(** vector.py 610-629 [_transform_gradient], [_metric_tensor] *)
Definition transform_gradient nx ny (basis_vectors : 'M[C]_2) (partial_grad : vfield nx ny)
    : res (vfield nx ny) :=
  inverse_metric_tensor <- inv (basis_vectors^T *m basis_vectors);;
  Val (vmap (fun x y _ _ => let g := row2 x y *m inverse_metric_tensor *m basis_vectors^T in (g 0 0, g 0 1))
         partial_grad).
(** vector.py 539 [jnp.pad(arr, ..., mode="wrap")] with one element on each side of both axes:
    element [k] of the result is element [k - 1] modulo the size. *)
Definition pad_wrap nx ny (x : 'M[C]_(nx, ny)) : 'M[C]_(nx + 2, ny + 2) :=
  \matrix_(i, j) mxget x ((i + nx - 1) %% nx) ((j + ny - 1) %% ny).
(** [jnp.gradient] of [n] values: central differences inside, one-sided ones at the ends. *)
Definition gradient_1d (n : nat) (x : nat -> C) (i : nat) : C :=
  if i == 0%N then x 1%N - x 0%N
  else if i == n.-1 then x i - x i.-1
  else (x i.+1 - x i.-1) / RtoC 2.
(** vector.py 627-630 [_unpad], by one element on each side *)
Definition unpad nx ny (x : 'M[C]_(nx + 2, ny + 2)) : 'M[C]_(nx, ny) := \matrix_(i, j) mxget x (i + 1) (j + 1).
(** vector.py 537-545: the gradient along both axes, times the number of points. *)
Definition partial_gradient nx ny (arr : 'M[C]_(nx, ny)) : vfield nx ny :=
  let padded := pad_wrap arr in
  let g0 : 'M[C]_(nx + 2, ny + 2) := \matrix_(i, j) gradient_1d (nx + 2) (fun a => mxget padded a j) i in
  let g1 : 'M[C]_(nx + 2, ny + 2) := \matrix_(i, j) gradient_1d (ny + 2) (fun b => mxget padded i b) j in
  (\matrix_(i, j) (unpad g0 i j * RtoC (INR nx)), \matrix_(i, j) (unpad g1 i j * RtoC (INR ny))).
(** vector.py 512-546 [compute_gradient] *)
Definition compute_gradient nx ny (arr : 'M[C]_(nx, ny)) (l : lattice) : res (vfield nx ny) :=
  basis_vectors <- normalized_basis l;;
  transform_gradient basis_vectors (partial_gradient arr).
(** vector.py 603-607 [_periodic_forward_difference] along both axes *)
Definition forward_difference nx ny (x : 'M[C]_(nx, ny)) : vfield nx ny :=
  (\matrix_(i, j) ((mxget x ((i + 1) %% nx) j - x i j) * RtoC (INR nx)),
   \matrix_(i, j) ((mxget x i ((j + 1) %% ny) - x i j) * RtoC (INR ny))).
(** vector.py 549-601 [_vector_field_forward_difference_gradient],
    [_scalar_field_forward_difference_gradient] *)
Definition vector_field_gradient nx ny (v : vfield nx ny) (l : lattice) : res (vfield nx ny * vfield nx ny) :=
  basis_vectors <- normalized_basis l;;
  gx <- transform_gradient basis_vectors (forward_difference v.1);;
  gy <- transform_gradient basis_vectors (forward_difference v.2);;
  Val (gx, gy).

(** vector.py 319-332 [_filter_and_adjust_resolution] *)
Definition doubled_shape nx ny n (expn : n.-tuple (Z * Z)) : nat * nat :=
  match min_array_shape_for_expansion expn with
  | Val m => (Z.to_nat m.1 * (if (1 < nx)%N then 2 else 1), Z.to_nat m.2 * (if (1 < ny)%N then 2 else 1))%N
  | Exn _ => (0, 0)%N
  end.
Definition filter_and_adjust_resolution nx ny n (x : 'M[C]_(nx, ny)) (expn : n.-tuple (Z * Z))
    : res 'M[C]_((doubled_shape nx ny expn).1, (doubled_shape nx ny expn).2) :=
  y <- fft x expn;;
  ifft y expn (doubled_shape nx ny expn).1 (doubled_shape nx ny expn).2.

(** vector.py 356-366 [_field_at_max_magnitude]: [argmax] is the first place of the maximum. *)
Definition field_at_max_magnitude nx ny (v : vfield nx ny) : C * C :=
  let m := max_field_magnitude v in
  nth (0, 0) [seq (v.1 p.1 p.2, v.2 p.1 p.2) | p <- grid_points nx ny]
    (find (fun p => field_magnitude v p.1 p.2 == m) (grid_points nx ny)).
(** vector.py 335-353 [_is_1d_field] *)
Definition is_1d_field nx ny (v : vfield nx ny) : bool * R :=
  let atol := (/ 100)%coqR in
  let ref_field := field_at_max_magnitude v in
  let ref_angle := angle (ref_field.1 + Ci * ref_field.2) in
  let ok i j :=
    let a := angle (v.1 i j + Ci * v.2 i j) in
    [|| isclose0 (field_magnitude v i j), isclose atol a (ref_angle - 2 * PI)%coqR,
        isclose atol a (ref_angle - 1 * PI)%coqR, isclose atol a ref_angle,
        isclose atol a (ref_angle + 1 * PI)%coqR | isclose atol a (ref_angle + 2 * PI)%coqR] in
  (all (fun p => ok p.1 p.2) (grid_points nx ny) || (nx == 1%N) || (ny == 1%N), ref_angle).

(** vector.py 451-461 [_alignment_loss] *)
Definition alignment_loss nx ny (v target : vfield nx ny) (weight : 'I_nx -> 'I_ny -> R) : R :=
  ((\sum_i \sum_j weight i j * (Cmod (v.1 i j - target.1 i j) ^+ 2 + Cmod (v.2 i j - target.2 i j) ^+ 2))%R
   / INR (nx * ny))%coqR.
(** vector.py 464-496 [_fourier_loss], as a function of the Fourier coefficients. *)
Definition fourier_loss n (expn : n.-tuple (Z * Z)) (l : lattice) : res ('M[C]_(n, 2) -> R) :=
  k <- transverse_wavevectors (0, 0)%coqR l expn;;
  let kt i := (norm2 (k.1 0%R i, k.2 0%R i) * sqrt (cell_area l))%coqR in
  Val (fun F : 'M[C]_(n, 2) => \sum_i \sum_c Cmod (F i c) ^+ 2 * kt i ^+ 2).
(** vector.py 499-504 [_smoothness_loss] *)
Definition smoothness_loss nx ny (v : vfield nx ny) (l : lattice) : res R :=
  g <- vector_field_gradient v l;;
  let total (h : vfield nx ny) : R := \sum_i \sum_j (Cmod (h.1 i j) ^+ 2 + Cmod (h.2 i j) ^+ 2) in
  Val ((total g.1 + total g.2) / INR (2 * nx * ny * 2))%coqR.
(** The fields of Fourier coefficients: [fft.ifft] along axis -2. *)
Definition ifft_field n (F : 'M[C]_(n, 2)) (expn : n.-tuple (Z * Z)) nx ny : res (vfield nx ny) :=
  x <- ifft (col 0 F) expn nx ny;;
  y <- ifft (col 1 F) expn nx ny;;
  Val (x, y).
Definition fft_field nx ny n (v : vfield nx ny) (expn : n.-tuple (Z * Z)) : res 'M[C]_(n, 2) :=
  x <- fft v.1 expn;;
  y <- fft v.2 expn;;
  Val (\matrix_(i, c) (if c == 0 then x i 0 else y i 0)).
(** vector.py 410-448 [_field_loss] *)
Definition field_loss nx ny n (F : 'M[C]_(n, 2)) (expn : n.-tuple (Z * Z)) (l : lattice)
    (target : vfield nx ny) (weight : 'I_nx -> 'I_ny -> R) (fourier_weight smoothness_weight : R) : res R :=
  v <- ifft_field F expn nx ny;;
  fourier <- (if Rlt_dec 0 fourier_weight then
                f <- fourier_loss expn l;; Val (fourier_weight * f F)%coqR
              else Val 0%coqR);;
  smooth <- (if Rlt_dec 0 smoothness_weight then
               s <- smoothness_loss v l;; Val (smoothness_weight * s)%coqR
             else Val 0%coqR);;
  Val (alignment_loss v target weight + fourier + smooth)%coqR.

(** [jnp.reshape(flat, (-1, 2))] and [flatten] *)
Definition unflat n (z : 'cV[C]_(n * 2)) : 'M[C]_(n, 2) := vec_mx z^T.
Definition flat n (F : 'M[C]_(n, 2)) : 'cV[C]_(n * 2) := (mxvec F)^T.
(** vector.py 374-407 [field_loss_value_jac_and_hessian]. [jax.jacrev] of a real function of complex variables: the partial derivative along the real
    axis minus [i] times that along the imaginary axis. The same of the real part of component
    [k] is the row [k] of the jacobian of a complex function, [holomorphic=True]: the
    vector-jacobian product with the unit cotangent. (Automatic differentiation is modelled by
    the derivative; that of [abs(x) ** 2] at [x = 0] by that of the square.) *)
Definition unit_col m (k : 'I_m) : 'cV[C]_m := delta_mx k 0.
Definition wirtinger m (f : 'cV[C]_m -> R) (z : 'cV[C]_m) (k : 'I_m) : C :=
  RtoC (derivative (fun t => f (z + RtoC t *: unit_col k)) 0)
  - Ci * RtoC (derivative (fun t => f (z + (Ci * RtoC t) *: unit_col k)) 0).
Definition jacobian m (f : 'cV[C]_m -> R) (z : 'cV[C]_m) : 'cV[C]_m := \col_k wirtinger f z k.
Definition hessian m (f : 'cV[C]_m -> R) (z : 'cV[C]_m) : 'M[C]_m :=
  \matrix_(k, l) wirtinger (fun x => re (jacobian f x k 0)) z l.
(** vector.py 230-240: the Newton iterations. *)
Definition newton_step m (f : 'cV[C]_m -> R) (z : 'cV[C]_m) : res 'cV[C]_m :=
  d <- solve (hessian f z) (conjm (jacobian f z));;
  Val (z - d).
Fixpoint newton m (f : 'cV[C]_m -> R) (steps : nat) (z : 'cV[C]_m) : res 'cV[C]_m :=
  match steps with 0%N => Val z | s.+1 => z <- newton_step f z;; newton f s z end.

(** vector.py 186-248 [_compute_tangent_field_no_batch]. The result of the Newton iterations is
    discarded for one-dimensional fields, also when it is not finite. *)
Definition compute_tangent_field nx ny n (arr : 'M[C]_(nx, ny)) (expn : n.-tuple (Z * Z)) (l : lattice)
    (use_jones_direct : bool) (fourier_loss_weight smoothness_loss_weight : R) (steps : nat)
    : res (vfield nx ny) :=
  check (n != 0%N) ZeroDivisionError
  (let fourier_weight := (fourier_loss_weight / INR n)%coqR in
   let smoothness_weight := (smoothness_loss_weight / INR n)%coqR in
   grad <- compute_gradient arr l;;
   gx <- filter_and_adjust_resolution grad.1 expn;;
   gy <- filter_and_adjust_resolution grad.2 expn;;
   let grad := normalize (gx, gy) in
   let weight := field_magnitude grad in
   let '(is_1d, grad_angle) := is_1d_field grad in
   let grad := if is_1d then (const_mx 1, const_mx 1) else grad in
   let target := normalize_elementwise (grad.2, - grad.1) in
   let target := if use_jones_direct then normalize_jones target else target in
   let initial := if use_jones_direct then target else normalize (grad.2, - grad.1) in
   F <- fft_field initial expn;;
   let loss z := match field_loss (unflat z) expn l target weight fourier_weight smoothness_weight with
                 | Val x => x | Exn _ => 0%coqR end in
   _ <- field_loss F expn l target weight fourier_weight smoothness_weight;;
   let field_1d := (const_mx (RtoC (sin grad_angle)), const_mx (RtoC (cos grad_angle))) in
   _ <- validate_shape_for_expansion (nx, ny) expn;;
   v <- (if is_1d then Val field_1d
         else z <- newton loss steps (flat F);; ifft_field (unflat z) expn nx ny);;
   Val (normalize v)).

(** vector.py 19-97 [compute_field_jones_direct], [compute_field_pol], [compute_field_jones],
    [compute_field_normal] *)
Definition compute_field_jones_direct nx ny n (fw sw : R) (arr : 'M[C]_(nx, ny)) (expn : n.-tuple (Z * Z)) l :=
  compute_tangent_field arr expn l true fw sw 1.
Definition compute_field_pol nx ny n (fw sw : R) (arr : 'M[C]_(nx, ny)) (expn : n.-tuple (Z * Z)) l :=
  compute_tangent_field arr expn l false fw sw 1.
Definition compute_field_jones nx ny n (fw sw : R) (arr : 'M[C]_(nx, ny)) (expn : n.-tuple (Z * Z)) l :=
  rmap (@normalize_jones nx ny) (compute_tangent_field arr expn l false fw sw 1).
Definition compute_field_normal nx ny n (fw sw : R) (arr : 'M[C]_(nx, ny)) (expn : n.-tuple (Z * Z)) l :=
  rmap (@normalize_elementwise nx ny) (compute_tangent_field arr expn l false fw sw 1).
(** vector.py 638-700: the schemes and their weights. *)
Inductive scheme := JonesDirect | Jones | Normal | Pol
                  | JonesDirectFourier | JonesFourier | NormalFourier | PolFourier.
Definition vector_field_scheme nx ny n (s : scheme) : vector_fn nx ny n :=
  match s with
  | JonesDirect => @compute_field_jones_direct nx ny n 0%coqR (1 / 2)%coqR
  | Jones => @compute_field_jones nx ny n 0%coqR 2%coqR
  | Normal => @compute_field_normal nx ny n 0%coqR 2%coqR
  | Pol => @compute_field_pol nx ny n 0%coqR 2%coqR
  | JonesDirectFourier => @compute_field_jones_direct nx ny n (1 / 20)%coqR 0%coqR
  | JonesFourier => @compute_field_jones nx ny n (1 / 5)%coqR 0%coqR
  | NormalFourier => @compute_field_normal nx ny n (1 / 5)%coqR 0%coqR
  | PolFourier => @compute_field_pol nx ny n (1 / 5)%coqR 0%coqR
  end.

(** Model of the batch dimensions: arrays of any number of axes with the broadcasting of
    jax.numpy, [reciprocal] and [transverse_wavevectors] of basis.py for batched arguments, and
    the validation, dispatch and uniform isotropic eigensolve of fmm.py. An element which is
    inf or nan is [Exn NonFinite]. *)
From Coq Require Import Reals ZArith.
From mathcomp Require Import all_ssreflect all_algebra.
From Verif Require Import CField Err LinAlg M_utils M_basis M_nd M_fmm.
Set Implicit Arguments. Unset Strict Implicit. Unset Printing Implicit Defensive.
Import GRing.Theory.

(** ** Broadcasting *)
(** Size along axis [i], counted from the last one; a missing axis has size 1. *)
Definition ax (s : seq nat) (i : nat) : nat := nth 1 (rev s) i.
Definition bdim (a b : nat) : nat := if a == 1 then b else a.
(** [jnp.broadcast_shapes] of two shapes. *)
Definition broadcast_shapes (s t : seq nat) : res (seq nat) :=
  let axes := iota 0 (maxn (size s) (size t)) in
  check (all (fun i => [|| ax s i == 1, ax t i == 1 | ax s i == ax t i]) axes) ValueError
    (Val (rev [seq bdim (ax s i) (ax t i) | i <- axes])).
(** The index of the element of an array of shape [s] which broadcasting reads at [idx]. *)
Definition bindex (s idx : seq nat) : seq nat :=
  rev [seq if ax s i == 1 then 0 else nth 0 (rev idx) i | i <- iota 0 (size s)].
Definition bget T (x : nd T) (idx : seq nat) : T := nget x (bindex (nshape x) idx).
Definition nmap T U (f : T -> U) (x : nd T) : nd U := Nd (nshape x) (fun idx => f (nget x idx)).
(** A binary elementwise operation. (jax raises ValueError or TypeError for incompatible shapes,
    depending on the number of axes; here ValueError.) *)
Definition nmap2 T U V (f : T -> U -> V) (x : nd T) (y : nd U) : res (nd V) :=
  sh <- broadcast_shapes (nshape x) (nshape y);;
  Val (Nd sh (fun idx => f (bget x idx) (bget y idx))).
(** [jnp.broadcast_to] *)
Definition broadcast_to T (x : nd T) (sh : seq nat) : res (nd T) :=
  s <- broadcast_shapes (nshape x) sh;;
  check (s == sh) ValueError (Val (Nd sh (fun idx => bget x idx))).

(** Arithmetic on elements that may be inf or nan. *)
Definition lift1 A B (f : A -> B) (a : res A) : res B := rmap f a.
Definition lift2 A B D (f : A -> B -> D) (a : res A) (b : res B) : res D := x <- a;; y <- b;; Val (f x y).
Definition divR (a b : res R) : res R := x <- a;; y <- b;; r <- recipR y;; Val (x * r)%coqR.

(** [x[..., c]], [x[..., jnp.newaxis]], [jnp.stack([x, y], axis=-1)] (equal shapes),
    [jnp.tile(x, 2)] *)
Definition trail T (x : nd T) : nat := last 1 (nshape x).
Definition component T (c : nat) (x : nd T) : nd T :=
  Nd (take (ndim x).-1 (nshape x)) (fun idx => nget x (rcons idx c)).
Definition newaxis T (x : nd T) : nd T :=
  Nd (rcons (nshape x) 1) (fun idx => nget x (take (size idx).-1 idx)).
Definition stack2 T (x y : nd T) : res (nd T) :=
  check (nshape x == nshape y) ValueError
  (Val (Nd (rcons (nshape x) 2) (fun idx =>
     nget (if last 0 idx == 0 then x else y) (take (size idx).-1 idx)))).
Definition tile2 T (x : nd T) : nd T :=
  Nd (rcons (take (ndim x).-1 (nshape x)) (2 * trail x))
     (fun idx => nget x (rcons (take (size idx).-1 idx) (last 0 idx %% trail x))).
(** utils.py 27-32 [diag] *)
Definition ndiag (x : nd (res C)) : nd (res C) :=
  Nd (rcons (nshape x) (trail x)) (fun idx =>
    let i := nth 0 idx (size idx - 2) in let j := last 0 idx in
    if i == j then nget x (take (size idx).-1 idx) else Val (0 : C)%R).
(** [jnp.expand_dims] at leading axes (utils.py 57-60 [atleast_nd]) *)
Definition atleast_nd T (x : nd T) (n : nat) : nd T :=
  Nd (atleast_nd_shape (nshape x) n) (fun idx => nget x (drop (n - ndim x) idx)).

(** ** basis.py *)
(** basis.py 391-393 [_cross_product] *)
Definition cross_product_b (x y : nd (res R)) : res (nd (res R)) :=
  a <- nmap2 (lift2 Rmult) (component 0 x) (component 1 y);;
  b <- nmap2 (lift2 Rmult) (component 1 x) (component 0 y);;
  nmap2 (lift2 Rminus) a b.

(** basis.py 118-129 [reciprocal]: the division aligns the last axes of arrays of shape
    (..., 2) and (...). *)
Definition reciprocal_b (u v : nd (res R)) : res (nd (res R) * nd (res R)) :=
  cross_product <- cross_product_b u v;;
  nu <- stack2 (component 1 v) (nmap (lift1 Ropp) (component 0 v));;
  uprime <- nmap2 divR nu cross_product;;
  nv <- stack2 (nmap (lift1 Ropp) (component 1 u)) (component 0 u);;
  vprime <- nmap2 divR nv cross_product;;
  Val (uprime, vprime).

(** basis.py 240-264 [transverse_wavevectors] *)
Definition transverse_wavevectors_b n (k u v : nd (res R)) (expansion : n.-tuple (Z * Z)) : res (nd (res R)) :=
  '(ur, vr) <- reciprocal_b u v;;
  let coeffs (p : Z * Z -> Z) : nd (res R) :=
    Nd [:: n] (fun idx => Val (IZR (p (nth (0, 0)%coqZ expansion (head 0 idx))))) in
  let along c :=
    a <- nmap2 (lift2 Rmult) (coeffs fst) (component c ur);;
    b <- nmap2 (lift2 Rmult) (coeffs snd) (component c vr);;
    s <- nmap2 (lift2 Rplus) a b;;
    nmap2 (lift2 Rplus) (newaxis (component c k)) (nmap (lift1 (Rmult (2 * PI)%coqR)) s) in
  kx <- along 0;; ky <- along 1;;
  stack2 kx ky.

(** ** fmm.py *)
(** fmm.py 1055-1111 [_validate_and_broadcast]: the shapes. [ipw], [u], [v] have at least one
    axis, the permittivities at least two. *)
Definition butlast (k : nat) (s : seq nat) : seq nat := take (size s - k) s.
Definition validate_shapes (w k u v : seq nat) (eps : seq (seq nat)) : res nat :=
  check (last 0 k == 2) ValueError
  (check (all (fun p => p == head [::] eps) eps) ValueError
  (let p := head [::] eps in
   ok <- batch_compatible_shapes [:: w; butlast 1 k; butlast 1 u; butlast 1 v; butlast 2 p];;
   check ok ValueError
   (Val (max_list [:: size w; size k - 1; size u - 1; size v - 1; size p - 2])))).

(** fmm.py 284-369 [LayerSolveResult.__post_init__], on the shapes of the attributes;
    [tangent] is that of the first component of the tangent vector field. *)
Record solve_shapes := SolveShapes {
  sh_wavelength : seq nat; sh_in_plane_wavevector : seq nat; sh_u : seq nat; sh_v : seq nat;
  sh_num_terms : nat; sh_eigenvalues : seq nat; sh_eigenvectors : seq nat;
  sh_z_permittivity : seq nat; sh_inverse_z_permittivity : seq nat;
  sh_z_permeability : seq nat; sh_inverse_z_permeability : seq nat;
  sh_transverse_permeability : seq nat; sh_tangent : option (seq nat) }.
Definition incompatible (s reference : seq nat) : res bool :=
  c <- batch_compatible_shapes [:: s; reference];; Val ((size s != size reference) || ~~ c).
Definition reject (T : Type) (b : res bool) (k : res T) : res T := x <- b;; check (~~ x) ValueError k.
Definition post_init (s : solve_shapes) : res unit :=
  let batch_shape := butlast 2 (sh_eigenvectors s) in
  reject (incompatible (sh_wavelength s) batch_shape)
  (reject (incompatible (sh_in_plane_wavevector s) (rcons batch_shape 2))
  (reject (incompatible (sh_u s) (rcons batch_shape 2))
  (reject (incompatible (sh_v s) (rcons batch_shape 2))
  (check (sh_num_terms s * 2 == last 0 (sh_eigenvectors s)) ValueError
  (check (sh_eigenvalues s == butlast 1 (sh_eigenvectors s)) ValueError
  (let expected_matrix_shape := batch_shape ++ [:: sh_num_terms s; sh_num_terms s] in
   reject (incompatible (sh_inverse_z_permittivity s) expected_matrix_shape)
  (reject (incompatible (sh_z_permittivity s) expected_matrix_shape)
  (reject (incompatible (sh_inverse_z_permeability s) expected_matrix_shape)
  (reject (incompatible (sh_z_permeability s) expected_matrix_shape)
  (reject (incompatible (sh_transverse_permeability s) (sh_eigenvectors s))
  (check (if sh_tangent s is Some t then size t == size (sh_eigenvectors s) else true) ValueError
  (Val tt)))))))))))).

(** fmm.py 227-264 [LayerSolveResult] with batch dimensions *)
Record batched_result (n : nat) := BatchedResult {
  b_wavelength : nd R; b_in_plane_wavevector : nd R; b_u : nd R; b_v : nd R;
  b_expansion : n.-tuple (Z * Z);
  b_eigenvalues : nd (res C); b_eigenvectors : nd (res C);
  b_z_permittivity_matrix : nd (res C); b_inverse_z_permittivity_matrix : nd (res C);
  b_z_permeability_matrix : nd (res C); b_inverse_z_permeability_matrix : nd (res C);
  b_transverse_permeability_matrix : nd (res C);
  b_tangent : option (nd (res C) * nd (res C)) }.
Definition batch_shape n (r : batched_result n) : seq nat := butlast 2 (nshape (b_eigenvectors r)).
Definition shapes_of n (r : batched_result n) : solve_shapes := SolveShapes
  (nshape (b_wavelength r)) (nshape (b_in_plane_wavevector r)) (nshape (b_u r)) (nshape (b_v r)) n
  (nshape (b_eigenvalues r)) (nshape (b_eigenvectors r))
  (nshape (b_z_permittivity_matrix r)) (nshape (b_inverse_z_permittivity_matrix r))
  (nshape (b_z_permeability_matrix r)) (nshape (b_inverse_z_permeability_matrix r))
  (nshape (b_transverse_permeability_matrix r)) (omap (fun t => nshape t.1) (b_tangent r)).

Definition fin T (x : nd T) : nd (res T) := nmap (@Val T) x.
Definition ones (sh : seq nat) : nd (res C) := Nd sh (fun=> Val (1 : C)%R).

(** fmm.py 377-475 [_eigensolve_uniform_isotropic_media] *)
Definition eigensolve_uniform_isotropic_media_b n (wavelength k u v : nd R) (permittivity : nd C)
    (expansion : n.-tuple (Z * Z)) : res (batched_result n) :=
  num_batch_dims <- validate_shapes (nshape wavelength) (nshape k) (nshape u) (nshape v) [:: nshape permittivity];;
  let wavelength := atleast_nd wavelength num_batch_dims in
  let k := atleast_nd k num_batch_dims.+1 in
  let u := atleast_nd u num_batch_dims.+1 in
  let v := atleast_nd v num_batch_dims.+1 in
  let permittivity := atleast_nd permittivity num_batch_dims.+2 in
  check (drop (ndim permittivity - 2) (nshape permittivity) == [:: 1; 1]) ValueError
  (s <- broadcast_shapes (nshape wavelength) (butlast 1 (nshape k));;
   batch_shape <- broadcast_shapes s (butlast 2 (nshape permittivity));;
   let num_eigenvalues := 2 * n in
   let eps := fin (component 0 (component 0 permittivity)) in
   transverse_wavevectors <- transverse_wavevectors_b (fin k) (fin u) (fin v) expansion;;
   eigenvectors <- broadcast_to (ndiag (ones [:: num_eigenvalues]))
     (batch_shape ++ [:: num_eigenvalues; num_eigenvalues]);;
   let angular_frequency := nmap angular_frequency wavelength in
   let square := nmap (lift1 (fun x : R => (x * x)%coqR)) in
   let kx := component 0 transverse_wavevectors in
   let ky := component 1 transverse_wavevectors in
   a <- nmap2 (lift2 (fun (e : C) (w : R) => (e * RtoC w)%R)) (newaxis eps) (square (newaxis angular_frequency));;
   b <- nmap2 (lift2 (fun (e : C) (w : R) => (e - RtoC w)%R)) a (square kx);;
   c <- nmap2 (lift2 (fun (e : C) (w : R) => (e - RtoC w)%R)) b (square ky);;
   let eigenvalues := tile2 (nmap (lift1 (fun z => select_eigenvalue_sign (csqrt z))) c) in
   let batch_shape := butlast 1 (nshape eigenvalues) in
   inverse_z <- broadcast_to (newaxis (nmap (fun e => x <- e;; recipC x) eps)) (rcons batch_shape n);;
   let inverse_z_permittivity_matrix := ndiag inverse_z in
   z <- broadcast_to (newaxis eps) (rcons batch_shape n);;
   let z_permittivity_matrix := ndiag z in
   let z_permeability_matrix := ndiag (ones (butlast 1 (nshape z_permittivity_matrix))) in
   let r := BatchedResult wavelength k u v expansion eigenvalues eigenvectors z_permittivity_matrix
     inverse_z_permittivity_matrix z_permeability_matrix z_permeability_matrix
     (ndiag (ones (nshape eigenvalues))) None in
   _ <- post_init (shapes_of r);; Val r).

(** fmm.py 72-73 and 189-190, the choice of the solver; and the checks made on shapes before any
    solve is started: 405-418 for uniform isotropic layers, 503-510 for patterned isotropic
    layers, 582-611 for uniform and 692-726 for patterned anisotropic layers. [components]: the
    ten shapes of the components, that of [permittivity_xx] first; [source]: the shape of the
    vector field source. *)
Inductive path := Uniform | Patterned.
Definition trailing2 (s : seq nat) : seq nat := drop (size s - 2) s.
Definition dispatch_isotropic (w k u v eps : seq nat) : res path :=
  if trailing2 eps == [:: 1; 1] then
    _ <- validate_shapes w k u v [:: eps];; Val Uniform
  else
    _ <- validate_shapes w k u v [:: eps];; Val Patterned.
Definition dispatch_anisotropic (w k u v : seq nat) (components : seq (seq nat)) (source : option (seq nat))
    : res path :=
  let xx := nth [::] components 0 in
  let yy := nth [::] components 3 in
  if trailing2 xx == [:: 1; 1] then
    check (all (fun p => trailing2 p == [:: 1; 1]) components) ValueError
    (_ <- validate_shapes w k u v components;; Val Uniform)
  else
    source <- (if source is Some s then Val s else broadcast_shapes xx yy);;
    _ <- validate_shapes w k u v (rcons components source);; Val Patterned.

(** fields.py 86-98 [_validate_amplitudes_shape]; [shapes] is not empty. *)
Definition validate_amplitudes_shape (shapes : seq (seq nat)) (num_terms : nat) : res unit :=
  let a := head [::] shapes in
  if (size a < 2) || (nth 0 a (size a - 2) != num_terms) then Exn ValueError
  else (ok <- batch_compatible_shapes shapes;; check ok ValueError (Val tt)).

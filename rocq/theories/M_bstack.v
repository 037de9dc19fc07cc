(** Model of scattering.py with batch dimensions. Arrays of matrices are arrays, over the batch
    axes, of matrices; [matrices] and [vectors] give this view of an array with trailing axes.
    An element with an inf or nan entry is [Exn NonFinite]. Right hand sides of [jnp.linalg.solve]
    are arrays of matrices, as in numpy 2 (older releases read an array with one axis less than
    the matrices as an array of vectors). *)
From Coq Require Import Reals ZArith.
From mathcomp Require Import all_ssreflect all_algebra.
From Verif Require Import CField Err LinAlg M_utils M_basis M_fmm_matrices M_nd M_fmm M_scattering M_batch.
Set Implicit Arguments. Unset Strict Implicit. Unset Printing Implicit Defensive.
Import GRing.Theory.

(** ** Arrays of matrices *)
Definition is_val T (x : res T) : bool := if x is Val _ then true else false.
Definition collect T (d : T) n p (f : 'I_n -> 'I_p -> res T) : res 'M[T]_(n, p) :=
  if [forall i, forall j, is_val (f i j)] then Val (\matrix_(i, j) (if f i j is Val x then x else d))%R
  else Exn NonFinite.
Definition matrices T (d : T) n p (x : nd (res T)) : res (nd (res 'M[T]_(n, p))) :=
  check (trailing2 (nshape x) == [:: n; p]) ValueError
  (Val (Nd (butlast 2 (nshape x))
     (fun idx => collect d (fun (i : 'I_n) (j : 'I_p) => nget x (idx ++ [:: nat_of_ord i; nat_of_ord j]))))).
Definition vectors T (d : T) n (x : nd (res T)) : res (nd (res 'rV[T]_n)) :=
  check (drop (size (nshape x) - 1) (nshape x) == [:: n]) ValueError
  (Val (Nd (butlast 1 (nshape x))
     (fun idx => collect d (fun (_ : 'I_1) (j : 'I_n) => nget x (idx ++ [:: nat_of_ord j]))))).
Definition batch T := nd (res T).
Definition bmap T U (f : T -> U) (x : batch T) : batch U := nmap (lift1 f) x.
Definition bmap2 T U V (f : T -> U -> V) (x : batch T) (y : batch U) : res (batch V) := nmap2 (lift2 f) x y.
(** Operations that may be non-finite, per element of the batch. *)
Definition pmap T U (f : T -> res U) (x : batch T) : batch U := nmap (fun a => v <- a;; f v) x.
Definition pmap2 T U V (f : T -> U -> res V) (x : batch T) (y : batch U) : res (batch V) :=
  nmap2 (fun a b => v <- a;; w <- b;; f v w) x y.
Definition bmul n p m (x : batch 'M[C]_(n, p)) (y : batch 'M[C]_(p, m)) := bmap2 (fun A B => A *m B)%R x y.
Definition bsolve n p (x : batch 'M[C]_n) (y : batch 'M[C]_(n, p)) := pmap2 (fun A B => solve A B) x y.
Definition badd n p (x y : batch 'M[C]_(n, p)) := bmap2 (fun A B => A + B)%R x y.
Definition bsub n p (x y : batch 'M[C]_(n, p)) := bmap2 (fun A B => A - B)%R x y.
Definition brow n p (v : batch 'rV[C]_n) (x : batch 'M[C]_(n, p)) := bmap2 (fun v A => rowscale v A) v x.
Definition bcol n p (x : batch 'M[C]_(n, p)) (v : batch 'rV[C]_p) := bmap2 (fun A v => colscale A v) x v.
(** [jnp.block] of four arrays of matrices with the same batch shape *)
Definition bblock n (a b c d : batch 'M[C]_n) : res (batch 'M[C]_(n + n)) :=
  check [&& nshape b == nshape a, nshape c == nshape a & nshape d == nshape a] ValueError
  (Val (Nd (nshape a) (fun idx =>
     w <- nget a idx;; x <- nget b idx;; y <- nget c idx;; z <- nget d idx;; Val (block_mx w x y z)))).

(** ** fmm_matrices.py and fmm.py *)
(** fmm_matrices.py 56-71 [script_k_matrix_patterned] *)
Definition script_k_matrix_patterned_b n (z_permittivity_matrix : batch 'M[C]_n) (kx ky : batch 'rV[R]_n)
    : res (batch 'M[C]_(n + n)) :=
  let kx := bmap (fun k => vC k) kx in
  let ky := bmap (fun k => vC k) ky in
  z_inv_kx <- bsolve z_permittivity_matrix (bmap (fun k => diag k) kx);;
  z_inv_ky <- bsolve z_permittivity_matrix (bmap (fun k => diag k) ky);;
  b11 <- brow ky z_inv_ky;;
  b12 <- brow (bmap (fun k => - k)%R ky) z_inv_kx;;
  b21 <- brow (bmap (fun k => - k)%R kx) z_inv_ky;;
  b22 <- brow kx z_inv_kx;;
  bblock b11 b12 b21 b22.

(** fmm_matrices.py 14-27 [omega_script_k_matrix_patterned] *)
Definition omega_script_k_matrix_patterned_b n (wavelength : nd R) (z_permittivity_matrix : batch 'M[C]_n)
    (transverse_permeability_matrix : batch 'M[C]_(n + n)) (kx ky : batch 'rV[R]_n) : res (batch 'M[C]_(n + n)) :=
  script_k_matrix <- script_k_matrix_patterned_b z_permittivity_matrix kx ky;;
  let angular_frequency := nmap angular_frequency wavelength in
  w_mu <- bmap2 (fun (w : R) (A : 'M[C]_(n + n)) => RtoC (w * w) *: A)%R angular_frequency
    transverse_permeability_matrix;;
  bsub w_mu script_k_matrix.

(** fmm.py 270-282 [LayerSolveResult.omega_script_k_matrix] *)
Definition omega_script_k_matrix_b n (r : batched_result n) : res (batch 'M[C]_(n + n)) :=
  k <- transverse_wavevectors_b (fin (b_in_plane_wavevector r)) (fin (b_u r)) (fin (b_v r)) (b_expansion r);;
  kx <- vectors 0%coqR n (component 0 k);;
  ky <- vectors 0%coqR n (component 1 k);;
  z <- matrices (0 : C)%R n n (b_z_permittivity_matrix r);;
  mu <- matrices (0 : C)%R (n + n) (n + n) (b_transverse_permeability_matrix r);;
  omega_script_k_matrix_patterned_b (b_wavelength r) z mu kx ky.

(** ** scattering.py *)
(** [jnp.exp(1j * q * d)] for an array [d]: the product broadcasts the last axis of [d] against
    the axis of the eigenmodes. *)
Definition phase_b m (q : batch 'rV[C]_m) (d : nd R) : res (batch 'rV[C]_m) :=
  sh <- broadcast_shapes (rcons (nshape q) m) (nshape d);;
  check (last 0 sh == m) ValueError
  (Val (Nd (butlast 1 sh) (fun idx =>
     v <- bget q idx;; Val (\row_i cexp (Ci * v 0 i * RtoC (bget d (rcons idx i))))%R))).

(** scattering.py 17-68 [ScatteringMatrix] *)
Record batched_s_matrix n := BSMat {
  bs11 : batch 'M[C]_(n + n); bs12 : batch 'M[C]_(n + n); bs21 : batch 'M[C]_(n + n); bs22 : batch 'M[C]_(n + n);
  bs_start : batched_result n; bs_start_thickness : nd R;
  bs_end : batched_result n; bs_end_thickness : nd R }.

Definition mode_values n (r : batched_result n) := vectors (0 : C)%R (n + n) (b_eigenvalues r).
Definition mode_vectors n (r : batched_result n) := matrices (0 : C)%R (n + n) (n + n) (b_eigenvectors r).

(** scattering.py 415-441 (identical in 475-491): [(i11, i12)] *)
Definition interface_matrices_b n (layer next_layer : batched_result n)
    : res (batch 'M[C]_(n + n) * batch 'M[C]_(n + n)) :=
  q <- mode_values layer;;
  phi <- mode_vectors layer;;
  omega_k <- omega_script_k_matrix_b layer;;
  next_q <- mode_values next_layer;;
  next_phi <- mode_vectors next_layer;;
  next_omega_k <- omega_script_k_matrix_b next_layer;;
  a <- bmul omega_k phi;;
  next_a <- bmul next_omega_k next_phi;;
  rhs <- bcol next_a (pmap (fun v => recip v) next_q);;
  t1 <- bsolve a rhs;;
  term1 <- brow q t1;;
  rhs2 <- bmul omega_k next_phi;;
  term2 <- bsolve a rhs2;;
  plus <- badd term1 term2;;
  minus <- badd (bmap (fun A => - A)%R term1) term2;;
  Val (bmap (fun A => half *: A)%R plus, bmap (fun A => half *: A)%R minus).

(** scattering.py 391-464 [_extend_s_matrix] *)
Definition extend_s_matrix_b n
    (blocks : batch 'M[C]_(n + n) * batch 'M[C]_(n + n) * batch 'M[C]_(n + n) * batch 'M[C]_(n + n))
    (layer : batched_result n) (thickness : nd R) (next_layer : batched_result n) (next_thickness : nd R)
    : res (batch 'M[C]_(n + n) * batch 'M[C]_(n + n) * batch 'M[C]_(n + n) * batch 'M[C]_(n + n)) :=
  '(i11, i12) <- interface_matrices_b layer next_layer;;
  let i22 := i11 in
  let i21 := i12 in
  q <- mode_values layer;;
  next_q <- mode_values next_layer;;
  fd <- phase_b q thickness;;
  fd_next <- phase_b next_q next_thickness;;
  let '(s11, s12, s21, s22) := blocks in
  fs12 <- brow fd s12;;
  x <- bmul fs12 i21;;
  term3 <- bsub i11 x;;
  fs11 <- brow fd s11;;
  s11_next <- bsolve term3 fs11;;
  y <- bmul fs12 i22;;
  y <- bsub y i12;;
  y <- bcol y fd_next;;
  s12_next <- bsolve term3 y;;
  si21 <- bmul s22 i21;;
  u <- bmul si21 s11_next;;
  s21_next <- badd u s21;;
  v <- bmul si21 s12_next;;
  si22 <- bmul s22 i22;;
  w <- bcol si22 fd_next;;
  s22_next <- badd v w;;
  Val (s11_next, s12_next, s21_next, s22_next).

(** scattering.py 467-514 [_pair_s_matrix] *)
Definition pair_s_matrix_b n (layer : batched_result n) (thickness : nd R) (next_layer : batched_result n)
    (next_thickness : nd R) : res (batched_s_matrix n) :=
  '(i11, i12) <- interface_matrices_b layer next_layer;;
  let i22 := i11 in
  let i21 := i12 in
  q <- mode_values layer;;
  next_q <- mode_values next_layer;;
  fd <- phase_b q thickness;;
  fd_next <- phase_b next_q next_thickness;;
  let fd_diag := atleast_nd (bmap (fun v => diag v) fd) (ndim i11) in
  s11 <- bsolve i11 fd_diag;;
  y <- bcol (bmap (fun A => - A)%R i12) fd_next;;
  s12 <- bsolve i11 y;;
  s21 <- bmul i21 s11;;
  v <- bmul i21 s12;;
  w <- bcol i22 fd_next;;
  s22 <- badd v w;;
  Val (BSMat s11 s12 s21 s22 layer thickness next_layer next_thickness).

(** scattering.py 313-347 [append_layer] *)
Definition append_layer_b n (s : batched_s_matrix n) (next_layer : batched_result n) (next_thickness : nd R)
    : res (batched_s_matrix n) :=
  '(n11, n12, n21, n22) <- extend_s_matrix_b (bs11 s, bs12 s, bs21 s, bs22 s) (bs_end s) (bs_end_thickness s)
     next_layer next_thickness;;
  Val (BSMat n11 n12 n21 n22 (bs_start s) (bs_start_thickness s) next_layer next_thickness).

(** scattering.py 350-388 [prepend_layer] *)
Definition prepend_layer_b n (s : batched_s_matrix n) (next_layer : batched_result n) (next_thickness : nd R)
    : res (batched_s_matrix n) :=
  '(n22, n21, n12, n11) <- extend_s_matrix_b (bs22 s, bs21 s, bs12 s, bs11 s) (bs_start s) (bs_start_thickness s)
     next_layer next_thickness;;
  Val (BSMat n11 n12 n21 n22 next_layer next_thickness (bs_end s) (bs_end_thickness s)).

(** [utils.diag(jnp.ones(sh))] and [jnp.zeros] for a batch shape *)
Definition eyes n (sh : seq nat) : batch 'M[C]_n := Nd sh (fun=> Val (diag (const_mx 1))%R).
Definition zeros n (sh : seq nat) : batch 'M[C]_n := Nd sh (fun=> Val 0%R).

(** The scattering matrix of one layer, scattering.py 172-183 *)
Definition identity_s_matrix_b n (layer : batched_result n) (thickness : nd R) : res (batched_s_matrix n) :=
  q <- mode_values layer;;
  Val (BSMat (eyes (n + n) (nshape q)) (zeros (n + n) (nshape q)) (zeros (n + n) (nshape q)) (eyes (n + n) (nshape q))
         layer thickness layer thickness).

Fixpoint append_layers_b n (s : batched_s_matrix n) (layers : seq (batched_result n * nd R))
    : res (seq (batched_s_matrix n)) :=
  match layers with
  | [::] => Val [::]
  | (l, t) :: rest =>
      s' <- append_layer_b s l t;;
      tl <- append_layers_b s' rest;;
      Val (s' :: tl)
  end.

(** scattering.py 147-210 [_stack_s_matrices] *)
Definition stack_s_matrices_b n (layers : seq (batched_result n)) (thicknesses : seq (nd R))
    : res (seq (batched_s_matrix n)) :=
  check (size layers == size thicknesses) ValueError
  (match zip layers thicknesses with
   | [::] => Exn IndexError
   | (l0, t0) :: rest =>
       s0 <- identity_s_matrix_b l0 t0;;
       match rest with
       | [::] => Val [:: s0]
       | (l1, t1) :: rest =>
           s1 <- pair_s_matrix_b l0 t0 l1 t1;;
           tl <- append_layers_b s1 rest;;
           Val (s0 :: s1 :: tl)
       end
   end).

(** scattering.py 71-91 [stack_s_matrix] *)
Definition stack_s_matrix_b n (layers : seq (batched_result n)) (thicknesses : seq (nd R))
    : res (batched_s_matrix n) :=
  ss <- stack_s_matrices_b layers thicknesses;;
  match ss with [::] => Exn IndexError | s :: ss' => Val (last s ss') end.

(** scattering.py 129-143: the scattering matrix of the reversed substack. *)
Definition reverse_s_matrix_b n (s : batched_s_matrix n) : batched_s_matrix n :=
  BSMat (bs22 s) (bs21 s) (bs12 s) (bs11 s) (bs_end s) (bs_end_thickness s) (bs_start s) (bs_start_thickness s).
(** scattering.py 94-144 [stack_s_matrices_interior] *)
Definition stack_s_matrices_interior_b n (layers : seq (batched_result n)) (thicknesses : seq (nd R))
    : res (seq (batched_s_matrix n * batched_s_matrix n)) :=
  before <- stack_s_matrices_b layers thicknesses;;
  reverse <- stack_s_matrices_b (rev layers) (rev thicknesses);;
  let after := map (@reverse_s_matrix_b n) (rev reverse) in
  Val (zip before after).

(** scattering.py 283-310 [redheffer_star_product] *)
Definition redheffer_star_product_b n (a b : batched_s_matrix n) : res (batched_s_matrix n) :=
  a_extended <- append_layer_b a (bs_start b) (bs_start_thickness b);;
  let a11 := bs11 a_extended in let a12 := bs12 a_extended in
  let a21 := bs21 a_extended in let a22 := bs22 a_extended in
  let b11 := bs11 b in let b12 := bs12 b in let b21 := bs21 b in let b22 := bs22 b in
  let eye := eyes (n + n) (nshape a11) in
  ab <- bmul a12 b21;;
  m1 <- bsub eye ab;;
  ba <- bmul b21 a12;;
  m2 <- bsub eye ba;;
  x11 <- bsolve m1 a11;;
  s11 <- bmul b11 x11;;
  y12 <- bmul a12 b22;;
  x12 <- bsolve m1 y12;;
  z12 <- bmul b11 x12;;
  s12 <- badd b12 z12;;
  y21 <- bmul b21 a11;;
  x21 <- bsolve m2 y21;;
  z21 <- bmul a22 x21;;
  s21 <- badd a21 z21;;
  x22 <- bsolve m2 b22;;
  s22 <- bmul a22 x22;;
  Val (BSMat s11 s12 s21 s22 (bs_start a) (bs_start_thickness a) (bs_end b) (bs_end_thickness b)).

(** scattering.py 517-541 [set_end_layer_thickness] *)
Definition set_end_layer_thickness_b n (s : batched_s_matrix n) (thickness : nd R) : res (batched_s_matrix n) :=
  q <- mode_values (bs_end s);;
  d <- nmap2 (fun a b : R => a - b)%coqR thickness (bs_end_thickness s);;
  fd <- phase_b q d;;
  x12 <- bcol (bs12 s) fd;;
  x22 <- bcol (bs22 s) fd;;
  Val (BSMat (bs11 s) x12 (bs21 s) x22 (bs_start s) (bs_start_thickness s) (bs_end s) thickness).

(** scattering.py 544-568 [set_start_layer_thickness] *)
Definition set_start_layer_thickness_b n (s : batched_s_matrix n) (thickness : nd R) : res (batched_s_matrix n) :=
  q <- mode_values (bs_start s);;
  d <- nmap2 (fun a b : R => a - b)%coqR thickness (bs_start_thickness s);;
  fd <- phase_b q d;;
  x11 <- bcol (bs11 s) fd;;
  x21 <- bcol (bs21 s) fd;;
  Val (BSMat x11 (bs12 s) x21 (bs22 s) (bs_start s) thickness (bs_end s) (bs_end_thickness s)).

(** ** stack_s_matrix_scan *)
(** [x[i]] and [x[1:]] on the leading axis *)
Definition slice T (i : nat) (x : nd T) : nd T := Nd (behead (nshape x)) (fun idx => nget x (i :: idx)).
Definition rest T (x : nd T) : nd T :=
  Nd ((head 0 (nshape x)).-1 :: behead (nshape x)) (fun idx => nget x ((head 0 idx).+1 :: behead idx)).
(** [tree_map] on a solve result maps the arrays, and constructs a new result, which validates
    the shapes (fmm.py 1138-1158, 285-369). The basis coefficients are not mapped (basis.py
    415-430). *)
Definition result_map n (f : forall T, nd T -> nd T) (r : batched_result n) : res (batched_result n) :=
  let r' := BatchedResult (f _ (b_wavelength r)) (f _ (b_in_plane_wavevector r)) (f _ (b_u r)) (f _ (b_v r))
    (b_expansion r) (f _ (b_eigenvalues r)) (f _ (b_eigenvectors r))
    (f _ (b_z_permittivity_matrix r)) (f _ (b_inverse_z_permittivity_matrix r))
    (f _ (b_z_permeability_matrix r)) (f _ (b_inverse_z_permeability_matrix r))
    (f _ (b_transverse_permeability_matrix r)) (omap (fun t => (f _ t.1, f _ t.2)) (b_tangent r)) in
  _ <- post_init (shapes_of r');; Val r'.
(** [jax.lax.scan] requires leading axes of one size; it slices the leaves and rebuilds the
    result, as [tree_map] does. The shapes of the carry must not change. (Those of the layers in
    it do not, since they are slices of the same arrays.) *)
Definition leading n (r : batched_result n) : seq nat :=
  [seq head 0 s | s <- [:: nshape (b_wavelength r); nshape (b_in_plane_wavevector r); nshape (b_u r);
     nshape (b_v r); nshape (b_eigenvalues r); nshape (b_eigenvectors r); nshape (b_z_permittivity_matrix r);
     nshape (b_inverse_z_permittivity_matrix r); nshape (b_z_permeability_matrix r);
     nshape (b_inverse_z_permeability_matrix r); nshape (b_transverse_permeability_matrix r)]
     ++ (if b_tangent r is Some t then [:: nshape t.1; nshape t.2] else [::])].
Definition scan_step n (s : batched_s_matrix n) (xs : batched_result n) (ts : nd R) (i : nat)
    : res (batched_s_matrix n) :=
  l <- result_map (fun T => @slice T i) xs;;
  s' <- append_layer_b s l (slice i ts);;
  check [&& nshape (bs11 s') == nshape (bs11 s), nshape (bs12 s') == nshape (bs12 s),
            nshape (bs21 s') == nshape (bs21 s) & nshape (bs22 s') == nshape (bs22 s)] TypeError
  (Val s').
Fixpoint scan_b n (s : batched_s_matrix n) (xs : batched_result n) (ts : nd R) (steps : seq nat)
    : res (batched_s_matrix n) :=
  match steps with
  | [::] => Val s
  | i :: steps => s' <- scan_step s xs ts i;; scan_b s' xs ts steps
  end.
(** scattering.py 213-280 [stack_s_matrix_scan]. The body of the scan is traced once before any
    step, even if there is none. *)
Definition stack_s_matrix_scan_b n (r : batched_result n) (thicknesses : nd R) : res (batched_s_matrix n) :=
  check (ndim thicknesses == 1) AssertionError
  (check (0 < size (batch_shape r)) IndexError
  (let len := head 0 (nshape thicknesses) in
   check (head 0 (batch_shape r) == len) ValueError
  (check (0 < len) IndexError
  (start <- result_map (fun T => @slice T 0) r;;
   let sh := butlast 1 (behead (nshape (b_eigenvalues r))) in
   let s := BSMat (eyes (n + n) sh) (zeros (n + n) sh) (zeros (n + n) sh) (eyes (n + n) sh)
     start (slice 0 thicknesses) start (slice 0 thicknesses) in
   xs <- result_map rest r;;
   let ts := rest thicknesses in
   check (all (pred1 len.-1) (leading xs)) ValueError
   (_ <- scan_step s xs ts 0;;
    scan_b s xs ts (iota 0 len.-1)))))).

(** Model of fields.py with batch dimensions. Amplitudes and Fourier fields, of shape
    [(..., num, num_amplitudes)], are arrays of matrices over the leading batch axes. Both amplitude
    arguments of a function have the same trailing axis, as in M_fields.v. *)
From Coq Require Import Reals ZArith.
From mathcomp Require Import all_ssreflect all_algebra.
From Verif Require Import CField Err LinAlg M_utils M_basis M_fft M_fmm_matrices M_nd M_fmm M_scattering M_fields M_batch M_bstack M_bvector M_bfmm.
Set Implicit Arguments. Unset Strict Implicit. Unset Printing Implicit Defensive.
Import GRing.Theory.

(** ** Amplitudes *)
(** fields.py 86-98 [_validate_amplitudes_shape] *)
Definition validate_amplitudes_b n m (amplitudes : seq (batch 'M[C]_(n, m))) : res unit :=
  validate_amplitudes_shape [seq nshape a ++ [:: n; m] | a <- amplitudes] n.

(** fields.py 14-40 [propagate_amplitude]. The distance is broadcast against the array of shape
    [(..., 2 * num_terms, num_amplitudes)]. (A distance that makes the last two axes larger is
    rejected here; the code returns the larger array.) *)
Definition propagate_amplitude_b n m (amplitude : batch 'M[C]_(n + n, m)) (distance : nd R) (l : batched_result n)
    : res (batch 'M[C]_(n + n, m)) :=
  _ <- validate_amplitudes_b [:: amplitude];;
  fd <- nmap2 (fun (q : res C) (d : R) => x <- q;; Val (cexp (Ci * x * RtoC d))%R) (newaxis (b_eigenvalues l)) distance;;
  a <- nmap2 (lift2 (fun a f : C => a * f)%R) (entries amplitude) fd;;
  matrices (0 : C)%R (n + n) m a.

(** fields.py 43-83 [colocate_amplitudes] *)
Definition colocate_amplitudes_b n m (forward_amplitude_start backward_amplitude_end : batch 'M[C]_(n + n, m))
    (z_offset : nd R) (l : batched_result n) (layer_thickness : nd R)
    : res (batch 'M[C]_(n + n, m) * batch 'M[C]_(n + n, m)) :=
  _ <- validate_amplitudes_b [:: forward_amplitude_start; backward_amplitude_end];;
  f <- propagate_amplitude_b forward_amplitude_start z_offset l;;
  distance <- nmap2 Rminus layer_thickness z_offset;;
  b <- propagate_amplitude_b backward_amplitude_end distance l;;
  Val (f, b).

(** ** Flux *)
Definition bhad p m (x y : batch 'M[C]_(p, m)) := bmap2 (fun A B => hadamard A B) x y.
Definition bconj p m (x : batch 'M[C]_(p, m)) : batch 'M[C]_(p, m) := bmap (fun A => conjm A) x.
Definition bhalf p m (x : batch 'M[C]_(p, m)) : batch 'M[C]_(p, m) := bmap (fun A => half *: A)%R x.
Definition bneg p m (x : batch 'M[C]_(p, m)) : batch 'M[C]_(p, m) := bmap (fun A => - A)%R x.
Definition bre p m (x : batch 'M[C]_(p, m)) : batch 'M[R]_(p, m) := bmap (fun A => re_mx A) x.

(** fields.py 262-274 [_poynting_flux_a_matrix] *)
Definition poynting_flux_a_matrix_b n (l : batched_result n) : res (batch 'M[C]_(n + n)) :=
  q <- mode_values l;;
  phi <- mode_vectors l;;
  omega_script_k <- omega_script_k_matrix_b l;;
  wq <- bmap2 (fun (w : R) (q : 'rV[C]_(n + n)) => RtoC w *: q)%R (nmap angular_frequency (b_wavelength l)) q;;
  x <- bmul omega_script_k phi;;
  bmap2 (fun (A : 'M[C]_(n + n)) r => A *m diag r)%R x (pmap (fun v => recip v) wq).

(** fields.py 101-153 [amplitude_poynting_flux] *)
Definition amplitude_poynting_flux_b n m (forward_amplitude backward_amplitude : batch 'M[C]_(n + n, m))
    (l : batched_result n) : res (batch 'M[R]_(n + n, m) * batch 'M[R]_(n + n, m)) :=
  _ <- validate_amplitudes_b [:: forward_amplitude; backward_amplitude];;
  phi <- mode_vectors l;;
  alpha_h <- bmul phi forward_amplitude;;
  beta_h <- bmul phi backward_amplitude;;
  A <- poynting_flux_a_matrix_b l;;
  alpha_e <- bmul A forward_amplitude;;
  beta_e <- bmul A backward_amplitude;;
  x1 <- bhad (bconj alpha_e) alpha_h;;
  x2 <- bhad (bconj alpha_h) alpha_e;;
  x <- badd x1 x2;;
  y1 <- bhad (bconj beta_h) alpha_e;;
  y2 <- bhad (bconj beta_e) alpha_h;;
  y <- bsub y1 y2;;
  s_forward <- badd x y;;
  z1 <- bhad (bconj beta_e) beta_h;;
  z2 <- bhad (bconj beta_h) beta_e;;
  z <- badd z1 z2;;
  s_backward <- badd (bneg z) (bconj y);;
  Val (bre (bhalf s_forward), bre (bhalf s_backward)).

(** fields.py 237-259 [eigenmode_poynting_flux] *)
Definition eigenmode_poynting_flux_b n (l : batched_result n) : res (batch 'rV[R]_(n + n)) :=
  alpha_h <- mode_vectors l;;
  alpha_e <- poynting_flux_a_matrix_b l;;
  x1 <- bhad (bconj alpha_e) alpha_h;;
  x2 <- bhad (bconj alpha_h) alpha_e;;
  x <- badd x1 x2;;
  let flux := bmap (fun A : 'M[C]_(n + n) => \row_j \sum_i re (A i j))%R (bhalf x) in
  check (nshape flux ++ [:: n + n] == nshape (b_eigenvalues l)) AssertionError (Val flux).

(** fields.py 211-220 [_poynting_flux_subset] *)
Definition poynting_flux_subset_b p m (A phi : batch 'M[C]_p) (a_total b_total a_subset b_subset : batch 'M[C]_(p, m))
    : res (batch 'M[C]_(p, m)) :=
  d <- bsub a_total b_total;;
  ad <- bmul A d;;
  s <- badd a_subset b_subset;;
  ps <- bmul phi s;;
  x <- bhad (bconj ad) ps;;
  s' <- badd a_total b_total;;
  ps' <- bmul phi s';;
  d' <- bsub a_subset b_subset;;
  ad' <- bmul A d';;
  y <- bhad (bconj ps') ad';;
  z <- badd x y;;
  Val (bhalf z).

(** fields.py 156-234 [directional_poynting_flux]; [jnp.where] broadcasts *)
Definition directional_poynting_flux_b n m (forward_amplitude backward_amplitude : batch 'M[C]_(n + n, m))
    (l : batched_result n) : res (batch 'M[R]_(n + n, m) * batch 'M[R]_(n + n, m)) :=
  eigenmode_flux <- eigenmode_poynting_flux_b l;;
  let fwd (f : 'rV[R]_(n + n)) i := if Rlt_dec 0 (f 0%R i) then true else false in
  let where_fwd := bmap2 (fun (f : 'rV[R]_(n + n)) (a : 'M[C]_(n + n, m)) =>
    \matrix_(i, j) (if fwd f i then a i j else 0))%R eigenmode_flux in
  let where_not_fwd := bmap2 (fun (f : 'rV[R]_(n + n)) (a : 'M[C]_(n + n, m)) =>
    \matrix_(i, j) (if fwd f i then 0 else a i j))%R eigenmode_flux in
  fwd_fwd <- where_fwd forward_amplitude;;
  fwd_bwd <- where_not_fwd forward_amplitude;;
  bwd_fwd <- where_not_fwd backward_amplitude;;
  bwd_bwd <- where_fwd backward_amplitude;;
  A <- poynting_flux_a_matrix_b l;;
  phi <- mode_vectors l;;
  s_forward <- poynting_flux_subset_b A phi forward_amplitude backward_amplitude fwd_fwd bwd_fwd;;
  s_backward <- poynting_flux_subset_b A phi forward_amplitude backward_amplitude fwd_bwd bwd_bwd;;
  Val (bre s_forward, bre s_backward).

(** ** Fourier fields *)
(** fields.py 352-370 [field_conversion_matrix]; [jnp.block] requires equal batch shapes. *)
Definition field_conversion_matrix_b n (l : batched_result n) : res (batch 'M[C]_((n + n) + (n + n))) :=
  phi <- mode_vectors l;;
  mat <- poynting_flux_a_matrix_b l;;
  bblock mat (bneg mat) phi phi.

(** fields.py 277-349 [fields_from_wave_amplitudes]; [jnp.concatenate] requires equal batch shapes. *)
Definition fields_from_wave_amplitudes_b n m (forward_amplitude backward_amplitude : batch 'M[C]_(n + n, m))
    (l : batched_result n) : res (fields6 (batch 'M[C]_(n, m))) :=
  _ <- validate_amplitudes_b [:: forward_amplitude; backward_amplitude];;
  matrix <- field_conversion_matrix_b l;;
  check (nshape forward_amplitude == nshape backward_amplitude) ValueError
  (amplitudes <- bmap2 (fun a b : 'M[C]_(n + n, m) => col_mx a b) forward_amplitude backward_amplitude;;
   fields <- bmul matrix amplitudes;;
   let ey := bmap (fun f : 'M[C]_((n + n) + (n + n), m) => - usubmx (usubmx f))%R fields in
   let ex := bmap (fun f : 'M[C]_((n + n) + (n + n), m) => dsubmx (usubmx f)) fields in
   let hx := bmap (fun f : 'M[C]_((n + n) + (n + n), m) => usubmx (dsubmx f)) fields in
   let hy := bmap (fun f : 'M[C]_((n + n) + (n + n), m) => dsubmx (dsubmx f)) fields in
   k <- transverse_wavevectors_b (fin (b_in_plane_wavevector l)) (fin (b_u l)) (fin (b_v l)) (b_expansion l);;
   kx <- vectors 0%coqR n (component 0 k);;
   ky <- vectors 0%coqR n (component 1 k);;
   let ikx := bmap (fun k : 'rV[R]_n => Ci *: vC k)%R kx in
   let iky := bmap (fun k : 'rV[R]_n => Ci *: vC k)%R ky in
   let w := nmap angular_frequency (b_wavelength l) in
   let r := pmap (fun w : R => recipC (Ci * RtoC w)%R) w in
   inverse_z_permittivity_matrix <- matrices (0 : C)%R n n (b_inverse_z_permittivity_matrix l);;
   inverse_z_permeability_matrix <- matrices (0 : C)%R n n (b_inverse_z_permeability_matrix l);;
   a <- brow ikx hy;; b <- brow iky hx;; c <- bsub a b;;
   ez <- bmul (bneg inverse_z_permittivity_matrix) c;;
   ez <- bmap2 (fun (A : 'M[C]_(n, m)) (r : C) => r *: A)%R ez r;;
   a' <- brow ikx ey;; b' <- brow iky ex;; c' <- bsub a' b';;
   hz <- bmul inverse_z_permeability_matrix c';;
   hz <- bmap2 (fun (A : 'M[C]_(n, m)) (r : C) => r *: A)%R hz r;;
   check [&& nshape ez == nshape ex & nshape hz == nshape ex] AssertionError
   (Val (Fields ex ey ez hx hy hz))).

(** ** Fields on real-space points *)
(** An array with a trailing axis of size 2 as an array of pairs. *)
Definition pairs (x : nd R) : nd (R * R) :=
  Nd (butlast 1 (nshape x)) (fun idx => (nget x (rcons idx 0), nget x (rcons idx 1))).
(** basis.py 132-155 [unit_cell_coordinates] *)
Definition unit_cell_coordinates_b (u v : nd R) (shape num_unit_cells : nat * nat)
    : res (nd (grid_point shape num_unit_cells -> R * R)) :=
  nmap2 (fun (a b : R * R) (p : grid_point shape num_unit_cells) => unit_cell_coordinate (Lattice a b) shape p.1 p.2)
    (pairs u) (pairs v).
Definition fields6_seq T (f : fields6 T) : seq T := [:: f_ex f; f_ey f; f_ez f; f_hx f; f_hy f; f_hz f].

(** fields.py 393-434 [fields_on_grid] and 438-486 [_fields_on_grid]; [fft.ifft] transforms each
    column of each matrix of the batch, [jnp.tile] repeats the grid. *)
Definition fields_on_grid_b n m (f : fields6 (batch 'M[C]_(n, m))) (l : batched_result n) (shape num_unit_cells : nat * nat)
    : res (fields6 (batch (xyfield (grid_point shape num_unit_cells) m)) * nd (grid_point shape num_unit_cells -> R * R)) :=
  _ <- validate_amplitudes_b (fields6_seq f);;
  xy <- unit_cell_coordinates_b (b_u l) (b_v l) shape num_unit_cells;;
  phase <- nmap2 (fun (k : R * R) (xy : grid_point shape num_unit_cells -> R * R) p =>
      cexp (Ci * RtoC (k.1 * (xy p).1 + k.2 * (xy p).2)%coqR)%R) (pairs (b_in_plane_wavevector l)) xy;;
  let field_on_grid (fourier_field : batch 'M[C]_(n, m)) :=
    _ <- validate_shape_for_expansion shape (b_expansion l);;
    nmap2 (fun (a : res 'M[C]_(n, m)) (ph : grid_point shape num_unit_cells -> C) =>
      rmap (fun a (p : grid_point shape num_unit_cells) (j : 'I_m) =>
        (mxget (ifft_values (col j a) (b_expansion l) shape.1 shape.2) (p.1 %% shape.1) (p.2 %% shape.2) * ph p)%R) a)
      fourier_field phase in
  g <- fields6_mapM field_on_grid f;;
  Val (g, xy).

(** fields.py 489-560 [fields_on_coordinates]; the coordinates are a list of [p] points
    ([x.flatten()]). The result is reshaped to the batch shape of [ex]. (Where the joint batch shape
    has as many elements but more axes of size 1, the code accepts it; here it is rejected.) *)
Definition fields_on_coordinates_b n m p (f : fields6 (batch 'M[C]_(n, m))) (l : batched_result n) (x y : 'I_p -> R)
    : res (fields6 (batch (xyfield 'I_p m)) * nd ('I_p -> R * R)) :=
  _ <- validate_amplitudes_b (fields6_seq f);;
  k <- transverse_wavevectors_b (fin (b_in_plane_wavevector l)) (fin (b_u l)) (fin (b_v l)) (b_expansion l);;
  kx <- vectors 0%coqR n (component 0 k);;
  ky <- vectors 0%coqR n (component 1 k);;
  let field_at_coordinates (fourier_field : batch 'M[C]_(n, m)) :=
    phase <- bmap2 (fun (kx ky : 'rV[R]_n) (i : 'I_n) (pt : 'I_p) =>
      cexp (Ci * RtoC (kx 0%R i * x pt + ky 0%R i * y pt)%coqR)%R) kx ky;;
    field <- bmap2 (fun (a : 'M[C]_(n, m)) (ph : 'I_n -> 'I_p -> C) (pt : 'I_p) (j : 'I_m) =>
      (\sum_i a i j * ph i pt)%R) fourier_field phase;;
    check (nshape field == nshape (f_ex f)) TypeError (Val field) in
  g <- fields6_mapM field_at_coordinates f;;
  Val (g, Nd [::] (fun=> fun pt => (x pt, y pt))).

(** ** Amplitudes inside a stack *)
(** fields.py 648-693 [amplitudes_interior] *)
Definition amplitudes_interior_b n m (before after : batched_s_matrix n)
    (forward_amplitude_0_start backward_amplitude_N_end : batch 'M[C]_(n + n, m))
    : res (batch 'M[C]_(n + n, m) * batch 'M[C]_(n + n, m)) :=
  _ <- validate_amplitudes_b [:: forward_amplitude_0_start; backward_amplitude_N_end];;
  a <- bmul (bs11 before) forward_amplitude_0_start;;
  b <- bmul (bs12 before) (bs22 after);;
  b <- bmul b backward_amplitude_N_end;;
  forward_rhs <- badd a b;;
  c <- bmul (bs12 before) (bs21 after);;
  let forward_mat := bmap (fun A : 'M[C]_(n + n) => 1%:M - A)%R c in
  forward_amplitude_i_start <- bsolve forward_mat forward_rhs;;
  d <- bmul (bs21 after) forward_amplitude_i_start;;
  e <- bmul (bs22 after) backward_amplitude_N_end;;
  backward_amplitude_i_end <- badd d e;;
  Val (forward_amplitude_i_start, backward_amplitude_i_end).

(** fields.py 568-605 [stack_amplitudes_interior] *)
Definition stack_amplitudes_interior_b n m (s_matrices_interior : seq (batched_s_matrix n * batched_s_matrix n))
    (forward_amplitude_0_start backward_amplitude_N_end : batch 'M[C]_(n + n, m))
    : res (seq (batch 'M[C]_(n + n, m) * batch 'M[C]_(n + n, m))) :=
  mapM (fun s => amplitudes_interior_b s.1 s.2 forward_amplitude_0_start backward_amplitude_N_end) s_matrices_interior.

(** [jnp.zeros_like] *)
Definition zeros_like n m (x : batch 'M[C]_(n, m)) : batch 'M[C]_(n, m) := Nd (nshape x) (fun=> Val 0%R).
(** fields.py 608-645 [stack_amplitudes_interior_with_source] *)
Definition stack_amplitudes_interior_with_source_b n m
    (s_matrices_interior_before_source s_matrices_interior_after_source : seq (batched_s_matrix n * batched_s_matrix n))
    (backward_amplitude_before_end forward_amplitude_after_start : batch 'M[C]_(n + n, m))
    : res (seq (batch 'M[C]_(n + n, m) * batch 'M[C]_(n + n, m))) :=
  amplitudes_before <- stack_amplitudes_interior_b s_matrices_interior_before_source
    (zeros_like backward_amplitude_before_end) backward_amplitude_before_end;;
  amplitudes_after <- stack_amplitudes_interior_b s_matrices_interior_after_source
    forward_amplitude_after_start (zeros_like forward_amplitude_after_start);;
  Val (amplitudes_before ++ amplitudes_after).

(** ** Fields in three dimensions *)
(** A function computing the fields of an xy slice (fields.py 379-390), for any trailing size. *)
Definition fields_xy_slice_fn_b n (P : Type) :=
  forall m, fields6 (batch 'M[C]_(n, m)) -> batched_result n -> res (fields6 (batch (xyfield P m)) * nd (P -> R * R)).

(** fields.py 948-1033 [_layer_fields_3d]. [jnp.linspace] with an array as its end point has a
    leading axis of size [znum]; an axis is inserted after it. The z axis of the fields is a list. *)
Definition layer_fields_3d_b n m P (fn : fields_xy_slice_fn_b n P)
    (forward_amplitude_start backward_amplitude_end : batch 'M[C]_(n + n, m))
    (l : batched_result n) (layer_thickness : nd R) (znum : nat)
    : res (fields6 (batch (seq (xyfield P m))) * nd (P -> R * R) * seq R) :=
  check (nshape forward_amplitude_start == nshape backward_amplitude_end) AssertionError
  (let z_offset_newaxis := Nd (znum :: 1 :: nshape layer_thickness)
     (fun idx => linspace0 (nget layer_thickness (behead (behead idx))) znum (head 0 idx)) in
   z_offset_broadcast <- broadcast_to z_offset_newaxis [:: znum; m];;
   let z_offset_flat := Nd [:: znum * m] (fun idx => nget z_offset_broadcast [:: head 0 idx %/ m; head 0 idx %% m]) in
   let flatten (x : batch 'M[C]_(n + n, m)) : batch 'M[C]_(n + n, znum * m) := bmap (fun a : 'M[C]_(n + n, m) => \matrix_(i, c) a i (flat_b c))%R x in
   '(fwd, bwd) <- colocate_amplitudes_b (flatten forward_amplitude_start) (flatten backward_amplitude_end)
      z_offset_flat l layer_thickness;;
   f <- fields_from_wave_amplitudes_b fwd bwd l;;
   '(g, xy) <- fn _ f l;;
   check [&& nshape (f_ey g) == nshape (f_ex g), nshape (f_ez g) == nshape (f_ex g),
             nshape (f_hy g) == nshape (f_hx g) & nshape (f_hz g) == nshape (f_hx g)] ValueError
   (let unflatten (x : batch (xyfield P (znum * m))) : batch (seq (xyfield P m)) := bmap (fun h : xyfield P (znum * m) => [seq (fun pt b => h pt (flat_index z b)) | z <- enum 'I_znum]) x in
    Val (fields6_map unflatten g, xy, [seq linspace0 (nget layer_thickness [::]) znum i | i <- iota 0 znum]))).

(** [jnp.concatenate] along the z axis of two arrays *)
Definition bconcat T (x y : batch (seq T)) : res (batch (seq T)) :=
  check (nshape x == nshape y) TypeError
  (Val (Nd (nshape x) (fun idx => lift2 (fun a b => a ++ b) (nget x idx) (nget y idx)))).
Definition fields6_concat T (a b : fields6 (batch (seq T))) : res (fields6 (batch (seq T))) :=
  ex <- bconcat (f_ex a) (f_ex b);; ey <- bconcat (f_ey a) (f_ey b);; ez <- bconcat (f_ez a) (f_ez b);;
  hx <- bconcat (f_hx a) (f_hx b);; hy <- bconcat (f_hy a) (f_hy b);; hz <- bconcat (f_hz a) (f_hz b);;
  Val (Fields ex ey ez hx hy hz).

(** fields.py 891-945 [_stack_fields_3d]. The thickness of a layer that has fields is a scalar, so
    the offset [z0] is a number. The in-plane coordinates are those of the last layer;
    [jnp.concatenate] of an empty list raises. *)
Fixpoint stack_fields_3d_loop_b n m P (fn : fields_xy_slice_fn_b n P) (z0 : R)
    (layers : seq (batch 'M[C]_(n + n, m) * batch 'M[C]_(n + n, m) * batched_result n * nd R * nat))
    : res (option (fields6 (batch (seq (xyfield P m))) * nd (P -> R * R)) * seq R) :=
  match layers with
  | [::] => Val (None, [::])
  | (a, b, l, t, znum) :: rest =>
      '(g, xy, z_offset) <- layer_fields_3d_b fn a b l t znum;;
      '(gs, zs) <- stack_fields_3d_loop_b fn (z0 + nget t [::])%coqR rest;;
      r <- (match gs with
            | None => Val (g, xy)
            | Some (gs, xys) => c <- fields6_concat g gs;; Val (c, xys)
            end);;
      Val (Some r, [seq (z + z0)%coqR | z <- z_offset] ++ zs)
  end.
Definition stack_fields_3d_gen_b n m P (fn : fields_xy_slice_fn_b n P)
    (amplitudes : seq (batch 'M[C]_(n + n, m) * batch 'M[C]_(n + n, m)))
    (layers : seq (batched_result n)) (thicknesses : seq (nd R)) (znums : seq nat)
    : res (fields6 (batch (seq (xyfield P m))) * nd (P -> R * R) * seq R) :=
  (* fields.py 1036-1040 [_validate_matching_lengths] *)
  check ((size layers == size amplitudes) && (size thicknesses == size amplitudes)
         && (size znums == size amplitudes)) ValueError
  ('(g, z) <- stack_fields_3d_loop_b fn 0%coqR (zip (zip (zip amplitudes layers) thicknesses) znums);;
   match g with None => Exn ValueError | Some (g, xy) => Val (g, xy, z) end).

(** fields.py 743-775 [stack_fields_3d], 778-810 [stack_fields_3d_on_coordinates],
    813-849 [layer_fields_3d], 852-888 [layer_fields_3d_on_coordinates] *)
Definition stack_fields_3d_b n m (amplitudes : seq (batch 'M[C]_(n + n, m) * batch 'M[C]_(n + n, m)))
    (layers : seq (batched_result n)) (thicknesses : seq (nd R)) (znums : seq nat) (grid_shape num_unit_cells : nat * nat) :=
  stack_fields_3d_gen_b (fun _ f l => fields_on_grid_b f l grid_shape num_unit_cells) amplitudes layers thicknesses znums.
Definition stack_fields_3d_on_coordinates_b n m p (amplitudes : seq (batch 'M[C]_(n + n, m) * batch 'M[C]_(n + n, m)))
    (layers : seq (batched_result n)) (thicknesses : seq (nd R)) (znums : seq nat) (x y : 'I_p -> R) :=
  stack_fields_3d_gen_b (fun _ f l => fields_on_coordinates_b f l x y) amplitudes layers thicknesses znums.

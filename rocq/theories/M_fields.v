(** Model of src/fmmax/fields.py, for one leading batch element; the trailing axis of
    amplitudes and Fourier fields (size [m]) is the columns of a matrix. Both amplitude
    arguments of a function have the same shape here (the code also accepts a trailing
    axis of size 1, which broadcasts). *)
From Coq Require Import Reals ZArith.
From mathcomp Require Import all_ssreflect all_algebra.
From Verif Require Import CField Err LinAlg M_utils M_basis M_fft M_fmm_matrices M_fmm M_scattering.
Set Implicit Arguments. Unset Strict Implicit. Unset Printing Implicit Defensive.
Import GRing.Theory.
Local Open Scope ring_scope.

(** [((ex, ey, ez), (hx, hy, hz))] *)
Record fields6 (T : Type) := Fields { f_ex : T; f_ey : T; f_ez : T; f_hx : T; f_hy : T; f_hz : T }.
Definition fields6_map (A B : Type) (f : A -> B) (x : fields6 A) : fields6 B :=
  Fields (f (f_ex x)) (f (f_ey x)) (f (f_ez x)) (f (f_hx x)) (f (f_hy x)) (f (f_hz x)).
Definition fields6_mapM (A B : Type) (f : A -> res B) (x : fields6 A) : res (fields6 B) :=
  a <- f (f_ex x);; b <- f (f_ey x);; c <- f (f_ez x);;
  d <- f (f_hx x);; e <- f (f_hy x);; g <- f (f_hz x);;
  Val (Fields a b c d e g).

(** fields.py 14-40 [propagate_amplitude]; [distance] is broadcast along the trailing axis,
    a scalar distance is [const_mx d]. *)
Definition propagate_amplitude n m (amplitude : 'M[C]_(n + n, m)) (distance : 'rV[R]_m)
    (l : layer_solve_result n) : 'M[C]_(n + n, m) :=
  \matrix_(i, j) (amplitude i j * cexp (Ci * eigenvalues l 0 i * RtoC (distance 0 j))).

(** fields.py 43-83 [colocate_amplitudes] *)
Definition colocate_amplitudes n m (forward_amplitude_start backward_amplitude_end : 'M[C]_(n + n, m))
    (z_offset : 'rV[R]_m) (l : layer_solve_result n) (layer_thickness : R)
    : 'M[C]_(n + n, m) * 'M[C]_(n + n, m) :=
  (propagate_amplitude forward_amplitude_start z_offset l,
   propagate_amplitude backward_amplitude_end (const_mx layer_thickness - z_offset) l).

(** fields.py 262-274 [_poynting_flux_a_matrix]; [q = 0] for some mode is non-finite. *)
Definition poynting_flux_a_matrix n (l : layer_solve_result n) : res 'M[C]_(n + n) :=
  let q := eigenvalues l in
  omega_script_k <- omega_script_k_matrix l;;
  w <- angular_frequency (wavelength l);;
  r <- recip (RtoC w *: q);;
  Val (omega_script_k *m eigenvectors l *m diag r).

(** Elementwise product. *)
Definition hadamard p m (A B : 'M[C]_(p, m)) : 'M[C]_(p, m) := \matrix_(i, j) (A i j * B i j).
Definition re_mx p m (A : 'M[C]_(p, m)) : 'M[R]_(p, m) := map_mx re A.

(** fields.py 101-153 [amplitude_poynting_flux] *)
Definition amplitude_poynting_flux n m (forward_amplitude backward_amplitude : 'M[C]_(n + n, m))
    (l : layer_solve_result n) : res ('M[R]_(n + n, m) * 'M[R]_(n + n, m)) :=
  let alpha_h := eigenvectors l *m forward_amplitude in
  let beta_h := eigenvectors l *m backward_amplitude in
  A <- poynting_flux_a_matrix l;;
  let alpha_e := A *m forward_amplitude in
  let beta_e := A *m backward_amplitude in
  let s_forward := half *:
    ((hadamard (conjm alpha_e) alpha_h + hadamard (conjm alpha_h) alpha_e)
     + (hadamard (conjm beta_h) alpha_e - hadamard (conjm beta_e) alpha_h)) in
  let s_backward := half *:
    (- (hadamard (conjm beta_e) beta_h + hadamard (conjm beta_h) beta_e)
     + conjm (hadamard (conjm beta_h) alpha_e - hadamard (conjm beta_e) alpha_h)) in
  Val (re_mx s_forward, re_mx s_backward).

(** fields.py 237-259 [eigenmode_poynting_flux] *)
Definition eigenmode_poynting_flux n (l : layer_solve_result n) : res 'rV[R]_(n + n) :=
  let alpha_h := eigenvectors l in
  alpha_e <- poynting_flux_a_matrix l;;
  let s_eigenmode := half *:
    (hadamard (conjm alpha_e) alpha_h + hadamard (conjm alpha_h) alpha_e) in
  Val (\row_j \sum_i re (s_eigenmode i j)).

(** fields.py 211-220 [_poynting_flux_subset] *)
Definition poynting_flux_subset p m (A phi : 'M[C]_p) (a_total b_total a_subset b_subset : 'M[C]_(p, m))
    : 'M[C]_(p, m) :=
  half *: (hadamard (conjm (A *m (a_total - b_total))) (phi *m (a_subset + b_subset))
           + hadamard (conjm (phi *m (a_total + b_total))) (A *m (a_subset - b_subset))).

(** fields.py 156-234 [directional_poynting_flux] *)
Definition directional_poynting_flux n m (forward_amplitude backward_amplitude : 'M[C]_(n + n, m))
    (l : layer_solve_result n) : res ('M[R]_(n + n, m) * 'M[R]_(n + n, m)) :=
  eigenmode_flux <- eigenmode_poynting_flux l;;
  let fwd i := if Rlt_dec 0 (eigenmode_flux 0 i) then true else false in
  let fwd_fwd := \matrix_(i, j) (if fwd i then forward_amplitude i j else 0) in
  let fwd_bwd := \matrix_(i, j) (if fwd i then 0 else forward_amplitude i j) in
  let bwd_fwd := \matrix_(i, j) (if ~~ fwd i then backward_amplitude i j else 0) in
  let bwd_bwd := \matrix_(i, j) (if ~~ fwd i then 0 else backward_amplitude i j) in
  A <- poynting_flux_a_matrix l;;
  let phi := eigenvectors l in
  let s_forward := poynting_flux_subset A phi forward_amplitude backward_amplitude fwd_fwd bwd_fwd in
  let s_backward := poynting_flux_subset A phi forward_amplitude backward_amplitude fwd_bwd bwd_bwd in
  Val (re_mx s_forward, re_mx s_backward).

(** fields.py 352-370 [field_conversion_matrix] *)
Definition field_conversion_matrix n (l : layer_solve_result n)
    : res 'M[C]_((n + n) + (n + n)) :=
  let q := eigenvalues l in
  let phi := eigenvectors l in
  omega_script_k <- omega_script_k_matrix l;;
  w <- angular_frequency (wavelength l);;
  r <- recip (RtoC w *: q);;
  let mat := omega_script_k *m phi *m diag r in
  Val (block_mx mat (- mat) phi phi).

(** fields.py 277-349 [fields_from_wave_amplitudes] *)
Definition fields_from_wave_amplitudes n m (forward_amplitude backward_amplitude : 'M[C]_(n + n, m))
    (l : layer_solve_result n) : res (fields6 'M[C]_(n, m)) :=
  matrix <- field_conversion_matrix l;;
  let amplitudes := col_mx forward_amplitude backward_amplitude in
  let fields := matrix *m amplitudes in
  let negative_ey := usubmx (usubmx fields) in
  let ex := dsubmx (usubmx fields) in
  let hx := usubmx (dsubmx fields) in
  let hy := dsubmx (dsubmx fields) in
  let ey := - negative_ey in
  k <- transverse_wavevectors (in_plane_wavevector l) (primitive_lattice_vectors l) (expansion l);;
  let kx := vC k.1 in
  let ky := vC k.2 in
  w <- angular_frequency (wavelength l);;
  r <- recipC (Ci * RtoC w);;
  let ez := r *: ((- inverse_z_permittivity_matrix l) *m
                  (rowscale (Ci *: kx) hy - rowscale (Ci *: ky) hx)) in
  let hz := r *: (inverse_z_permeability_matrix l *m
                  (rowscale (Ci *: kx) ey - rowscale (Ci *: ky) ex)) in
  Val (Fields ex ey ez hx hy hz).

(** Fields on real-space points: [P] indexes the points, the trailing axis has size [m]. *)
Definition xyfield (P : Type) m := P -> 'I_m -> C.

(** The points of a grid of [num_unit_cells] copies of a [shape] grid. *)
Definition grid_point (shape num_unit_cells : nat * nat) : Type :=
  ('I_(num_unit_cells.1 * shape.1) * 'I_(num_unit_cells.2 * shape.2))%type.

(** fields.py 393-434 [fields_on_grid] and 438-486 [_fields_on_grid]; [jnp.tile] repeats the
    grid, i.e. reads it at the index modulo the shape; the inverse transform is along
    [axis=-2], i.e. column by column. *)
Definition fields_on_grid n m (f : fields6 'M[C]_(n, m)) (l : layer_solve_result n)
    (shape num_unit_cells : nat * nat)
    : res (fields6 (xyfield (grid_point shape num_unit_cells) m)
           * (grid_point shape num_unit_cells -> R * R)) :=
  let coords (p : grid_point shape num_unit_cells) :=
    unit_cell_coordinate (primitive_lattice_vectors l) shape p.1 p.2 in
  let kx := (in_plane_wavevector l).1 in
  let ky := (in_plane_wavevector l).2 in
  let phase p := cexp (Ci * RtoC (kx * (coords p).1 + ky * (coords p).2)) in
  let field_on_grid (fourier_field : 'M[C]_(n, m)) :=
    _ <- validate_shape_for_expansion shape (expansion l);;
    Val (fun (p : grid_point shape num_unit_cells) (j : 'I_m) =>
      mxget (ifft_values (col j fourier_field) (expansion l) shape.1 shape.2)
            (p.1 %% shape.1) (p.2 %% shape.2) * phase p) in
  g <- fields6_mapM field_on_grid f;;
  Val (g, coords).

(** fields.py 489-560 [fields_on_coordinates]; the coordinates are a list of [p] points
    ([x.flatten()]). *)
Definition fields_on_coordinates n m p (f : fields6 'M[C]_(n, m)) (l : layer_solve_result n)
    (x y : 'I_p -> R) : res (fields6 (xyfield 'I_p m) * ('I_p -> R * R)) :=
  k <- transverse_wavevectors (in_plane_wavevector l) (primitive_lattice_vectors l) (expansion l);;
  let field_at_coordinates (fourier_field : 'M[C]_(n, m)) : xyfield 'I_p m :=
    fun pt j => \sum_i fourier_field i j *
      cexp (Ci * RtoC (k.1 0 i * x pt + k.2 0 i * y pt)) in
  Val (fields6_map field_at_coordinates f, fun pt => (x pt, y pt)).

(** fields.py 648-693 [amplitudes_interior] *)
Definition amplitudes_interior n m (before after : scattering_matrix n)
    (forward_amplitude_0_start backward_amplitude_N_end : 'M[C]_(n + n, m))
    : res ('M[C]_(n + n, m) * 'M[C]_(n + n, m)) :=
  let forward_rhs := s11 before *m forward_amplitude_0_start
                     + s12 before *m s22 after *m backward_amplitude_N_end in
  let forward_mat := 1%:M - s12 before *m s21 after in
  forward_amplitude_i_start <- solve forward_mat forward_rhs;;
  let backward_amplitude_i_end := s21 after *m forward_amplitude_i_start
                                  + s22 after *m backward_amplitude_N_end in
  Val (forward_amplitude_i_start, backward_amplitude_i_end).

(** fields.py 568-605 [stack_amplitudes_interior] *)
Definition stack_amplitudes_interior n m (s_matrices_interior : seq (scattering_matrix n * scattering_matrix n))
    (forward_amplitude_0_start backward_amplitude_N_end : 'M[C]_(n + n, m))
    : res (seq ('M[C]_(n + n, m) * 'M[C]_(n + n, m))) :=
  mapM (fun s => amplitudes_interior s.1 s.2 forward_amplitude_0_start backward_amplitude_N_end)
       s_matrices_interior.

(** fields.py 608-645 [stack_amplitudes_interior_with_source] *)
Definition stack_amplitudes_interior_with_source n m
    (s_matrices_interior_before_source s_matrices_interior_after_source :
       seq (scattering_matrix n * scattering_matrix n))
    (backward_amplitude_before_end forward_amplitude_after_start : 'M[C]_(n + n, m))
    : res (seq ('M[C]_(n + n, m) * 'M[C]_(n + n, m))) :=
  amplitudes_before <- stack_amplitudes_interior s_matrices_interior_before_source
                         0 backward_amplitude_before_end;;
  amplitudes_after <- stack_amplitudes_interior s_matrices_interior_after_source
                         forward_amplitude_after_start 0;;
  Val (amplitudes_before ++ amplitudes_after).

(** [jnp.linspace(0, t, num)], element [i]; for [num = 1] the single element is 0. *)
Definition linspace0 (t : R) (num i : nat) : R :=
  if num == 1%N then 0%coqR else (t * (INR i / INR (num - 1)))%coqR.

(** A function computing the fields of an xy slice from Fourier amplitudes (fields.py 379-390),
    for any trailing size. *)
Definition fields_xy_slice_fn n (P : Type) :=
  forall m, fields6 'M[C]_(n, m) -> layer_solve_result n -> res (fields6 (xyfield P m) * (P -> R * R)).

(** fields.py 948-1033 [_layer_fields_3d]. The z axis and the amplitude batch axis are
    flattened into one axis of size [znum * m], index [z * m + b]; the result at slice [z]
    and batch element [b] is at that index. *)
Definition flat_z znum m (c : 'I_(znum * m)) : nat := c %/ m.
Lemma flat_b_proof znum m (c : 'I_(znum * m)) : (c %% m < m)%N.
Proof. by case: m c => [|m] [c h] /=; [rewrite muln0 in h | rewrite ltn_mod]. Qed.
Definition flat_b znum m (c : 'I_(znum * m)) : 'I_m := Ordinal (flat_b_proof c).
Lemma flat_index_proof znum m (z : 'I_znum) (b : 'I_m) : (z * m + b < znum * m)%N.
Proof.
by apply: (@leq_trans (z.+1 * m)); [rewrite mulSn addnC ltn_add2r | rewrite leq_mul2r ltn_ord orbT].
Qed.
Definition flat_index znum m (z : 'I_znum) (b : 'I_m) : 'I_(znum * m) := Ordinal (flat_index_proof z b).

Definition layer_fields_3d_gen n m P (fn : fields_xy_slice_fn n P)
    (forward_amplitude_start backward_amplitude_end : 'M[C]_(n + n, m))
    (l : layer_solve_result n) (layer_thickness : R) (znum : nat)
    : res (seq (fields6 (xyfield P m)) * (P -> R * R) * seq R) :=
  let z_offset := [seq linspace0 layer_thickness znum i | i <- iota 0 znum] in
  let z_offset_flat : 'rV[R]_(znum * m) := \row_c nth 0%coqR z_offset (flat_z c) in
  let fwd_flat : 'M[C]_(n + n, znum * m) := \matrix_(i, c) forward_amplitude_start i (flat_b c) in
  let bwd_flat : 'M[C]_(n + n, znum * m) := \matrix_(i, c) backward_amplitude_end i (flat_b c) in
  let '(fwd, bwd) := colocate_amplitudes fwd_flat bwd_flat z_offset_flat l layer_thickness in
  f <- fields_from_wave_amplitudes fwd bwd l;;
  '(g, xy) <- fn _ f l;;
  Val ([seq fields6_map (fun (h : xyfield P (znum * m)) pt b => h pt (flat_index z b)) g | z <- enum 'I_znum],
       xy, z_offset).

(** fields.py 891-945 [_stack_fields_3d]; the fields are concatenated along the z axis, the
    in-plane coordinates are those of the last layer. *)
Fixpoint stack_fields_3d_loop n m P (fn : fields_xy_slice_fn n P) (z0 : R)
    (layers : seq ('M[C]_(n + n, m) * 'M[C]_(n + n, m) * layer_solve_result n * R * nat))
    : res (seq (fields6 (xyfield P m)) * option (P -> R * R) * seq R) :=
  match layers with
  | [::] => Val ([::], None, [::])
  | (a, b, l, t, znum) :: rest =>
      '(g, xy, z_offset) <- layer_fields_3d_gen fn a b l t znum;;
      '(gs, xys, zs) <- stack_fields_3d_loop fn (z0 + t)%coqR rest;;
      Val (g ++ gs, (match xys with None => Some xy | Some xy' => Some xy' end),
           [seq (z + z0)%coqR | z <- z_offset] ++ zs)
  end.
Definition stack_fields_3d_gen n m P (fn : fields_xy_slice_fn n P)
    (amplitudes : seq ('M[C]_(n + n, m) * 'M[C]_(n + n, m)))
    (layers : seq (layer_solve_result n)) (thicknesses : seq R) (znums : seq nat)
    : res (seq (fields6 (xyfield P m)) * (P -> R * R) * seq R) :=
  (* fields.py 1036-1040 [_validate_matching_lengths] *)
  check ((size layers == size amplitudes) && (size thicknesses == size amplitudes)
         && (size znums == size amplitudes)) ValueError
  ('(g, xy, z) <- stack_fields_3d_loop fn 0%coqR
     (zip (zip (zip amplitudes layers) thicknesses) znums);;
   (* [jnp.concatenate([])] raises *)
   match xy with None => Exn ValueError | Some xy => Val (g, xy, z) end).

(** fields.py 743-775 [stack_fields_3d], 778-810 [stack_fields_3d_on_coordinates],
    813-849 [layer_fields_3d], 852-888 [layer_fields_3d_on_coordinates] *)
Definition stack_fields_3d n m (amplitudes : seq ('M[C]_(n + n, m) * 'M[C]_(n + n, m)))
    (layers : seq (layer_solve_result n)) (thicknesses : seq R) (znums : seq nat)
    (grid_shape num_unit_cells : nat * nat) :=
  stack_fields_3d_gen (fun _ f l => fields_on_grid f l grid_shape num_unit_cells)
    amplitudes layers thicknesses znums.
Definition stack_fields_3d_on_coordinates n m p (amplitudes : seq ('M[C]_(n + n, m) * 'M[C]_(n + n, m)))
    (layers : seq (layer_solve_result n)) (thicknesses : seq R) (znums : seq nat)
    (x y : 'I_p -> R) :=
  stack_fields_3d_gen (fun _ f l => fields_on_coordinates f l x y)
    amplitudes layers thicknesses znums.
Definition layer_fields_3d n m (forward_amplitude_start backward_amplitude_end : 'M[C]_(n + n, m))
    (l : layer_solve_result n) (layer_thickness : R) (znum : nat)
    (grid_shape num_unit_cells : nat * nat) :=
  layer_fields_3d_gen (fun _ f l => fields_on_grid f l grid_shape num_unit_cells)
    forward_amplitude_start backward_amplitude_end l layer_thickness znum.
Definition layer_fields_3d_on_coordinates n m p
    (forward_amplitude_start backward_amplitude_end : 'M[C]_(n + n, m))
    (l : layer_solve_result n) (layer_thickness : R) (znum : nat) (x y : 'I_p -> R) :=
  layer_fields_3d_gen (fun _ f l => fields_on_coordinates f l x y)
    forward_amplitude_start backward_amplitude_end l layer_thickness znum.

(** [int(jnp.round(x))], rounding half to even. *)
Definition round_half_even (x : R) : Z :=
  let f := Int_part x in
  if Rlt_dec (x - IZR f)%coqR (1/2)%coqR then f
  else if Rlt_dec (1/2)%coqR (x - IZR f)%coqR then (f + 1)%coqZ
  else if Z.even f then f else (f + 1)%coqZ.

(** fields.py 701-740 [stack_fields_3d_auto_grid]: the grid shape and [layer_znum] it
    passes to [stack_fields_3d]; negative counts (negative thickness or spacing) raise. *)
Definition norm2 (v : R * R) : R := sqrt (v.1 * v.1 + v.2 * v.2)%coqR.
Definition round_count (x spacing : R) : res nat :=
  r <- recipR spacing;;
  let z := round_half_even (x * r)%coqR in
  if Z.ltb z 0 then Exn ValueError else Val (Z.to_nat z).
Definition stack_fields_3d_auto_grid n m (amplitudes : seq ('M[C]_(n + n, m) * 'M[C]_(n + n, m)))
    (layers : seq (layer_solve_result n)) (thicknesses : seq R) (grid_spacing : R)
    (num_unit_cells : nat * nat)
    : res {shape : nat * nat & (seq (fields6 (xyfield (grid_point shape num_unit_cells) m))
                                * (grid_point shape num_unit_cells -> R * R) * seq R)%type} :=
  match layers with
  | [::] => Exn IndexError
  | l0 :: _ =>
    gx <- round_count (norm2 (lat_u (primitive_lattice_vectors l0))) grid_spacing;;
    gy <- round_count (norm2 (lat_v (primitive_lattice_vectors l0))) grid_spacing;;
    znum <- mapM (fun t => round_count t grid_spacing) thicknesses;;
    rmap (existT _ (gx, gy))
      (stack_fields_3d amplitudes layers thicknesses znum (gx, gy) num_unit_cells)
  end.

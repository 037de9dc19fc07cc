# Formal model of fmmax in Rocq (Coq 8.16.1)

## Layout

* `properties.jsonl` - the English properties C01...
* `rocq/theories/` - flat directory, logical name `Verif`.
  * foundation: `CField.v` (stdlib `R` and Coquelicot's `C` as mathcomp fields, `cexp`, `csqrt`,
    conjugation), `Err.v` (exceptions and non-finite results as values), `LinAlg.v`
    (`jnp.linalg.solve`, `diag`, row/column scaling), `Tac.v` (tactics).
  * `M_*.v` - the model, one or more files per python module, definitions only, each with a comment
    citing the lines it models.
  * `S_*.v` - small specifications, in physical or mathematical terms. They use the model's data types
    (a layer, an array, an expansion) but not the model's computations.
  * `L_*.v` - lemmas.
  * `P_*.v` - the property theorems `Cnn_*`, each with `Print Assumptions` and, beside it, an `Example`
    showing that a concrete, non-trivial case meets the hypotheses.
* `MANIFEST.json` - property -> theorems.
* `seeded/LOG.jsonl` - the wrong-program experiments.

A theorem named `*_refuted` proves that a natural reading of a property is false of the code, by
exhibiting (or describing a family of) inputs. They are collected under Findings.

## Modelling decisions

* Floating point numbers are modelled by exact reals (`Coq.Reals`) and complex numbers (pairs of reals,
  Coquelicot's `C`). Rounding is not modelled. Where IEEE semantics decide the outcome (hash and
  equality of arrays, C42) the model uses `SpecFloat`.
* `jnp.linalg.solve(A, B)` is `invmx A *m B` when `A` is invertible and the error value `NonFinite`
  otherwise; `1 / x` at `x = 0` is `NonFinite`. An array computation that produced inf/nan is thus an
  error value, and a theorem hypothesis `f x = Val y` reads "the computation returned finite values".
  Where nan is part of the documented output (far-field profiles, angles), elements of an array carry it
  one by one.
* Python exceptions are error values (`ValueError`, `AssertionError`, `IndexError`, `TypeError`) of the
  same result type. Every broadcasting error is `ValueError`; jax raises `TypeError` for some of them.
* `jnp.linalg.eig` is an oracle. Theorems that need it quantify over every eigenvector matrix and
  eigenvalue vector that satisfy the eigenvalue equation (`eig_spec`).
* `jnp.fft.fft2/ifft2` are modelled by their defining sums, `jax.image.resize` by its weight matrix with
  the weights computed as in jax, `jnp.pad(mode="edge")` by clamped indices, `jax.grad`, `jax.jacrev` and
  forward-over-reverse Hessians by derivatives.
* `numpy.argsort` (unstable) is modelled by an arbitrary sorting permutation; theorems hold for all.
* Leading batch dimensions: numerical functions are first modelled for one batch element, with the trailing
  amplitude batch dimension kept (matrices with `m` columns). Shape logic, broadcasting, axes and
  validation are modelled on shapes, for all ranks. n-dimensional arrays (`M_nd.v`) with numpy
  broadcasting are used for the batched models (`M_batch.v`, `M_bstack.v`, ...); the theorems C51, C52
  and later say that the batched computation is, index by index, the single one.
* Array indexing follows JAX: negative indices wrap once, out-of-range gathers clamp, out-of-range
  scatters are dropped. Theorems show that neither happens.
* `jnp.linalg.solve` with batch dimensions follows numpy 2: the right hand side is an array of matrices.

## What is modelled

| module | modelled | not modelled |
|--------|----------|--------------|
| `basis.py` | everything | array types other than numpy's inside `_HashableArray` (integers and binary64 only) |
| `beams.py` | everything | - |
| `farfield.py` | everything, for arrays without leading batch axes in the numerical functions; the unflatten functions for any number of axes | batch axes of `integrated_flux`, `farfield_profile` and the angle functions |
| `fft.py` | everything, for one array; `fourier_convolution_matrix` with leading batch axes in `M_bfmm.v` | leading batch axes of `fft` and `ifft` on their own, axes other than the last two |
| `fields.py` | everything; with leading batch axes in `M_bfields.v` | leading batch axes of `stack_fields_3d_auto_grid` and `time_average_z_poynting_flux` |
| `fmm.py` | everything: the dispatch, all four eigensolve paths, Fourier matrices, sign selection, validation of `LayerSolveResult`; with leading batch axes in `M_batch.v` and `M_bfmm.v` | lattices that differ between batch elements, except in C24 |
| `fmm_matrices.py` | everything; with leading batch axes in `M_bfmm.v` | |
| `pml.py` | everything | leading batch axes |
| `scattering.py` | everything; with leading batch axes in `M_bstack.v` | `force_x64_solve` and its casts |
| `sources.py` | everything | leading batch axes |
| `utils.py` | everything except the numerical `_eig_jax`, `_eig`, `_eig_fwd` (oracle); `_eig_bwd` for one batch element | devices, host callbacks, the `jeig`/magma backend |
| `vector.py` | everything, with leading batch axes in `M_bvector.v`; automatic differentiation as derivatives | `jax.vmap` is the map over its axis; padding sizes inside the loss are those of the code |
| not modelled at all | | `examples/`, `notebooks/`, `docs/`, dtype promotion, `jax.jit`, device placement |

## Plan per property

| id | what is modelled | proof |
|----|------------------|-------|
| C01 | `_extend_s_matrix`, `_pair_s_matrix`, `_stack_s_matrices`, `stack_s_matrix`; field continuity spec (`S_stack.v`) | induction on the stack, relation equivalence |
| C02 | `redheffer_star_product` | elimination of the intermediate amplitudes, uniqueness of S from its relation |
| C03 | `append_layer`, `prepend_layer` | via C01's relation and its reversal |
| C04 | `stack_s_matrices_interior` | reversal of continuity chains |
| C05 | `stack_s_matrix_scan`, also batched | fold/scan equality by induction; stacked attributes |
| C06 | `set_*_layer_thickness` | change of amplitude reference plane in the chain |
| C07 | stacks with a split or zero-thickness layer | chain insertion/removal |
| C08, C09 | `amplitudes_interior`, `stack_amplitudes_interior(_with_source)` | prefix/suffix chains joined |
| C10 | `amplitudes_for_source`, `polarization_terms`, `emission_matrix` | block elimination |
| C11 | flux functions | algebra over C, per row |
| C12 | flux + Maxwell generator in a lossless layer | Hermitian form invariance from the eigen-equation; Hermitian Fourier matrices of real or Hermitian media |
| C13 | `fields_from_wave_amplitudes`, colocation, all solvers; derivatives as limits of difference quotients | K*scriptK = 0 and the eigen-equation |
| C14 | uniform isotropic eigensolve, patterned matrices | block algebra |
| C15, C16 | sign selection, propagation | complex square root, `exp` |
| C17-C19 | fft module | orthogonality of characters, index arithmetic |
| C20, C21 | `fields_on_grid`, `fields_on_coordinates`, `amplitudes_for_fields` | C17 and Bloch phases |
| C22, C23 | expansions over real lattices | list reasoning, sorting permutations |
| C24-C26 | lattice functions | real field identities; n-d arrays for batches |
| C27-C29 | shape functions | induction on lists |
| C30, C31 | PML | case analysis on indices |
| C32, C33 | beams | trigonometric identities |
| C34-C36 | farfield | injectivity of index maps, resize weights, inverse trigonometry |
| C37 | interpolation | complex arithmetic |
| C38-C40 | tangent terms, normalisation, tangent field | pointwise algebra, invariance of the loss |
| C41 | `_eig_bwd` | trace algebra, first order perturbation of eigenpairs |
| C42 | pytrees, hashing | by cases; IEEE equality |
| C43 | sources | exponentials |
| C44 | `stack_fields_3d`, `layer_fields_3d` and the variants on coordinates | induction on the stack |
| C45-C47 | anisotropic reductions, scale invariance, dispatch | block algebra, shape logic |
| C48 | `solid_angle_from_unflattened_transverse_wavevectors`, `farfield_profile` | cell sums, clamped indices |
| C49 | `_field_loss` and the Newton step | the loss is a positive quadratic; unique minimiser |
| C50 | tangent fields of gratings | translation invariance of the minimiser |
| C51 | `_eigensolve_uniform_isotropic_media` with batch axes | broadcasting index maps |
| C52 | scattering with batch axes | induction on the stack with broadcasting |
| C53 | vector fields of batches of arrays and lattices | row-major flattening is inverted by the reshape; elementwise by `jax.vmap` as a map |
| C54 | all eigensolve functions with batch axes (`M_bfmm.v`): every numpy operation broadcasts, `eig` is a map over the batch | elementwise lemma per operation, composed along the solver; schemes from C53 |
| C55 | amplitudes, flux, Fourier fields and interior amplitudes with batch axes (`M_bfields.v`) | elementwise lemma per operation, shapes bounded by the joint batch; interior amplitudes from C52 |
| C56 | fields on grids, at coordinates and through stacks with batch axes | elementwise slice functions; flattening of the z axis commutes with broadcasting; induction on the layers |
| C57 | two solved layers with the same material matrices and modes of the same eigenproblem (`S_modes.v`) | the change of mode basis commutes with every function of the eigenvalues, because the wavenumber is a function of its square; it maps solutions of the stack to solutions, and C01/C08 make these unique |
| C58 | every solver for a pattern and the pattern moved by a whole number of grid points (`S_shift.v`) | a moved pattern multiplies its Fourier coefficients by phases (reindexing of the sums), so every material matrix is conjugated by a diagonal matrix; the mode-basis argument of C57 with that diagonal |
| C59 | every solver at a wavevector and at the opposite one, with transposed tensors (`S_reciprocity.v`) | the matrices of the two eigenproblems are transposes of each other up to the pairing of opposite orders; the bilinear overlap of two modes vanishes unless their propagation constants agree, so the reaction does not depend on the depth; tangential continuity carries it across interfaces |
| C60 | every solver for a structure and for the same structure in rotated or mirrored coordinates (`S_isometry.v`) | transverse wavevectors turn as vectors, so the material and wavevector matrices are conjugated by 2x2 block matrices with scalar blocks; the mode-basis argument of C57 with these matrices carries fields across layers and interfaces |
| C61 | every solver for two descriptions of a structure that differ in the sequence of the orders, an equivalent wavevector, or exchanged lattice vectors (`S_relabel.v`) | the transverse wavevectors are permuted and the convolution matrices conjugated by the permutation matrix; the mode-basis argument of C57 with that matrix |
| C62 | every solver for a structure on its unit cell and on a cell of several unit cells (`S_supercell.v`) | the Fourier coefficients of a tiled array are those of the array at multiples and zero elsewhere (geometric sums), so the material and wavevector matrices are intertwined by the rectangular matrix that embeds the orders; the mode-basis argument of C57 with that matrix |
| C63 | stacks with the layers in the opposite sequence (`S_flip.v`) | the tangential fields of exchanged amplitudes are minus and plus those of the amplitudes, so continuity at an interface is symmetric; the characterisations of C01 and C08 then give the computed matrices and amplitudes |

All properties can be expressed in the model; no property is `not_applicable`.

## Trusted base

* Coq's kernel (8.16.1) and its standard library.
* mathcomp and Coquelicot as libraries; no axiom of theirs is used.
* The `Definition`s in `M_*.v` as a rendering of the python code, under the modelling decisions above, and
  the statements with `S_*.v` as a rendering of the English properties.
* The axioms below, all of the standard library: `ClassicalDedekindReals.sig_forall_dec` (SFD),
  `ClassicalDedekindReals.sig_not_dec` (SND), `FunctionalExtensionality.functional_extensionality_dep` (FE),
  `Classical_Prop.classic` (CL), `ClassicalEpsilon.constructive_indefinite_description` (CID).
* `coqchk` reports, besides these axioms, constants that mathcomp and the standard library seal behind module types
  (for example `Rdefinitions.RbaseSymbolsImpl.*` and mathcomp's locked definitions). They have bodies; no
  theorem rests on them as axioms, as `Print Assumptions` shows.

`Print Assumptions` of each theorem (printed in the build by the `P_*.v` files):

| axioms | theorems |
|--------|----------|
| SFD, SND, CID, CL, FE | `C01_independent_eigenvectors_complete`, `C01_stack_s_matrix_finite`, `C01_stack_s_matrix_is_field_continuity`, `C01_stack_s_matrix_raises`, `C01_uniform_complete`, `C02_redheffer_associative`, `C02_redheffer_composes`, `C03_append_layer_rebuilds`, `C03_prepend_layer_rebuilds`, `C04_interior_matrices`, `C05_batched_eigensolve_refuted`, `C05_scan_batched`, `C05_scan_equals_loop`, `C06_set_end_layer_thickness`, `C06_set_start_layer_thickness`, `C06_single_layer_refuted`, `C07_split_layer`, `C07_zero_thickness`, `C08_interior_amplitudes`, `C09_interior_amplitudes_with_source`, `C10_every_layer`, `C10_finite`, `C10_source_amplitudes`, `C11_amplitude_flux_is_poynting`, `C11_directional_flux_is_poynting`, `C11_directional_one_way`, `C11_eigenmode_flux`, `C11_one_way_flux`, `C12_anisotropic_lossless`, `C12_flux_conserved`, `C12_patterned_lossless`, `C12_scattering_balance`, `C12_uniform_lossless`, `C13_fields_solve_maxwell`, `C13_general_anisotropic_solver`, `C13_isotropic_solver`, `C13_patterned_anisotropic_media`, `C13_reported_fields_exact`, `C13_uniform_anisotropic_media`, `C14_constant_matrices`, `C14_patterned_agrees`, `C14_uniform_dispersion`, `C14_uniform_eigensolution`, `C14_uniform_finite_fields`, `C14_uniform_total`, `C15_eigenvalue_branch`, `C15_no_amplification`, `C15_strictly_positive_refuted`, `C16_colocation`, `C16_propagation_group`, `C17_defined`, `C17_fft_coefficients`, `C17_fft_of_ifft`, `C17_ifft_of_fft`, `C17_ifft_series`, `C18_conjugate`, `C18_constant`, `C18_entries`, `C18_linear`, `C18_multiplication`, `C18_multiplication_api`, `C18_real_hermitian`, `C19_differences_alias_refuted`, `C20_bloch`, `C20_coordinates`, `C20_coordinates_defined`, `C20_grid`, `C20_grid_coordinates`, `C20_tiling`, `C21_brillouin`, `C21_indivisible`, `C21_projection`, `C21_round_trip`, `C22_circular`, `C22_circular_complete`, `C22_circular_even`, `C22_circular_refuted`, `C22_defined`, `C22_orders`, `C23_parallelogramic`, `C24_transverse_wavevectors`, `C25_undefined`, `C25_wavevector`, `C26_contains_zero`, `C26_grid`, `C26_nonpositive_refuted`, `C26_raises`, `C26_symmetric`, `C30_finite`, `C30_interior`, `C30_mirror`, `C30_tensors`, `C30_zero_exponent_refuted`, `C30_zero_width`, `C31_accepts`, `C31_rejects`, `C32_axis`, `C32_euler`, `C32_polarization`, `C32_rotation`, `C32_transverse`, `C33_everywhere`, `C33_plane_wave`, `C33_rigid_motion`, `C34_regular`, `C35_additive`, `C35_factor`, `C35_full_sphere`, `C35_gradient`, `C35_linear`, `C35_monotone`, `C35_no_upsampling`, `C35_value`, `C37_endpoints`, `C37_linear_index`, `C37_nonzero`, `C37_passive`, `C38_anisotropic_permeability`, `C38_anisotropic_permittivity`, `C38_blend`, `C38_projector`, `C38_small_field_refuted`, `C38_zero_field`, `C39_elementwise`, `C39_jones`, `C39_jones_ends`, `C39_jones_unit_refuted`, `C39_normalize`, `C39_schemes`, `C40_constant`, `C40_lattice_scale`, `C40_scale`, `C41_adjoint`, `C41_broadened`, `C41_differential`, `C41_finite`, `C41_order`, `C41_phase`, `C41_scale`, `C41_true_gradient`, `C43_defined`, `C43_dirac`, `C43_dirac_translation`, `C43_gaussian`, `C43_gaussian_bounds`, `C43_gaussian_zero`, `C44_auto_grid`, `C44_heights`, `C44_layer_fields`, `C44_layer_fields_on_coordinates`, `C44_lengths`, `C44_stack_fields`, `C44_stack_fields_on_coordinates`, `C45_anisotropic_is_isotropic`, `C45_anisotropic_vector`, `C45_anisotropic_zero_field_refuted`, `C45_uniform_agrees`, `C45_uniform_permeability`, `C45_uniform_permittivity`, `C45_unit_permeability`, `C45_zero_tangent_field`, `C46_coordinates`, `C46_eigen_equation`, `C46_eigensolve`, `C46_eigensolve_anisotropic`, `C46_fields`, `C46_scattering`, `C46_uniform_scattering`, `C48_profile`, `C49_gradient`, `C49_schemes`, `C49_unique_minimiser`, `C50_axes`, `C50_grating`, `C50_perpendicular_refuted`, `C51_uniform_layers`, `C52_append`, `C52_interior`, `C52_redheffer`, `C52_set_thickness`, `C52_stack`, `C52_thickness_axis`, `C52_thickness_modes_refuted`, `C52_uniform_stack`, `C53_batch`, `C53_lattices`, `C53_other_lattices_refuted`, `C53_same_batch`, `C54_anisotropic`, `C54_isotropic`, `C54_permittivity_tensor`, `C54_schemes`, `C55_amplitude_flux`, `C55_colocate`, `C55_conversion`, `C55_directional_flux`, `C55_distance_modes`, `C55_eigenmode_flux`, `C55_fields`, `C55_propagate`, `C55_stack`, `C55_unequal_amplitudes`, `C56_layer`, `C56_on_coordinates`, `C56_on_grid`, `C56_stack`, `C56_stack_on_coordinates`, `C56_stack_on_grid`, `C56_thickness_axis`, `C57_constant_pattern`, `C57_eigensolvers`, `C57_finite`, `C57_interior`, `C57_isotropic_tensor`, `C57_layer`, `C57_scaled_anisotropic`, `C57_scaled_isotropic`, `C57_scaled_scattering`, `C57_scattering`, `C57_stack`, `C58_interior`, `C58_layer`, `C58_magnitudes`, `C58_phases_move`, `C58_scattering`, `C58_stack`, `C59_layer`, `C59_reflection`, `C59_scattering`, `C59_stack`, `C59_transmission`, `C60_coordinates`, `C60_interior`, `C60_layer`, `C60_power`, `C60_scattering`, `C60_stack`, `C61_coordinates`, `C61_interior`, `C61_layer`, `C61_scattering`, `C61_stack`, `C62_coordinates`, `C62_interior`, `C62_layer`, `C62_scattering`, `C62_stack`, `C63_interior`, `C63_layer`, `C63_scattering`, `C63_stack` |
| SFD, CID, CL, FE | `C01_single_layer_identity`, `C15_branch_unique`, `C24_degenerate`, `C24_dual`, `C24_involution`, `C24_many_lattices_rejected`, `C24_one_lattice`, `C24_two_lattices_refuted`, `C45_script_k_uniform`, `C48_kept`, `C55_amplitudes_interior`, `C55_stack_amplitudes`, `C55_with_source` |
| none (closed under the global context) | `C19_differences`, `C19_differences_distinct`, `C19_orders_distinct`, `C19_validation`, `C27_atleast_nd`, `C27_broadcastable`, `C27_empty_axis_refuted`, `C27_exact`, `C27_no_shapes`, `C27_sound`, `C28_raises`, `C28_result`, `C29_amplitudes`, `C29_amplitudes_refuted`, `C29_layer_solve_result`, `C29_mutual`, `C29_mutual_refuted`, `C34_axis_order`, `C34_flux`, `C34_full`, `C34_places`, `C34_unflatten`, `C34_wavevectors`, `C42_hash_integers`, `C42_hash_nan_refuted`, `C42_hash_signed_zero_refuted`, `C42_revalidated`, `C42_round_trip`, `C42_tree_map`, `C47_anisotropic`, `C47_isotropic`, `C49_grid` |
| SFD, SND, CL, FE | `C22_square`, `C36_angles`, `C36_array`, `C36_evanescent`, `C36_inverse`, `C36_normal`, `C43_width`, `C48_solid_angle`, `C48_undefined` |
| SFD, SND, FE | `C26_fractions_unique`, `C36_direction_unique` |
| SFD, FE | `C26_centres`, `C30_depth`, `C44_sample_ends` |

## Findings

Places where the code does not do what its documentation, or a natural reading of it, says. Each is a
theorem about the model.

| theorem | finding |
|---------|---------|
| `C05_batched_eigensolve_refuted` | `stack_s_matrix_scan` on the result of one eigensolve with the layers as leading batch axis (as its docstring suggests) raises ValueError for two or more layers and one lattice, since the lattice vectors have a layer axis of size 1 that the slicing empties |
| `C06_single_layer_refuted` | `set_end_layer_thickness` on a one-layer scattering matrix does not equal rebuilding: it changes the matrix, whereas a rebuilt one-layer stack is the identity |
| `C15_strictly_positive_refuted` | the sign selection promises a strictly positive imaginary part; propagating waves have zero imaginary part |
| `C19_differences_alias_refuted` | the accepted grid shapes do not suffice for convolution matrices: with orders -1, 0, 1 on three points the differences 2 and -1 read the same Fourier coefficient |
| `C22_circular_refuted` | circular truncation of an elongated cell misses orders inside its circle and is not closed under negation |
| `C24_many_lattices_rejected`, `C24_two_lattices_refuted` | `reciprocal` (and so everything built on it) rejects a batch of three or more lattices and mixes up a batch of two |
| `C26_nonpositive_refuted` | the shape of a Brillouin zone grid is compared as a tuple, so a second count of 0 passes validation and raises ZeroDivisionError, and a negative one returns no wavevectors |
| `C27_empty_axis_refuted` | `batch_compatible_shapes` calls an axis of size 0 against an axis of size 1 incompatible |
| `C29_mutual_refuted` | attributes of a `LayerSolveResult` are compared with the eigenvectors only, so attributes that do not broadcast with each other are accepted |
| `C29_amplitudes_refuted` | only the first amplitude array has its trailing dimensions checked |
| `C30_zero_exponent_refuted` | with PML exponent 0 the interior is changed |
| `C34_axis_order` | the order in which the Brillouin zone axes are named is ignored by `unflatten` |
| `C38_small_field_refuted` | tangent fields with squared magnitude up to 1e-8 do not give a projector |
| `C39_jones_unit_refuted` | `normalize_jones` does not give unit length to complex fields |
| `C42_hash_signed_zero_refuted`, `C42_hash_nan_refuted` | equal expansions with float coefficients may hash differently (0.0 and -0.0); with nan an expansion is not equal to itself |
| `C45_anisotropic_zero_field_refuted` | where the tangent field vanishes the anisotropic vector formulation divides by zero, unlike the isotropic one |
| `C48_kept` | the solid angles drop the outer half cells |
| `C50_perpendicular_refuted` | tangent fields of gratings on oblique lattices are not tangent to the grating |
| `C52_thickness_axis`, `C52_thickness_modes_refuted` | a batch of thicknesses without a trailing axis of size 1 is rejected, or, if its size is the number of modes, silently gives every mode its own thickness |
| `C53_other_lattices_refuted` | the vector formulations accept one lattice, or exactly as many lattices as permittivity arrays; they are paired in row-major order, never broadcast |
| `C55_distance_modes` | a distance of shape `(2 * num_terms, 1)` is aligned with the modes: each mode is propagated through its own distance, where a batch of distances was meant |
| `C55_unequal_amplitudes` | `fields_from_wave_amplitudes` raises ValueError for amplitudes whose batch shapes differ but broadcast; the flux functions accept them |
| `C56_thickness_axis` | `layer_fields_3d` and `stack_fields_3d` raise ValueError for any thickness that is not a scalar, including the `(..., 1)` arrays that `stack_s_matrix` needs for a batch of thicknesses |

{
 "claims": [
  {
   "property": "C01",
   "status": "proved",
   "theorems": [
    "C01_stack_s_matrix_is_field_continuity",
    "C01_single_layer_identity",
    "C01_stack_s_matrix_finite",
    "C01_stack_s_matrix_raises",
    "C01_independent_eigenvectors_complete",
    "C01_uniform_complete"
   ],
   "note": ""
  },
  {
   "property": "C02",
   "status": "proved",
   "theorems": [
    "C02_redheffer_composes",
    "C02_redheffer_associative"
   ],
   "note": ""
  },
  {
   "property": "C03",
   "status": "proved",
   "theorems": [
    "C03_append_layer_rebuilds",
    "C03_prepend_layer_rebuilds"
   ],
   "note": ""
  },
  {
   "property": "C04",
   "status": "proved",
   "theorems": [
    "C04_interior_matrices"
   ],
   "note": ""
  },
  {
   "property": "C05",
   "status": "proved",
   "theorems": [
    "C05_scan_equals_loop",
    "C05_scan_batched",
    "C05_batched_eigensolve_refuted"
   ],
   "note": "The refutation shows that the use suggested by the docstring, one batched eigensolve over layers, raises ValueError for two layers or more and one lattice."
  },
  {
   "property": "C06",
   "status": "proved",
   "theorems": [
    "C06_set_end_layer_thickness",
    "C06_set_start_layer_thickness",
    "C06_single_layer_refuted"
   ],
   "note": "True for stacks of two or more layers; refuted for a stack of one layer."
  },
  {
   "property": "C07",
   "status": "proved",
   "theorems": [
    "C07_split_layer",
    "C07_zero_thickness"
   ],
   "note": ""
  },
  {
   "property": "C08",
   "status": "proved",
   "theorems": [
    "C08_interior_amplitudes"
   ],
   "note": ""
  },
  {
   "property": "C09",
   "status": "proved",
   "theorems": [
    "C09_interior_amplitudes_with_source"
   ],
   "note": ""
  },
  {
   "property": "C10",
   "status": "proved",
   "theorems": [
    "C10_source_amplitudes",
    "C10_finite",
    "C10_every_layer"
   ],
   "note": ""
  },
  {
   "property": "C11",
   "status": "proved",
   "theorems": [
    "C11_amplitude_flux_is_poynting",
    "C11_directional_flux_is_poynting",
    "C11_one_way_flux",
    "C11_eigenmode_flux",
    "C11_directional_one_way"
   ],
   "note": ""
  },
  {
   "property": "C12",
   "status": "proved",
   "theorems": [
    "C12_flux_conserved",
    "C12_scattering_balance",
    "C12_uniform_lossless",
    "C12_patterned_lossless",
    "C12_anisotropic_lossless"
   ],
   "note": "Hermitian material matrices and exact modes are the definition of lossless (S_maxwell.v); the Fourier formulation of real or Hermitian media is shown to meet it."
  },
  {
   "property": "C13",
   "status": "proved",
   "theorems": [
    "C13_fields_solve_maxwell",
    "C13_reported_fields_exact",
    "C13_isotropic_solver",
    "C13_general_anisotropic_solver",
    "C13_uniform_anisotropic_media",
    "C13_patterned_anisotropic_media"
   ],
   "note": "The eigensolver is an oracle that returns eigenpairs (eig_spec)."
  },
  {
   "property": "C14",
   "status": "proved",
   "theorems": [
    "C14_uniform_eigensolution",
    "C14_uniform_dispersion",
    "C14_constant_matrices",
    "C14_patterned_agrees",
    "C14_uniform_total",
    "C14_uniform_finite_fields"
   ],
   "note": ""
  },
  {
   "property": "C15",
   "status": "proved",
   "theorems": [
    "C15_eigenvalue_branch",
    "C15_branch_unique",
    "C15_no_amplification",
    "C15_strictly_positive_refuted"
   ],
   "note": ""
  },
  {
   "property": "C16",
   "status": "proved",
   "theorems": [
    "C16_propagation_group",
    "C16_colocation"
   ],
   "note": ""
  },
  {
   "property": "C17",
   "status": "proved",
   "theorems": [
    "C17_fft_coefficients",
    "C17_ifft_series",
    "C17_fft_of_ifft",
    "C17_ifft_of_fft",
    "C17_defined"
   ],
   "note": ""
  },
  {
   "property": "C18",
   "status": "proved",
   "theorems": [
    "C18_entries",
    "C18_multiplication",
    "C18_multiplication_api",
    "C18_constant",
    "C18_conjugate",
    "C18_real_hermitian",
    "C18_linear"
   ],
   "note": ""
  },
  {
   "property": "C19",
   "status": "proved",
   "theorems": [
    "C19_validation",
    "C19_orders_distinct",
    "C19_differences",
    "C19_differences_distinct",
    "C19_differences_alias_refuted"
   ],
   "note": ""
  },
  {
   "property": "C20",
   "status": "proved",
   "theorems": [
    "C20_coordinates",
    "C20_coordinates_defined",
    "C20_bloch",
    "C20_grid",
    "C20_grid_coordinates",
    "C20_tiling"
   ],
   "note": "Orders must be distinct for the grid theorems; collinear lattice vectors are excluded (fields_on_coordinates is then non-finite)."
  },
  {
   "property": "C21",
   "status": "proved",
   "theorems": [
    "C21_round_trip",
    "C21_brillouin",
    "C21_projection",
    "C21_indivisible"
   ],
   "note": ""
  },
  {
   "property": "C22",
   "status": "proved",
   "theorems": [
    "C22_orders",
    "C22_circular",
    "C22_circular_complete",
    "C22_circular_even",
    "C22_square",
    "C22_defined",
    "C22_circular_refuted"
   ],
   "note": "Complete and closed under negation for compact lattices (every square one); refuted for elongated cells, where an odd count gives an incomplete asymmetric set."
  },
  {
   "property": "C23",
   "status": "proved",
   "theorems": [
    "C23_parallelogramic"
   ],
   "note": ""
  },
  {
   "property": "C24",
   "status": "proved",
   "theorems": [
    "C24_dual",
    "C24_involution",
    "C24_degenerate",
    "C24_transverse_wavevectors",
    "C24_one_lattice",
    "C24_many_lattices_rejected",
    "C24_two_lattices_refuted"
   ],
   "note": "Batches of more than one lattice do not work in the code: proved as rejected, or refuted for two."
  },
  {
   "property": "C25",
   "status": "proved",
   "theorems": [
    "C25_wavevector",
    "C25_undefined"
   ],
   "note": ""
  },
  {
   "property": "C26",
   "status": "proved",
   "theorems": [
    "C26_grid",
    "C26_fractions_unique",
    "C26_centres",
    "C26_symmetric",
    "C26_contains_zero",
    "C26_raises",
    "C26_nonpositive_refuted"
   ],
   "note": "Validation compares tuples lexicographically, so some nonpositive counts are not rejected with ValueError: refuted in C26_nonpositive_refuted."
  },
  {
   "property": "C27",
   "status": "proved",
   "theorems": [
    "C27_exact",
    "C27_broadcastable",
    "C27_sound",
    "C27_empty_axis_refuted",
    "C27_no_shapes",
    "C27_atleast_nd"
   ],
   "note": "Exact for shapes without empty axes; a size 0 axis meeting a size 1 axis is reported as incompatible although it broadcasts."
  },
  {
   "property": "C28",
   "status": "proved",
   "theorems": [
    "C28_result",
    "C28_raises"
   ],
   "note": ""
  },
  {
   "property": "C29",
   "status": "proved",
   "theorems": [
    "C29_layer_solve_result",
    "C29_mutual",
    "C29_mutual_refuted",
    "C29_amplitudes",
    "C29_amplitudes_refuted"
   ],
   "note": "The refutations show that attributes are compared with the eigenvectors only, not with each other, and that only the first amplitude array has its trailing dimensions checked."
  },
  {
   "property": "C30",
   "status": "proved",
   "theorems": [
    "C30_tensors",
    "C30_interior",
    "C30_zero_width",
    "C30_depth",
    "C30_mirror",
    "C30_finite",
    "C30_zero_exponent_refuted"
   ],
   "note": "The interior is untouched for every positive exponent; for exponent zero the code changes it, which is proved as C30_zero_exponent_refuted."
  },
  {
   "property": "C31",
   "status": "proved",
   "theorems": [
    "C31_rejects",
    "C31_accepts"
   ],
   "note": ""
  },
  {
   "property": "C32",
   "status": "proved",
   "theorems": [
    "C32_rotation",
    "C32_axis",
    "C32_polarization",
    "C32_euler",
    "C32_transverse"
   ],
   "note": ""
  },
  {
   "property": "C33",
   "status": "proved",
   "theorems": [
    "C33_rigid_motion",
    "C33_everywhere",
    "C33_plane_wave"
   ],
   "note": ""
  },
  {
   "property": "C34",
   "status": "proved",
   "theorems": [
    "C34_unflatten",
    "C34_places",
    "C34_flux",
    "C34_wavevectors",
    "C34_regular",
    "C34_full",
    "C34_axis_order"
   ],
   "note": "unflattening of arrays with any number of axes; places distinct and inside; nan elsewhere; wavevectors of a Brillouin zone grid become one regular grid. C34_axis_order: the order in which the zone axes are named is ignored"
  },
  {
   "property": "C35",
   "status": "proved",
   "theorems": [
    "C35_value",
    "C35_gradient",
    "C35_linear",
    "C35_full_sphere",
    "C35_monotone",
    "C35_additive",
    "C35_no_upsampling",
    "C35_factor"
   ],
   "note": "no batch axes; jax.image.resize modelled by its weight matrix, jax.grad by the derivative"
  },
  {
   "property": "C36",
   "status": "proved",
   "theorems": [
    "C36_angles",
    "C36_inverse",
    "C36_normal",
    "C36_evanescent",
    "C36_direction_unique",
    "C36_array"
   ],
   "note": "free-space wavelength; evanescent orders get pi/2, places without a wavevector nan"
  },
  {
   "property": "C37",
   "status": "proved",
   "theorems": [
    "C37_endpoints",
    "C37_linear_index",
    "C37_nonzero",
    "C37_passive"
   ],
   "note": ""
  },
  {
   "property": "C38",
   "status": "proved",
   "theorems": [
    "C38_projector",
    "C38_zero_field",
    "C38_small_field_refuted",
    "C38_blend",
    "C38_anisotropic_permittivity",
    "C38_anisotropic_permeability"
   ],
   "note": "Projector wherever the squared magnitude exceeds 1e-8; refuted for smaller nonzero fields."
  },
  {
   "property": "C39",
   "status": "proved",
   "theorems": [
    "C39_schemes",
    "C39_normalize",
    "C39_elementwise",
    "C39_jones",
    "C39_jones_ends",
    "C39_jones_unit_refuted"
   ],
   "note": "C39_jones_unit_refuted: normalize_jones does not give unit length to a field whose components have a relative phase, such as one already processed by a Jones normalisation"
  },
  {
   "property": "C40",
   "status": "proved",
   "theorems": [
    "C40_lattice_scale",
    "C40_constant",
    "C40_scale"
   ],
   "note": "Scaling the array needs a filtered gradient above the tolerance 1e-8 before and after."
  },
  {
   "property": "C41",
   "status": "proved",
   "theorems": [
    "C41_adjoint",
    "C41_finite",
    "C41_broadened",
    "C41_differential",
    "C41_true_gradient",
    "C41_scale",
    "C41_phase",
    "C41_order"
   ],
   "note": "One batch element. C41_true_gradient needs distinct eigenvalues and a loss that does not depend on the phases of the eigenvectors; C41_adjoint and C41_finite need neither."
  },
  {
   "property": "C42",
   "status": "proved",
   "theorems": [
    "C42_round_trip",
    "C42_tree_map",
    "C42_revalidated",
    "C42_hash_integers",
    "C42_hash_signed_zero_refuted",
    "C42_hash_nan_refuted"
   ],
   "note": "Elements are unbounded integers or IEEE floats (SpecFloat); the bytes of an element are modelled by its encoded value."
  },
  {
   "property": "C43",
   "status": "proved",
   "theorems": [
    "C43_dirac",
    "C43_dirac_translation",
    "C43_gaussian",
    "C43_width",
    "C43_gaussian_zero",
    "C43_gaussian_bounds",
    "C43_defined"
   ],
   "note": ""
  },
  {
   "property": "C44",
   "status": "proved",
   "theorems": [
    "C44_stack_fields",
    "C44_stack_fields_on_coordinates",
    "C44_layer_fields",
    "C44_layer_fields_on_coordinates",
    "C44_heights",
    "C44_sample_ends",
    "C44_lengths",
    "C44_auto_grid"
   ],
   "note": "One batch element; the batch axis of amplitudes is the trailing axis m, flattened with z as in the code."
  },
  {
   "property": "C45",
   "status": "proved",
   "theorems": [
    "C45_anisotropic_is_isotropic",
    "C45_unit_permeability",
    "C45_uniform_agrees",
    "C45_zero_tangent_field",
    "C45_anisotropic_vector",
    "C45_uniform_permittivity",
    "C45_uniform_permeability",
    "C45_script_k_uniform",
    "C45_anisotropic_zero_field_refuted"
   ],
   "note": ""
  },
  {
   "property": "C46",
   "status": "proved",
   "theorems": [
    "C46_scattering",
    "C46_uniform_scattering",
    "C46_eigensolve",
    "C46_eigensolve_anisotropic",
    "C46_fields",
    "C46_coordinates",
    "C46_eigen_equation"
   ],
   "note": "Numerical solvers: for eigensolvers that commute with multiplication by positive numbers and tangent fields that depend on the lattice only up to scale; uniform layers need neither."
  },
  {
   "property": "C47",
   "status": "proved",
   "theorems": [
    "C47_isotropic",
    "C47_anisotropic"
   ],
   "note": "Broadcasting errors are modelled as ValueError."
  },
  {
   "property": "C48",
   "status": "proved",
   "theorems": [
    "C48_solid_angle",
    "C48_undefined",
    "C48_profile",
    "C48_kept"
   ],
   "note": "no batch axes; jnp.pad(mode=edge) modelled by clamped indices. C48_kept: along an axis the cells add up to one less than the number of places, the outer half cells are missing"
  },
  {
   "property": "C49",
   "status": "proved",
   "theorems": [
    "C49_gradient",
    "C49_grid",
    "C49_unique_minimiser",
    "C49_schemes"
   ],
   "note": "Unbatched; automatic differentiation is modelled by the derivative."
  },
  {
   "property": "C50",
   "status": "proved",
   "theorems": [
    "C50_grating",
    "C50_axes",
    "C50_perpendicular_refuted"
   ],
   "note": "The refutation shows that tangency fails for gratings on oblique lattices."
  },
  {
   "property": "C51",
   "status": "proved",
   "theorems": [
    "C51_uniform_layers"
   ],
   "note": "One lattice; batches of several lattices are refuted in C24."
  },
  {
   "property": "C52",
   "status": "proved",
   "theorems": [
    "C52_stack",
    "C52_interior",
    "C52_append",
    "C52_redheffer",
    "C52_set_thickness",
    "C52_uniform_stack",
    "C52_thickness_axis",
    "C52_thickness_modes_refuted"
   ],
   "note": "A singular system at one batch index is non-finite at that index only, as in the single computation; broadcasting errors are modelled as ValueError."
  },
  {
   "property": "C53",
   "status": "proved",
   "theorems": [
    "C53_batch",
    "C53_lattices",
    "C53_same_batch",
    "C53_other_lattices_refuted"
   ],
   "note": "The refutation shows that a batch of lattices that would have to be repeated along an axis is rejected, although the solvers broadcast lattices."
  },
  {
   "property": "C54",
   "status": "proved",
   "theorems": [
    "C54_isotropic",
    "C54_anisotropic",
    "C54_permittivity_tensor",
    "C54_schemes"
   ],
   "note": "Uniform and patterned layers, isotropic, anisotropic and magnetic, FFT and vector formulations, with one lattice for the batch. The vector formulations are those that compute the field of each element; C54_schemes shows that all eight named schemes do."
  },
  {
   "property": "C55",
   "status": "proved",
   "theorems": [
    "C55_propagate",
    "C55_colocate",
    "C55_amplitude_flux",
    "C55_directional_flux",
    "C55_eigenmode_flux",
    "C55_conversion",
    "C55_fields",
    "C55_amplitudes_interior",
    "C55_stack_amplitudes",
    "C55_stack",
    "C55_with_source",
    "C55_distance_modes",
    "C55_unequal_amplitudes"
   ],
   "note": "Batched solve results as returned by the solvers (C51, C54), with one lattice for the batch."
  },
  {
   "property": "C56",
   "status": "proved",
   "theorems": [
    "C56_on_grid",
    "C56_on_coordinates",
    "C56_layer",
    "C56_stack",
    "C56_stack_on_grid",
    "C56_stack_on_coordinates",
    "C56_thickness_axis"
   ],
   "note": "C56_layer and C56_stack hold for any function that computes the fields of an xy slice element by element; C56_on_grid and C56_on_coordinates are the two in the code."
  },
  {
   "property": "C57",
   "status": "proved",
   "theorems": [
    "C57_eigensolvers",
    "C57_constant_pattern",
    "C57_isotropic_tensor",
    "C57_scaled_isotropic",
    "C57_scaled_anisotropic",
    "C57_layer",
    "C57_stack",
    "C57_scattering",
    "C57_finite",
    "C57_interior",
    "C57_scaled_scattering"
   ],
   "note": "same_medium (S_modes.v) is the relation between two solved layers; the first five theorems show which solver calls satisfy it, the others what follows. C57_scaled_scattering strengthens C46_scattering: no assumption that the eigensolver commutes with scaling."
  },
  {
   "property": "C58",
   "status": "proved",
   "theorems": [
    "C58_layer",
    "C58_stack",
    "C58_scattering",
    "C58_magnitudes",
    "C58_interior",
    "C58_phases_move"
   ],
   "note": "For the FFT formulation and for tangent-field callables that move with the pattern (moves_along, S_shift.v). The named tangent-field schemes resample the gradient to a grid chosen from the expansion, so they have this property only up to discretisation and are not claimed to meet it."
  },
  {
   "property": "C59",
   "status": "proved",
   "theorems": [
    "C59_layer",
    "C59_stack",
    "C59_scattering",
    "C59_transmission",
    "C59_reflection"
   ],
   "note": "For the FFT formulation: the vector formulations multiply the permittivity by a projector from one side, which is not symmetric in the truncated expansion, so they are reciprocal only in the limit of many orders."
  },
  {
   "property": "C60",
   "status": "proved",
   "theorems": [
    "C60_coordinates",
    "C60_layer",
    "C60_stack",
    "C60_scattering",
    "C60_power",
    "C60_interior"
   ],
   "note": "For the FFT formulation and for tangent-field callables that turn with the lattice (turns_along, S_isometry.v). The tangent field minimiser behind the named schemes is not modelled, so they are not claimed to meet it."
  },
  {
   "property": "C61",
   "status": "proved",
   "theorems": [
    "C61_coordinates",
    "C61_layer",
    "C61_stack",
    "C61_scattering",
    "C61_interior"
   ],
   "note": "For the FFT formulation and for tangent-field callables that return the same field in both descriptions (same_tangents, S_relabel.v). The named tangent-field schemes depend on the expansion through the resampling grid and are not claimed to meet it."
  },
  {
   "property": "C62",
   "status": "proved",
   "theorems": [
    "C62_coordinates",
    "C62_layer",
    "C62_stack",
    "C62_scattering",
    "C62_interior"
   ],
   "note": "For the FFT formulation and for tangent-field callables whose field is repeated with the pattern (tiled_tangents, S_supercell.v). The named tangent-field schemes resample to a grid chosen from the expansion and are not claimed to meet it."
  },
  {
   "property": "C63",
   "status": "proved",
   "theorems": [
    "C63_layer",
    "C63_stack",
    "C63_interior",
    "C63_scattering"
   ],
   "note": ""
  }
 ]
}
{"id": "C01", "title": "The stack scattering matrix is exactly field continuity", "statement": "Whenever stack_s_matrix returns a finite scattering matrix for a stack whose layers share a wavelength, a choice of amplitudes (forward at the start of the first layer, backward at the end of the last layer, and the two outgoing amplitudes) satisfies the scattering-matrix equations if and only if there is an assignment of amplitudes to every layer with those end values for which the transverse electric and magnetic fields are continuous across every internal interface. A one-layer stack gives the identity.", "quantifier": "all numbers of Fourier orders, all stacks of one or more layers, all layer solve results and thicknesses, all amplitudes and excitation columns", "why_tests_cant": "The claim is over every stack length and every complex matrix content; a test samples a handful of stacks to a tolerance.", "anchors": ["src/fmmax/scattering.py: stack_s_matrix, _stack_s_matrices, _extend_s_matrix, _pair_s_matrix, ScatteringMatrix", "src/fmmax/fields.py: field_conversion_matrix, propagate_amplitude"]}
{"id": "C02", "title": "Redheffer star product composes stacks", "statement": "If A is the scattering matrix of one stack and B that of another whose first layer continues it, redheffer_star_product(A, B) is the scattering matrix of the concatenated stack, and the star product is associative wherever it is defined.", "quantifier": "all pairs (and triples) of stacks, any lengths and layer contents with finite results", "why_tests_cant": "Associativity and agreement with rebuilding must hold for every split point of every stack.", "anchors": ["src/fmmax/scattering.py: redheffer_star_product, append_layer, stack_s_matrix"]}
{"id": "C03", "title": "append_layer and prepend_layer agree with rebuilding the stack", "statement": "append_layer(stack_s_matrix(layers), l) equals stack_s_matrix(layers + [l]) and prepend_layer(stack_s_matrix(layers), l) equals stack_s_matrix([l] + layers), including the recorded start/end layer information, whenever the results are finite.", "quantifier": "all stacks and all extra layers", "why_tests_cant": "prepend is implemented through a reversal symmetry that must hold for every stack; tests try a few fixed stacks.", "anchors": ["src/fmmax/scattering.py: append_layer, prepend_layer, _extend_s_matrix"]}
{"id": "C04", "title": "Interior scattering matrices are the prefix and suffix scattering matrices", "statement": "stack_s_matrices_interior returns one pair per layer; the i-th pair is the scattering matrix of layers 0..i and the scattering matrix of layers i..N-1.", "quantifier": "all stacks, all layer positions", "why_tests_cant": "Holds for every stack length and position; depends on the reversal symmetry of the algorithm.", "anchors": ["src/fmmax/scattering.py: stack_s_matrices_interior, _stack_s_matrices"]}
{"id": "C05", "title": "The scan implementation equals the loop implementation", "statement": "stack_s_matrix_scan on stacked layer arrays gives the same scattering matrix as stack_s_matrix on the corresponding list of layers, also when the layers have further batch axes; the result of a single eigensolve in which the permittivity alone carries the layer axis is rejected, because the lattice vectors then have no layer axis.", "quantifier": "all stacks of one or more layers, all batch shapes of the layers", "why_tests_cant": "Equality for all lengths is an induction over the scan, not a sampled comparison.", "anchors": ["src/fmmax/scattering.py: stack_s_matrix_scan, stack_s_matrix"]}
{"id": "C06", "title": "Changing an end-layer thickness equals rebuilding", "statement": "For a stack of two or more layers, set_end_layer_thickness(S, d) and set_start_layer_thickness(S, d) give exactly the scattering matrix of the same stack with that thickness replaced, and record the new thickness. For a stack of one layer they do not (the start and end layer are the same layer but only one record is updated).", "quantifier": "all stacks, all old and new thicknesses", "why_tests_cant": "Must hold for every complex propagation constant, including evanescent ones, and every real thickness.", "anchors": ["src/fmmax/scattering.py: set_end_layer_thickness, set_start_layer_thickness"]}
{"id": "C07", "title": "Splitting a layer does not change the physics", "statement": "Replacing a layer of thickness d1+d2 by two layers with the same solve result and thicknesses d1 and d2 leaves the stack scattering matrix unchanged (internal split), or changes it only by the known propagation phases at an end; a zero-thickness layer of any material inserted between two layers leaves it unchanged.", "quantifier": "all stacks, all split positions, all real d1 and d2", "why_tests_cant": "An invariance over arbitrary stacks and real-valued splits.", "anchors": ["src/fmmax/scattering.py: _extend_s_matrix, stack_s_matrix", "src/fmmax/fields.py: propagate_amplitude"]}
{"id": "C08", "title": "Interior amplitudes solve the boundary value problem", "statement": "The amplitudes returned by stack_amplitudes_interior for given incident amplitudes give transverse fields that are continuous at every interface of the stack, reproduce the incident amplitudes at the two ends, and are the only amplitudes that do.", "quantifier": "all stacks, all incident amplitudes, all interfaces", "why_tests_cant": "Continuity at every interface for every stack depends on the consistency of independently computed prefix and suffix matrices.", "anchors": ["src/fmmax/fields.py: stack_amplitudes_interior, amplitudes_interior", "src/fmmax/scattering.py: stack_s_matrices_interior"]}
{"id": "C09", "title": "Interior amplitudes with an embedded source", "statement": "stack_amplitudes_interior_with_source gives amplitudes whose transverse fields are continuous at every interface other than the source plane, with no wave incident from outside the stack, and which take the given source-plane values next to the source.", "quantifier": "all pairs of stacks below and above the source, all source amplitudes", "why_tests_cant": "Must hold for every pair of stacks.", "anchors": ["src/fmmax/fields.py: stack_amplitudes_interior_with_source, amplitudes_interior"]}
{"id": "C10", "title": "Source amplitudes satisfy the jump conditions", "statement": "The amplitudes returned by amplitudes_for_source, when propagated into the two adjacent stacks, give a discontinuity of the transverse fields across the source plane equal to that of the given current density (tangential currents jump H, the z current jumps E), with only outgoing waves in the outer layers.", "quantifier": "all pairs of scattering matrices, all current density amplitudes", "why_tests_cant": "Holds as a matrix identity for all stacks and sources.", "anchors": ["src/fmmax/sources.py: amplitudes_for_source, polarization_terms, emission_matrix"]}
{"id": "C11", "title": "Directional power flow adds up to the Poynting flux", "statement": "For amplitudes colocated at a plane, the forward plus backward flux reported per Fourier order by amplitude_poynting_flux and by directional_poynting_flux are both equal to the Poynting flux Re(Ex conj(Hy) - Ey conj(Hx)) of the fields reported for these amplitudes, and eigenmode_poynting_flux is the flux of each mode excited alone, summed over orders.", "quantifier": "all layers, all forward and backward amplitudes", "why_tests_cant": "Cross terms must cancel for every complex amplitude vector.", "anchors": ["src/fmmax/fields.py: amplitude_poynting_flux, directional_poynting_flux, eigenmode_poynting_flux, fields_from_wave_amplitudes"]}
{"id": "C12", "title": "Lossless stacks conserve energy", "statement": "In a stack whose layers have Hermitian material Fourier matrices and real in-plane wavevectors, the total (summed over orders) Poynting flux is the same at every depth in every layer, for amplitudes that satisfy field continuity; hence incident flux = reflected + transmitted flux, with evanescent and propagating modes mixed.", "quantifier": "all lossless stacks, all depths, all incident amplitudes", "why_tests_cant": "A conservation law over a continuum of depths and all matrices.", "anchors": ["src/fmmax/fields.py: amplitude_poynting_flux, propagate_amplitude", "src/fmmax/scattering.py: stack_s_matrix", "src/fmmax/fmm.py: _numerical_eigensolve"]}
{"id": "C13", "title": "Reported fields solve Maxwell's equations in the layer", "statement": "Within a layer whose eigendecomposition is exact, the transverse fields reported at depth z satisfy the Fourier-space Maxwell curl equations (z-derivatives of E and H), and the reported z components satisfy the z components of Ampere's and Faraday's laws for the layer's z matrices.", "quantifier": "all layers, all amplitudes, all depths z", "why_tests_cant": "A differential equation for all z and all matrices.", "anchors": ["src/fmmax/fields.py: fields_from_wave_amplitudes, colocate_amplitudes, propagate_amplitude", "src/fmmax/fmm_matrices.py: omega_script_k_matrix_patterned, k_matrix_patterned, script_k_matrix_patterned"]}
{"id": "C14", "title": "Analytic uniform-layer eigensolution is an eigensolution", "statement": "For a spatially uniform isotropic layer the returned eigenvalues and eigenvectors satisfy the same eigenvalue equation that the patterned solver hands to the numerical eigensolver for a constant permittivity, and the returned material matrices are those the patterned path computes for it.", "quantifier": "all complex permittivities, wavelengths, wavevectors, expansions", "why_tests_cant": "An identity over all parameters, and an agreement of two code paths.", "anchors": ["src/fmmax/fmm.py: _eigensolve_uniform_isotropic_media, _eigensolve_patterned_isotropic_media, _numerical_eigensolve", "src/fmmax/fmm_matrices.py: script_k_matrix_uniform"]}
{"id": "C15", "title": "Eigenvalue branch never amplifies along propagation", "statement": "Every eigenvalue returned by the eigensolve has nonnegative imaginary part and the correct square, so propagating any amplitude through a nonnegative distance never increases any modal magnitude.", "quantifier": "all eigenvalues squared (complex), all distances >= 0, all amplitudes", "why_tests_cant": "The branch choice must be right on every point of the complex plane including both axes.", "anchors": ["src/fmmax/fmm.py: _select_eigenvalues_sign, _numerical_eigensolve", "src/fmmax/fields.py: propagate_amplitude"]}
{"id": "C16", "title": "Propagation is a one-parameter group and colocation meets the end values", "statement": "Propagating by d1 then d2 equals propagating by d1+d2; propagating by 0 does nothing; colocate_amplitudes at offset 0 leaves the forward amplitude unchanged and at offset = thickness leaves the backward amplitude unchanged.", "quantifier": "all eigenvalues, amplitudes, distances", "why_tests_cant": "Exact functional equation over the reals.", "anchors": ["src/fmmax/fields.py: propagate_amplitude, colocate_amplitudes"]}
{"id": "C17", "title": "fft and ifft are mutually inverse on the retained orders", "statement": "fft(ifft(y)) = y for every Fourier-coefficient vector y and every valid grid shape; ifft(fft(x)) = x for every array x that is a combination of the retained orders.", "quantifier": "all expansions with distinct orders, all grid shapes passing validation, all coefficient vectors", "why_tests_cant": "Needs orthogonality of characters for every grid size and expansion.", "anchors": ["src/fmmax/fft.py: fft, ifft, _validate_shape_for_expansion"]}
{"id": "C18", "title": "The Fourier convolution matrix represents pointwise multiplication", "statement": "The (i, j) entry of fourier_convolution_matrix(x, expansion) is the Fourier coefficient of x at order G_i - G_j; when x, y and x*y are resolved by the grid, applying the matrix to fft(y) gives fft(x*y); the matrix of a constant array is the constant times identity, the matrix of a real array is Hermitian, and the map is linear.", "quantifier": "all arrays, shapes, expansions", "why_tests_cant": "Over all array contents and shapes.", "anchors": ["src/fmmax/fft.py: fourier_convolution_matrix, _standard_toeplitz_indices"]}
{"id": "C19", "title": "The minimum grid shape check prevents aliasing of the retained orders", "statement": "Validation accepts a grid shape exactly when every order satisfies 2|g| < size along each axis, and raises ValueError otherwise. When it accepts, distinct orders address distinct in-range array elements after negative index wrap-around, and every order difference addresses the in-range element congruent to it, only the zero difference addressing element (0, 0). Distinct order differences may share an element at the minimum shape; they do not when 4|g| < size.", "quantifier": "all expansions, all shapes", "why_tests_cant": "Quantifies over all expansions and shapes; out-of-range indices are silently clamped by the array library.", "anchors": ["src/fmmax/fft.py: min_array_shape_for_expansion, _validate_shape_for_expansion, _standard_toeplitz_indices"]}
{"id": "C20", "title": "Grid fields agree with coordinate fields and are Bloch periodic", "statement": "fields_on_grid evaluated on a unit-cell grid equals fields_on_coordinates evaluated at the returned coordinates, and equals the Fourier series sum; translating coordinates by a lattice vector multiplies fields by the Bloch phase exp(i k.R); num_unit_cells tiles consistently.", "quantifier": "all field coefficients, grid shapes, numbers of unit cells, coordinates, lattices", "why_tests_cant": "Over all coordinates and coefficients.", "anchors": ["src/fmmax/fields.py: fields_on_grid, fields_on_coordinates", "src/fmmax/basis.py: unit_cell_coordinates"]}
{"id": "C21", "title": "Fields and amplitudes round trip", "statement": "amplitudes_for_fields applied to the gridded fields generated by given forward and backward amplitudes recovers these amplitudes exactly (including for Brillouin-zone grids, after averaging over the zone).", "quantifier": "all layers with invertible field matrices, all amplitudes, all grids", "why_tests_cant": "Exact inverse for all inputs.", "anchors": ["src/fmmax/sources.py: amplitudes_for_fields", "src/fmmax/fields.py: fields_on_grid, fields_from_wave_amplitudes"]}
{"id": "C22", "title": "Expansion generation: zeroth order first, distinct and closest orders", "statement": "generate_expansion returns pairwise distinct orders with (0,0) first, sorted by reciprocal-vector magnitude. Circular truncation returns exactly the orders inside the circle whose area is that of the requested number of reciprocal cells and whose indices lie in the candidate range -(n)//2 .. n//2; when neither lattice vector is much longer than the other (every square lattice) these are all orders in the circle and they are closed under negation, as they are for every even count. For elongated cells and odd counts the result can be incomplete and not closed under negation.", "quantifier": "all lattices, all requested term counts, both truncations", "why_tests_cant": "For all real lattices; the implementation searches a finite candidate window.", "anchors": ["src/fmmax/basis.py: generate_expansion, _basis_coefficients_circular, _basis_coefficients_parallelogramic"]}
{"id": "C23", "title": "Parallelogramic truncation fills a symmetric index box", "statement": "Parallelogramic truncation returns exactly the orders |i| <= nu, |j| <= nv, each once, (2nu+1)(2nv+1) in number, where nu, nv solve the aspect-ratio-preserving equations up to rounding.", "quantifier": "all lattices, all requested counts", "why_tests_cant": "For all real lattice vectors.", "anchors": ["src/fmmax/basis.py: _basis_coefficients_parallelogramic"]}
{"id": "C24", "title": "Reciprocal lattice vectors are dual and reciprocal is an involution", "statement": "u.U = v.V = 1 and u.V = v.U = 0 for the reciprocal vectors U, V of a nondegenerate lattice; taking the reciprocal twice returns the lattice; a degenerate lattice gives non-finite values; transverse_wavevectors adds 2 pi (i U + j V) to the in-plane wavevector. A lattice carrying any number of size 1 batch axes gives the reciprocal of that lattice. (Batches of several lattices are not supported: three or more on one axis raise, and two on one axis silently give wrong reciprocal vectors.)", "quantifier": "all nondegenerate lattices, with any number of size 1 batch axes; all batches of three or more for the rejection", "why_tests_cant": "All reals; batched inputs exercise broadcasting rules on all shapes.", "anchors": ["src/fmmax/basis.py: LatticeVectors.reciprocal, transverse_wavevectors"]}
{"id": "C25", "title": "Plane wave wavevectors have the right magnitude and direction", "statement": "plane_wave_in_plane_wavevector returns a vector of magnitude 2 pi sqrt(eps) sin(theta)/lambda along the azimuthal direction; for real angles it is the projection of a wavevector of length 2 pi sqrt(eps)/lambda.", "quantifier": "all wavelengths, angles, permittivities", "why_tests_cant": "Trigonometric identity for all reals.", "anchors": ["src/fmmax/basis.py: plane_wave_in_plane_wavevector"]}
{"id": "C26", "title": "The Brillouin zone grid is a centred uniform sampling and validates its shape", "statement": "brillouin_zone_in_plane_wavevector with positive counts n, m returns n x m wavevectors at the centres of the n x m cells of the first zone parallelogram: strictly inside it, equally spaced, symmetric under negation, containing k=0 iff both counts are odd. A shape that is not a pair, or lexicographically below (1, 1), raises ValueError; a nonpositive second count after a first count of two or more is not rejected that way.", "quantifier": "all grid shapes, all lattices", "why_tests_cant": "For all n, m, lattices; includes the boundary cases of the validation.", "anchors": ["src/fmmax/basis.py: brillouin_zone_in_plane_wavevector"]}
{"id": "C27", "title": "batch_compatible_shapes is exactly broadcastability", "statement": "batch_compatible_shapes(*shapes) is true exactly when the shapes can be broadcast together and no size 0 axis meets a size 1 axis; so for shapes without empty axes it is exactly broadcastability. atleast_nd adds only leading size 1 axes, and only as many as needed.", "quantifier": "all finite lists of shapes, any ranks", "why_tests_cant": "All ranks and sizes.", "anchors": ["src/fmmax/utils.py: batch_compatible_shapes"]}
{"id": "C28", "title": "absolute_axes normalises axes correctly or raises", "statement": "absolute_axes(axes, ndim) returns the nonnegative axis numbers congruent to the input in the same order, and raises ValueError exactly when an axis is out of range or two entries denote the same axis.", "quantifier": "all axis tuples and ranks", "why_tests_cant": "All integer tuples.", "anchors": ["src/fmmax/utils.py: absolute_axes"]}
{"id": "C29", "title": "Layer solve result and amplitude validation", "statement": "Constructing a LayerSolveResult succeeds exactly when the arrays have the trailing dimensions that the expansion calls for and each array is batch-compatible with the eigenvectors; otherwise ValueError is raised. On every batch axis where the eigenvectors have size other than 1, all attributes therefore agree; where they have size 1 attributes need not be compatible with each other. Amplitude validation accepts exactly lists whose first entry has the trailing shape (num_terms, any) and whose shapes are broadcastable; only the first entry's trailing dimensions are compared.", "quantifier": "all shapes of any rank without empty axes", "why_tests_cant": "All ranks and sizes.", "anchors": ["src/fmmax/fmm.py: LayerSolveResult.__post_init__", "src/fmmax/fields.py: _validate_amplitudes_shape"]}
{"id": "C30", "title": "PML regions: interior untouched, stretched symmetric, consistent tensors", "statement": "For a positive exponent, apply_uniaxial_pml leaves permittivity unchanged and permeability one outside the PML, makes the permittivity in the PML equal to that at its inner edge times the stretch tensor, whose entries are built from monotone distance 0..1 that is symmetric under reflection and equals 1 at the outer edge; zero width means no PML. (With exponent zero the interior is stretched too, since the stretch uses 0 to the power 0.)", "quantifier": "all nonempty permittivity arrays, widths, strengths, positive exponents", "why_tests_cant": "All array sizes and widths.", "anchors": ["src/fmmax/pml.py: apply_uniaxial_pml, _crop_and_edge_pad_pml_region, _normalized_distance_into_pml"]}
{"id": "C31", "title": "PML width validation rejects exactly the oversized PMLs", "statement": "A PML with a negative width or that leaves no interior points along an axis raises ValueError, and every other PML is accepted.", "quantifier": "all nonempty shapes, all widths", "why_tests_cant": "The check is on tuples; boundary and mixed cases must all be handled.", "anchors": ["src/fmmax/pml.py: _crop_and_edge_pad_pml_region"]}
{"id": "C32", "title": "Beam rotation matrices are proper rotations that point z where requested", "statement": "rotation_matrix returns an orthogonal matrix with determinant one mapping the z unit vector to (cos az sin pol, sin az sin pol, cos pol); the polarization angle rotates about this direction.", "quantifier": "all angles", "why_tests_cant": "All reals.", "anchors": ["src/fmmax/beams.py: rotation_matrix"]}
{"id": "C33", "title": "Shifted and rotated beams are the rigid motion of the beam", "statement": "shifted_rotated_fields at position x0 + R p equals R applied to the field at p, for both E and H.", "quantifier": "all beam functions, positions, origins, angles", "why_tests_cant": "All functions and reals.", "anchors": ["src/fmmax/beams.py: shifted_rotated_fields"]}
{"id": "C34", "title": "Unflattening far-field data places each order once and only once", "statement": "The unflatten functions move each flux or wavevector value to a distinct grid position determined by its order and Brillouin-zone index, leave NaN elsewhere, and the unflattened wavevectors are consistent with the flux positions and increase regularly along the axes.", "quantifier": "all expansions, all Brillouin grids, all batch shapes, axis choices", "why_tests_cant": "Injectivity over all index sets.", "anchors": ["src/fmmax/farfield.py: unflatten, unflatten_flux, unflatten_transverse_wavevectors"]}
{"id": "C35", "title": "Integrated flux is linear, additive over regions and exact for the full sphere", "statement": "integrated_flux is linear in the flux, monotone in the angular region for nonnegative flux and additive over disjoint regions, equals the total flux when the angular bounds function accepts every direction whatever the upsampling factor, and without upsampling is the sum of the fluxes whose direction is accepted. The upsampled form weighs each place by the clamped linear interpolation of the upsampled grid.", "quantifier": "all flux arrays, upsampling factors, angle bounds functions", "why_tests_cant": "All arrays and factors.", "anchors": ["src/fmmax/farfield.py: integrated_flux"]}
{"id": "C36", "title": "Far-field angles invert the wavevector map", "statement": "For propagating orders the polar angle lies in [0, pi/2], the azimuthal angle in (-pi, pi], and (k sin(polar) cos(azimuth), k sin(polar) sin(azimuth)) with k the free-space wavenumber recovers the transverse wavevector; conversely the angles of a plane wave are recovered from its transverse wavevector. Evanescent orders get a polar angle of pi/2; places of the unfolded grid with no order get NaN.", "quantifier": "all positive wavelengths, all transverse wavevectors, all grids", "why_tests_cant": "Inverse trigonometric identity over all reals.", "anchors": ["src/fmmax/farfield.py: angles_from_unflattened_transverse_wavevectors"]}
{"id": "C37", "title": "Permittivity interpolation hits its endpoints and avoids zero", "statement": "interpolate_permittivity at density 0 and 1 gives the void and solid permittivity, interpolates the refractive index linearly, and for passive materials gives a nonzero passive value for every density in [0,1].", "quantifier": "all complex permittivity pairs, all densities", "why_tests_cant": "All complex values.", "anchors": ["src/fmmax/utils.py: interpolate_permittivity"]}
{"id": "C38", "title": "Tangent-vector terms form a projector", "statement": "The transverse tangent terms computed from any tangent field form a Hermitian idempotent 2x2 matrix with trace one wherever the squared magnitude of the field exceeds 1e-8, the tolerance of the code, and are zero where the field is zero, so the formulation blends the two Laurent/inverse rules pointwise. (For a nonzero field below the tolerance the matrix is not a projector.) The anisotropic vector formulations turn the field into the frame of tangent and normal, multiply by the tensor seen in that frame with the inverse rule for the normal component only, and turn back.", "quantifier": "all complex vector fields", "why_tests_cant": "All complex pairs including zeros.", "anchors": ["src/fmmax/fmm_matrices.py: _tangent_terms, _transverse_permittivity_vector"]}
{"id": "C39", "title": "Tangent field normalisations give bounded or unit fields", "statement": "normalize divides a field by one positive number so that no vector is longer than one and, unless all vectors are below the tolerance 1e-8, one has length exactly one. normalize_elementwise gives every vector above the tolerance length one without changing its direction and leaves the others alone. normalize_jones returns vectors of length at most sqrt(2), of length exactly one where the two components have no relative phase; the longest vectors are only multiplied by a phase, vanishing ones become circular. Unit length fails for components with a relative phase.", "quantifier": "all vector fields", "why_tests_cant": "All complex arrays.", "anchors": ["src/fmmax/vector.py: normalize_jones, normalize_elementwise, normalize"]}
{"id": "C40", "title": "Tangent fields do not depend on unit cell scale or permittivity contrast scale", "statement": "compute_tangent_field is unchanged when the lattice vectors are multiplied by a positive number, and when the array is multiplied by a positive number (away from the numerically constant case) or shifted by a constant.", "quantifier": "all arrays, lattices, scales, weights", "why_tests_cant": "Invariance over all reals and arrays.", "anchors": ["src/fmmax/vector.py: compute_tangent_field, compute_gradient, normalize"]}
{"id": "C41", "title": "The regularised eigendecomposition gradient is the adjoint of the differential", "statement": "The backward rule of eig is the exact transpose of the first-order change of eigenvalues and unit eigenvectors with 1/(difference of eigenvalues) replaced by a Lorentzian-broadened inverse; it is finite for every matrix with independent eigenvectors, also for degenerate eigenvalues. For distinct eigenvalues and a loss that does not depend on eigenvector phases it gives the true derivative along every smooth family of matrices, up to the fraction eps/(difference^2 + eps) of each pair's contribution. It does not depend on the order or the phases of the eigenvectors and scales as 1/s when the matrix is scaled by s.", "quantifier": "all matrices with invertible eigenvector matrix, all cotangents", "why_tests_cant": "All matrices and all cotangents.", "anchors": ["src/fmmax/utils.py: eig, _eig_bwd"]}
{"id": "C42", "title": "Containers survive flatten/unflatten and hash consistently", "statement": "LatticeVectors, Truncation, Expansion, Formulation, LayerSolveResult, ScatteringMatrix and PMLParams are reconstructed by their registered pytree functions; mapping shape-preserving functions over the arrays never fails and maps every attribute in place, leaving expansions alone; a rebuilt LayerSolveResult is validated again. The hashable wrapper of an expansion's integer array is equal to another exactly if shape and contents agree, and equal wrappers have equal hashes. (Float arrays can break this: 0.0 and -0.0 are equal with different hashed bytes, and nan is not equal to itself.)", "quantifier": "all container values", "why_tests_cant": "All values, including pathological floats.", "anchors": ["src/fmmax/basis.py: _HashableArray, unflatten_expansion, LatticeVectors, Expansion, Truncation", "src/fmmax/fmm.py: Formulation, LayerSolveResult", "src/fmmax/scattering.py: ScatteringMatrix", "src/fmmax/pml.py: PMLParams"]}
{"id": "C43", "title": "Localised sources have the right Fourier content", "statement": "dirac_delta_source coefficients have modulus one and the phase of a translation; gaussian_source with zero width equals the dirac source, and source coefficients factor into translation phase times real envelope in (0, 1].", "quantifier": "all locations, widths, expansions, wavevectors", "why_tests_cant": "All reals.", "anchors": ["src/fmmax/sources.py: dirac_delta_source, gaussian_source"]}
{"id": "C44", "title": "Three dimensional stack fields are the per-layer fields in order", "statement": "stack_fields_3d returns fields whose z coordinates increase through the stack, with layer i's samples offset by the sum of earlier thicknesses and equal to the fields computed from the colocated amplitudes of that layer; mismatched lengths raise.", "quantifier": "all stacks, grids, thicknesses", "why_tests_cant": "All stack lengths.", "anchors": ["src/fmmax/fields.py: stack_fields_3d, _stack_fields_3d, _layer_fields_3d, _validate_matching_lengths"]}
{"id": "C45", "title": "Anisotropic solvers reduce to the isotropic solver", "statement": "The anisotropic fourier matrices for a diagonal, isotropic, nonmagnetic tensor equal those of the isotropic FFT formulation, the uniform anisotropic path agrees with the uniform isotropic eigen-equation, and an isotropic vector formulation with zero tangent field equals the FFT formulation. With a tangent field that is the same everywhere, the anisotropic vector formulation of an isotropic permittivity equals the isotropic vector formulation, and uniform tensors come out unchanged. (The anisotropic vector formulation is non-finite where the tangent field vanishes.)", "quantifier": "all permittivity arrays, expansions, lattices", "why_tests_cant": "Agreement of separate code paths over all arrays.", "anchors": ["src/fmmax/fmm.py: fourier_matrices_patterned_anisotropic_media, fourier_matrices_patterned_isotropic_media", "src/fmmax/fmm_matrices.py: transverse_permittivity_fft_anisotropic, transverse_permittivity_vector_anisotropic"]}
{"id": "C46", "title": "Maxwell scale invariance", "statement": "Multiplying all lengths (wavelength, lattice vectors, thicknesses) and dividing wavevectors by the same positive factor leaves scattering matrices of uniform-layer stacks, and the eigen-equation of any layer, unchanged.", "quantifier": "all stacks, all positive factors", "why_tests_cant": "A continuous symmetry over all inputs.", "anchors": ["src/fmmax/fmm.py: _eigensolve_uniform_isotropic_media", "src/fmmax/scattering.py: stack_s_matrix"]}
{"id": "C47", "title": "Solver dispatch picks the documented path", "statement": "eigensolve_isotropic_media uses the uniform path exactly when the trailing permittivity shape is (1, 1), and eigensolve_general_anisotropic_media exactly when all trailing shapes are (1, 1); wavevectors without trailing length 2, incompatible batch shapes and tensor components of different shapes raise ValueError before anything is solved, as does a tangent field source of another shape in the patterned anisotropic path.", "quantifier": "all shape combinations of any rank without empty axes", "why_tests_cant": "All ranks and sizes.", "anchors": ["src/fmmax/fmm.py: eigensolve_isotropic_media, eigensolve_general_anisotropic_media, _validate_and_broadcast"]}
{"id": "C48", "title": "Far-field solid angles and profile", "statement": "On a regular grid of wavevectors the solid angle of a propagating place is the area of its grid cell on the normalised wavevector plane over the cosine of its polar angle, with half of the cell missing at the first and last place along each axis; places without a wavevector or with an evanescent one have none. farfield_profile returns, at the place of each zone point and order, the direction of that order's wavevector, that solid angle and a flux whose product with the solid angle is the given flux.", "quantifier": "all regular grids of any size and steps, wavelengths, expansions, zone grids and flux arrays", "why_tests_cant": "All grids, orders and places; the fraction of a cell at the boundary depends on grid size and place.", "anchors": ["src/fmmax/farfield.py: farfield_profile", "src/fmmax/farfield.py: solid_angle_from_unflattened_transverse_wavevectors"]}
{"id": "C49", "title": "Tangent fields are the unique minimiser of the documented objective", "statement": "The tangent field of an array that varies along two directions is the field of minimal objective: weighted mean squared distance to the contour direction of the Fourier-filtered periodic gradient, plus the weighted penalties for high orders and for roughness. The minimiser exists, is unique, and one Newton step already gives it, so the result does not depend on the number of steps. The gradient is the periodic central difference expressed in cartesian coordinates of any nondegenerate lattice.", "quantifier": "all arrays, all expansions of distinct orders resolved by the array, all nondegenerate lattices, all nonnegative weights not both zero, all numbers of steps at least one, with and without the Jones target", "why_tests_cant": "A test compares one optimisation result with a stored one; that the hessian is never singular and that a single step reaches the global minimum needs an argument over all arrays, lattices and weights.", "anchors": ["src/fmmax/vector.py:compute_tangent_field", "src/fmmax/vector.py:_field_loss", "src/fmmax/vector.py:compute_gradient", "src/fmmax/vector.py:_filter_and_adjust_resolution"]}
{"id": "C50", "title": "Tangent fields of gratings", "statement": "For an array whose filtered gradient has one direction (a, b) everywhere, the tangent field is a constant unit vector, plus or minus (b, a), and it is perpendicular to the gradient if that is along a coordinate axis; an array without significant gradient gives (0, 1). (The field is the mirror image of the gradient about the diagonal, so for gratings along other directions it is not tangent: on an oblique lattice it can be parallel to the gradient, which is proved as a refutation.)", "quantifier": "all arrays with filtered gradient along one direction, all nondegenerate lattices, expansions of distinct resolved orders, weights and numbers of steps", "why_tests_cant": "Tests use rectangular cells, where the wrong sign of the sine is invisible; the claim is about every grating direction.", "anchors": ["src/fmmax/vector.py:compute_tangent_field", "src/fmmax/vector.py:_is_1d_field", "src/fmmax/vector.py:_field_at_max_magnitude"]}
{"id": "C51", "title": "A batched solve of uniform layers is the loop of single solves", "statement": "eigensolve_isotropic_media of uniform layers with batched wavelength, in-plane wavevector and permittivity returns arrays with the broadcast batch shape, and the element at each batch index holds the eigenvalues, eigenvectors and material matrices of the single solve for the wavelength, wavevector and permittivity that broadcasting assigns to that index.", "quantifier": "all batch shapes and ranks that broadcast, all batch indices, all expansions, wavelengths, wavevectors, permittivities and one lattice with any number of size 1 axes", "why_tests_cant": "Ranks and sizes are unbounded and each array may omit or broadcast any axis.", "anchors": ["src/fmmax/fmm.py: _eigensolve_uniform_isotropic_media, _validate_and_broadcast", "src/fmmax/basis.py: transverse_wavevectors, reciprocal", "src/fmmax/utils.py: atleast_nd, diag"]}
{"id": "C52", "title": "Scattering matrices of batched layers are the loop of single scattering matrices", "statement": "stack_s_matrix, stack_s_matrices_interior, append_layer, prepend_layer, redheffer_star_product and set_start/end_layer_thickness applied to solve results with leading batch axes succeed, give blocks with the batch shape, and the element at each batch index is the scattering matrix computed for the layers and thicknesses that broadcasting assigns to that index. A thickness array is broadcast against the modes: a batch of thicknesses needs a trailing axis of size 1.", "quantifier": "all batch shapes and ranks, all batch indices, all numbers of layers and modes, all layers whose batch shapes broadcast to a common one, scalar thicknesses and thicknesses with a trailing axis of size 1", "why_tests_cant": "Ranks, sizes and numbers of layers are unbounded; equality at every batch index is an induction over the layers with broadcasting at each step.", "anchors": ["src/fmmax/scattering.py: stack_s_matrix, stack_s_matrices_interior, append_layer, prepend_layer, redheffer_star_product, set_end_layer_thickness, set_start_layer_thickness, _extend_s_matrix", "src/fmmax/utils.py: diag, atleast_nd"]}
{"id": "C53", "title": "The vector fields of a batch of arrays are those of its elements", "statement": "Each of the eight vector field schemes, applied to arrays with leading batch axes, returns a field with the same batch axes whose element at each batch index is the field computed for that array alone. With one lattice it is used for every element; with as many lattices as arrays they are paired in row-major order, which is index by index when the batch shapes agree. Any other number of lattices is rejected with an error, so lattice batches do not broadcast.", "quantifier": "all eight schemes, all batch shapes and ranks, all arrays, expansions the grid resolves, and lattice vector arrays of any batch shape", "why_tests_cant": "Batch shapes and ranks are unbounded; that flattening and restoring the batch axes never mixes elements is a statement about row-major order in every rank.", "anchors": ["src/fmmax/vector.py: compute_tangent_field, compute_field_jones_direct, compute_field_jones, compute_field_normal, compute_field_pol, VECTOR_FIELD_SCHEMES", "src/fmmax/utils.py: atleast_nd"]}
{"id": "C54", "title": "A batched solve of any layers is the loop of single solves", "statement": "eigensolve_isotropic_media, eigensolve_anisotropic_media and eigensolve_general_anisotropic_media applied to wavelengths, in-plane wavevectors and permittivity or permeability arrays with leading batch axes succeed, and the result has the joint batch shape. The element of every attribute at each batch index, including eigenvalues, eigenvectors and the tangent vector field, is the one of the solve for the wavelength, wavevector and arrays that broadcasting assigns to that index. This holds for uniform and patterned layers and for the FFT formulation and all eight vector formulations.", "quantifier": "all batch shapes and ranks that broadcast to a nonempty joint batch, all batch indices, all grids and expansions the grid resolves, all wavelengths, wavevectors and tensors, one lattice for the batch, every eigensolver", "why_tests_cant": "Ranks, batch sizes, grids and numbers of terms are unbounded, and each intermediate array broadcasts separately; equality at every batch index is a statement about all of them.", "anchors": ["src/fmmax/fmm.py: eigensolve_isotropic_media, eigensolve_anisotropic_media, eigensolve_general_anisotropic_media, _eigensolve_patterned_isotropic_media, _eigensolve_patterned_general_anisotropic_media, _eigensolve_uniform_general_anisotropic_media", "src/fmmax/fmm_matrices.py: fourier_matrices_patterned_isotropic_media, fourier_matrices_patterned_anisotropic_media, omega_script_k_matrix_patterned", "src/fmmax/fft.py: fourier_convolution_matrix"]}
{"id": "C55", "title": "Amplitudes, flux and Fourier fields of a batch are those of each element", "statement": "propagate_amplitude, colocate_amplitudes, amplitude_poynting_flux, directional_poynting_flux, eigenmode_poynting_flux, field_conversion_matrix, fields_from_wave_amplitudes, amplitudes_interior and stack_amplitudes_interior, applied to a batched solve result or stack and to amplitudes and distances whose batch axes broadcast with it, succeed. The result at each batch index is that of the same function applied to the layer, amplitudes and distances that broadcasting assigns to that index. Interior amplitudes computed from the batched interior scattering matrices of a batch of stacks are those of each stack, and so are those of stack_amplitudes_interior_with_source for a batch of sources inside the stack. The two amplitudes given to fields_from_wave_amplitudes must have equal batch shapes: otherwise ValueError, though their flux is defined. A distance whose second to last axis is not 1 is aligned with the modes, not with the batch.", "quantifier": "all batch shapes and ranks that broadcast to a nonempty joint batch, all batch indices, all numbers of terms and amplitudes, all layers whose single result is finite, stacks of any length", "why_tests_cant": "Ranks, batch sizes and numbers of terms, amplitudes and layers are unbounded, and every intermediate product broadcasts separately; an axis confused with the modes or amplitudes shows only for some shapes.", "anchors": ["src/fmmax/fields.py: propagate_amplitude, colocate_amplitudes, amplitude_poynting_flux, directional_poynting_flux, eigenmode_poynting_flux, field_conversion_matrix, fields_from_wave_amplitudes, amplitudes_interior, stack_amplitudes_interior", "src/fmmax/scattering.py: stack_s_matrices_interior"]}
{"id": "C56", "title": "Real-space fields of a batch are those of each element", "statement": "fields_on_grid and fields_on_coordinates applied to Fourier fields with batch axes, and layer_fields_3d, stack_fields_3d and their on_coordinates variants applied to batched layers and amplitudes with scalar thicknesses, succeed. At each batch index the fields and the in-plane coordinates are those of the single computation for that index, in the same order along z, and the z coordinates agree. A layer thickness with any axis, such as the (..., 1) arrays that stack_s_matrix accepts for a batch of thicknesses, raises ValueError.", "quantifier": "all batch shapes and ranks with nonzero sizes, all batch indices, all grids that resolve the expansion, all coordinates, all numbers of layers, z points, amplitudes and terms", "why_tests_cant": "The z axis is flattened into the amplitude axis and restored, and the batch axes broadcast around it; that no two axes are exchanged is a statement about all shapes and indices.", "anchors": ["src/fmmax/fields.py: fields_on_grid, fields_on_coordinates, layer_fields_3d, layer_fields_3d_on_coordinates, stack_fields_3d, stack_fields_3d_on_coordinates", "src/fmmax/basis.py: unit_cell_coordinates"]}
{"id": "C57", "title": "Results depend on the medium, not on the modes the eigensolver returns", "statement": "Solve the layers of a stack twice, with two eigensolvers (or devices, or library versions) that both return correct but different eigenvectors: other order, other length, other combinations of degenerate modes. If the first and last layer keep their modes (uniform layers always do), the scattering matrix has the same four blocks, it is finite in one case exactly when it is in the other, and the six field components computed from the interior amplitudes agree in every layer at every depth. The same holds between the analytic solution of a uniform layer, the numerical solution of a constant pattern with any formulation, and the numerical solution through the tensor path; and between a problem and the problem with every length multiplied by s, whatever the eigensolver.", "quantifier": "all pairs of eigensolvers that return eigenpairs, all solver calls (isotropic, anisotropic, general), patterns, formulations, stacks of any length and thickness, incident amplitudes and depths; modes linearly independent and no zero eigenvalue", "why_tests_cant": "A test runs one eigensolver on one machine; it cannot range over all valid eigenvector choices (degenerate modes have infinitely many) nor over all stacks.", "anchors": ["src/fmmax/fmm.py: _numerical_eigensolve, _select_eigenvalues_sign, eigensolve_isotropic_media, eigensolve_anisotropic_media, eigensolve_general_anisotropic_media", "src/fmmax/utils.py: eig", "src/fmmax/scattering.py: stack_s_matrix, stack_s_matrices_interior", "src/fmmax/fields.py: stack_amplitudes_interior, fields_from_wave_amplitudes"]}
{"id": "C58", "title": "Moving the structure within the unit cell only moves the fields", "statement": "Move every layer of a stack by the same displacement r within the periodic cell (roll the permittivity and permeability arrays by whole grid points, with wrap-around) and solve again, with the FFT formulation or with a tangent-field callable that moves with the pattern. Between uniform end layers every entry of the scattering matrix is multiplied by exp(-i (G_i - G_j) . r), where G_i and G_j are the reciprocal lattice vectors of the outgoing and the incident order, so all magnitudes are unchanged. For incident waves moved in the same way, the fields the library reports in every layer at the point (x + r, z) are exp(i k . r) times the original fields at (x, z).", "quantifier": "all isotropic, anisotropic and general patterned or uniform layers, grid sizes, displacements by whole grid points, lattices, wavevectors, expansions, stacks of any length and thickness, incident amplitudes, positions and depths; any two correct eigensolvers; modes linearly independent and no zero eigenvalue", "why_tests_cant": "A test checks a few patterns and displacements and must compare the results of two different numerical eigenproblems up to the arbitrary choice of modes; the claim is for every pattern, displacement, stack and expansion.", "anchors": ["src/fmmax/fft.py: fourier_convolution_matrix", "src/fmmax/fmm.py: eigensolve_isotropic_media, eigensolve_anisotropic_media, eigensolve_general_anisotropic_media", "src/fmmax/fmm_matrices.py: transverse_permittivity_vector, transverse_permittivity_vector_anisotropic", "src/fmmax/scattering.py: stack_s_matrix", "src/fmmax/fields.py: stack_amplitudes_interior, fields_on_coordinates"]}
{"id": "C59", "title": "Lorentz reciprocity: illumination and response can be exchanged", "statement": "Solve a structure at an in-plane wavevector and again at the opposite wavevector with the opposite Fourier orders, using the FFT formulation, with the permittivity and permeability tensors transposed (unchanged for isotropic and for symmetric tensors, so for all reciprocal media; absorption allowed). For any illumination of the first solve and any illumination of the second, the z component of E x H' - E' x H computed from the reported fields, averaged over the unit cell, is the same at every depth of every layer. Consequently what the scattering matrix transmits of a wave from the first layer, tested with an opposite wave incident from the last layer, equals what it transmits of that wave tested with the first; and the reflection of two waves from one side is symmetric in the same sense.", "quantifier": "all isotropic, anisotropic and general patterned or uniform layers with real or complex, symmetric or not symmetric tensors, lattices, wavelengths, wavevectors, expansions and pairings of opposite orders, stacks of any length and thickness, batches of amplitudes, depths; any two correct eigensolvers; no zero eigenvalue", "why_tests_cant": "A test compares two numerical solves for a few structures and incidences; the claim is exact for every truncated expansion, material and stack, with modes in any order and normalisation.", "anchors": ["src/fmmax/fmm.py: eigensolve_isotropic_media, eigensolve_anisotropic_media, eigensolve_general_anisotropic_media", "src/fmmax/fmm_matrices.py: transverse_permittivity_fft_anisotropic, transverse_permeability_fft_anisotropic, k_matrix_patterned, omega_script_k_matrix_patterned", "src/fmmax/fft.py: fourier_convolution_matrix", "src/fmmax/scattering.py: stack_s_matrix", "src/fmmax/fields.py: fields_from_wave_amplitudes"]}
{"id": "C60", "title": "Results do not depend on the orientation of the axes", "statement": "Describe the same structure in rotated or mirrored in-plane coordinates: turn the lattice vectors and the in-plane wavevector, transform the permittivity and permeability tensors as tensors, keep the arrays (which hold values at fractional positions of the cell) and the Fourier orders. Then every field the library can report in a layer or stack is, at the turned points, the turned field of the original description: E turns as a vector and H as a pseudovector. The scattering matrices between uniform end layers are the originals conjugated by the turn of the (hx, hy) amplitudes, so the squared size of each reflected and transmitted order is unchanged, and the interior amplitudes computed for turned incident waves give the turned fields.", "quantifier": "all rotations and mirror images of the plane, all isotropic, anisotropic and general patterned or uniform layers, lattices, wavelengths, wavevectors, expansions, stacks of any length and thickness, batches of amplitudes, sets of points and depths; FFT formulation and any tangent field that turns with the lattice; any two correct eigensolvers", "why_tests_cant": "A test turns a few structures by a few angles and compares numerical results; the claim is exact for every angle, tensor, stack and truncated expansion, and a misplaced sign in one tensor component or cross term shows only for particular tensors and directions.", "anchors": ["src/fmmax/basis.py: LatticeVectors, transverse_wavevectors", "src/fmmax/fmm.py: eigensolve_isotropic_media, eigensolve_anisotropic_media, eigensolve_general_anisotropic_media, fourier_matrices_patterned_isotropic_media, fourier_matrices_patterned_anisotropic_media", "src/fmmax/fmm_matrices.py: k_matrix_patterned, script_k_matrix_patterned", "src/fmmax/scattering.py: stack_s_matrix, stack_s_matrices_interior", "src/fmmax/fields.py: fields_from_wave_amplitudes, fields_on_coordinates, stack_amplitudes_interior"]}
{"id": "C61", "title": "Results do not depend on how orders and lattice vectors are labelled", "statement": "Describe the same structure with its Fourier orders listed in another sequence, with a reciprocal lattice vector moved from the orders to the in-plane wavevector (an equivalent Bloch wavevector), or with the two lattice vectors exchanged and the arrays transposed. Then every field the library can report in a layer or stack is reported again, with equal values at all points and depths, for the relabelled description. The scattering matrices between uniform end layers have the same entries, at the new positions of the orders, and the interior amplitudes computed for the same incident waves give the same fields.", "quantifier": "all permutations of the orders, reciprocal lattice vectors and exchanges of the lattice vectors, all isotropic, anisotropic and general patterned or uniform layers, lattices, wavelengths, wavevectors, expansions resolved by the grid, stacks of any length and thickness, batches of amplitudes, sets of points and depths; FFT formulation and any tangent field that is the same in both descriptions; any two correct eigensolvers", "why_tests_cant": "A test permutes or shifts a few expansions; the claim is for every permutation, shift, material and stack, and an index convention that is wrong for one kind of expansion or for non-square grids is invisible with the default expansions.", "anchors": ["src/fmmax/basis.py: Expansion, LatticeVectors, transverse_wavevectors", "src/fmmax/fft.py: fourier_convolution_matrix", "src/fmmax/fmm.py: eigensolve_isotropic_media, eigensolve_anisotropic_media, eigensolve_general_anisotropic_media", "src/fmmax/scattering.py: stack_s_matrix, stack_s_matrices_interior", "src/fmmax/fields.py: fields_from_wave_amplitudes, fields_on_coordinates, stack_amplitudes_interior"]}
{"id": "C62", "title": "Describing a structure on a larger cell gives the same results", "statement": "Describe a structure on a cell of M1 by M2 of its unit cells: the lattice vectors multiplied by M1 and M2, the arrays repeated, and an expansion that contains the orders of the unit cell (each multiplied by M1 and M2) and any other orders that the unit cell does not have. Then every field the library can report in a layer or stack of the unit cell is reported again, with equal values at all points and depths, for the larger cell. The scattering matrices between uniform end layers have the same entries between the orders of the unit cell and couple none of these orders to the additional ones, and the interior amplitudes computed for the same incident waves give the same fields.", "quantifier": "all multiples M1 and M2, all expansions of the unit cell and of the larger cell and positions of the orders in it, all isotropic, anisotropic and general patterned or uniform layers, lattices, wavelengths, wavevectors, stacks of any length and thickness, batches of amplitudes, sets of points and depths; FFT formulation and any tangent field that is repeated with the pattern; any two correct eigensolvers", "why_tests_cant": "A test doubles one cell; the claim is for every multiple, pattern and choice of additional orders. An error in the normalisation of the transform, in the index of an order or in the scaling of the reciprocal lattice that cancels for one cell size does not cancel for all of them.", "anchors": ["src/fmmax/basis.py: Expansion, LatticeVectors, transverse_wavevectors", "src/fmmax/fft.py: fourier_convolution_matrix", "src/fmmax/fmm.py: eigensolve_isotropic_media, eigensolve_anisotropic_media, eigensolve_general_anisotropic_media", "src/fmmax/scattering.py: stack_s_matrix, stack_s_matrices_interior", "src/fmmax/fields.py: fields_from_wave_amplitudes, fields_on_coordinates, stack_amplitudes_interior"]}
{"id": "C63", "title": "Turning a stack upside down exchanges its two sides", "statement": "List the layers and thicknesses of a stack in the opposite sequence. A set of amplitudes is a field of the stack exactly when the same amplitudes, with forward and backward waves exchanged in every layer and the layers in the opposite sequence, are a field of the reversed stack. The field reported there, at depth z of a layer of thickness t, is the mirror image of the field reported at depth t - z: equal ez, hx and hy and opposite ex, ey and hz (electric and magnetic fields of the mirror image, up to a common sign). The scattering matrix computed for the reversed stack has the reflection blocks exchanged and the transmission blocks exchanged, and the interior amplitudes computed there for exchanged incident waves are the exchanged amplitudes.", "quantifier": "all layer solve results of one wavelength with finite fields, all stacks of any length and thicknesses, all batches of amplitudes and incident waves, all sets of points and all depths, whenever the library returns a result for the stack and for the reversed stack", "why_tests_cant": "A test reverses one stack. The cascade of the scattering matrix runs in one direction and treats the two sides by different formulas, so that it gives the exchanged blocks for every sequence of layers is an induction over the stack; symmetric test stacks hide an exchange of sides.", "anchors": ["src/fmmax/scattering.py: stack_s_matrix, stack_s_matrices_interior", "src/fmmax/fields.py: stack_amplitudes_interior, colocate_amplitudes, fields_from_wave_amplitudes, fields_on_coordinates"]}

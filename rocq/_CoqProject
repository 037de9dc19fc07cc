-Q theories Verif
theories/CField.v
theories/Err.v
theories/LinAlg.v
theories/Tac.v
theories/M_utils.v
theories/M_basis.v
theories/M_fft.v
theories/M_fmm_matrices.v
theories/M_fmm.v
theories/M_scattering.v
theories/M_fields.v
theories/S_stack.v
theories/L_scattering.v
theories/L_stack.v
theories/L_example.v
theories/P_scattering.v
theories/S_maxwell.v
theories/L_maxwell.v
theories/L_flux.v
theories/P_maxwell.v
theories/S_fft.v
theories/L_fft.v
theories/P_fft.v
theories/L_fmm.v
theories/P_fmm.v
theories/S_scale.v
theories/L_scale.v
theories/P_scale.v
theories/S_fields.v
theories/L_fields.v
theories/P_fields.v
theories/M_expansion.v
theories/S_basis.v
theories/L_basis.v
theories/P_basis.v
theories/S_utils.v
theories/P_utils.v
theories/M_sources.v
theories/S_sources.v
theories/L_sources.v
theories/P_sources.v
theories/M_pml.v
theories/S_pml.v
theories/P_pml.v
theories/M_beams.v
theories/S_beams.v
theories/P_beams.v
theories/M_nd.v
theories/M_farfield.v
theories/S_farfield.v
theories/P_farfield.v
theories/P_angles.v
theories/L_farfield.v
theories/P_flux.v
theories/P_profile.v
theories/M_vector.v
theories/S_vector.v
theories/L_vector.v
theories/P_vector.v
theories/L_newton.v
theories/L_loss.v
theories/L_direction.v
theories/P_tangent.v
theories/P_grating.v
theories/P_invariance.v
theories/P_rotation.v
theories/M_eig.v
theories/S_eig.v
theories/P_eig.v
theories/M_batch.v
theories/S_batch.v
theories/L_batch.v
theories/P_batch.v
theories/L_broadcast.v
theories/P_broadcast.v
theories/M_bstack.v
theories/S_bstack.v
theories/L_bstack.v
theories/P_bstack.v
theories/M_bvector.v
theories/S_bvector.v
theories/L_bvector.v
theories/P_bvector.v
theories/M_bfmm.v
theories/S_bfmm.v
theories/L_bfmm.v
theories/P_bfmm.v
theories/M_pytree.v
theories/P_pytree.v
theories/P_constitutive.v
theories/M_bfields.v
theories/S_bfields.v
theories/L_bfields.v
theories/P_bfields.v
theories/S_modes.v
theories/L_modes.v
theories/P_modes.v
theories/S_shift.v
theories/L_shift.v
theories/P_shift.v
theories/S_reciprocity.v
theories/L_reciprocity.v
theories/P_reciprocity.v
theories/S_isometry.v
theories/L_isometry.v
theories/L_turned.v
theories/P_isometry.v
theories/S_relabel.v
theories/L_relabel.v
theories/P_relabel.v
theories/S_supercell.v
theories/L_supercell.v
theories/P_supercell.v
theories/S_flip.v
theories/P_flip.v

(** Specification: batches. *)
From Coq Require Import Reals ZArith.
From mathcomp Require Import all_ssreflect all_algebra.
From Verif Require Import CField Err LinAlg M_basis M_nd S_utils M_batch.
Set Implicit Arguments. Unset Strict Implicit. Unset Printing Implicit Defensive.

(** Two shapes with the same number of axes, which numpy would broadcast. *)
Definition consistent (s t : seq nat) := size s = size t /\ broadcastable [:: s; t].
(** The shapes of the attributes of a layer solve result agree with each other and with the
    number of terms in the expansion. *)
Definition consistent_result (s : solve_shapes) := exists (batch : seq nat) (m : nat),
  let n := sh_num_terms s in
  (sh_eigenvectors s = batch ++ [:: m; (2 * n)%N] /\ sh_eigenvalues s = batch ++ [:: m]) /\
  (consistent (sh_wavelength s) batch /\
   consistent (sh_in_plane_wavevector s) (batch ++ [:: 2%N]) /\
   consistent (sh_u s) (batch ++ [:: 2%N]) /\ consistent (sh_v s) (batch ++ [:: 2%N])) /\
  (consistent (sh_z_permittivity s) (batch ++ [:: n; n]) /\
   consistent (sh_inverse_z_permittivity s) (batch ++ [:: n; n]) /\
   consistent (sh_z_permeability s) (batch ++ [:: n; n]) /\
   consistent (sh_inverse_z_permeability s) (batch ++ [:: n; n]) /\
   consistent (sh_transverse_permeability s) (batch ++ [:: m; (2 * n)%N])) /\
  (forall t, sh_tangent s = Some t -> size t = size batch + 2)%N.
(** No axis is empty. *)
Definition nonempty_axes (s : solve_shapes) := forall t, t \in [:: sh_wavelength s; sh_in_plane_wavevector s;
  sh_u s; sh_v s; sh_eigenvectors s; sh_z_permittivity s; sh_inverse_z_permittivity s; sh_z_permeability s;
  sh_inverse_z_permeability s; sh_transverse_permeability s] -> 0%N \notin t.

(** [j] is the index of the element of an array of shape [s] that stands for the element [idx]
    of a larger batch: trailing axes are aligned, and axes of size 1 are repeated. *)
Definition selects (s idx j : seq nat) := size j = size s /\
  forall i, (i < size s)%N -> nth 0%N (rev j) i = if axis_size s i == 1%N then 0%N else nth 0%N (rev idx) i.

(** [batch] is the shape to which numpy broadcasts all of [shapes]. *)
Definition joint_batch (shapes : seq (seq nat)) (batch : seq nat) :=
  [/\ (forall s, s \in shapes -> (size s <= size batch)%N /\
         forall i, axis_size s i = 1%N \/ axis_size s i = axis_size batch i),
      (exists2 s, s \in shapes & size s = size batch) &
      (forall i, exists2 s, s \in shapes & axis_size s i = axis_size batch i)].
(** A batch of one lattice: any number of axes of size 1. *)
Definition one_lattice (x : nd R) := nseq (ndim x).-1 1%N ++ [:: 2%N] = nshape x.
Definition the_vector (x : nd R) : R * R :=
  (nget x (nseq (ndim x).-1 0%N ++ [:: 0%N]), nget x (nseq (ndim x).-1 0%N ++ [:: 1%N])).
(** The element [b] of the batch [r] is the result [r1] of a single solve. *)
Definition element_of n (r : batched_result n) (b : seq nat) (r1 : M_fmm.layer_solve_result n) :=
  [/\ (forall jw, selects (nshape (b_wavelength r)) b jw -> nget (b_wavelength r) jw = M_fmm.wavelength r1) /\
      (forall jk, selects (nshape (b_in_plane_wavevector r)) (b ++ [:: 0%N]) jk ->
         nget (b_in_plane_wavevector r) jk = (M_fmm.in_plane_wavevector r1).1) /\
      (forall jk, selects (nshape (b_in_plane_wavevector r)) (b ++ [:: 1%N]) jk ->
         nget (b_in_plane_wavevector r) jk = (M_fmm.in_plane_wavevector r1).2),
      (forall i, nget (b_eigenvalues r) (b ++ [:: nat_of_ord i]) = Val (M_fmm.eigenvalues r1 0%R i)),
      (forall i j, nget (b_eigenvectors r) (b ++ [:: nat_of_ord i; nat_of_ord j]) = Val (M_fmm.eigenvectors r1 i j)),
      (forall i j, let idx := b ++ [:: nat_of_ord i; nat_of_ord j] in
        [/\ nget (b_z_permittivity_matrix r) idx = Val (M_fmm.z_permittivity_matrix r1 i j),
            nget (b_inverse_z_permittivity_matrix r) idx = Val (M_fmm.inverse_z_permittivity_matrix r1 i j),
            nget (b_z_permeability_matrix r) idx = Val (M_fmm.z_permeability_matrix r1 i j) &
            nget (b_inverse_z_permeability_matrix r) idx = Val (M_fmm.inverse_z_permeability_matrix r1 i j)]) &
      (forall i j, nget (b_transverse_permeability_matrix r) (b ++ [:: nat_of_ord i; nat_of_ord j]) =
         Val (M_fmm.transverse_permeability_matrix r1 i j))].

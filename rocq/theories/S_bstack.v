(** Specification: scattering matrices of batches of stacks. *)
From Coq Require Import Reals ZArith.
From mathcomp Require Import all_ssreflect all_algebra.
From Verif Require Import CField Err LinAlg M_basis M_nd M_fmm M_scattering M_batch M_bstack S_utils S_batch.
Set Implicit Arguments. Unset Strict Implicit. Unset Printing Implicit Defensive.

(** The element of an array that stands for element [idx] of a larger batch is [v]. *)
Definition array_element T (x : nd T) (idx : seq nat) (v : T) :=
  forall j, selects (nshape x) idx j -> nget x j = v.
(** An array whose shape is a batch shape, which broadcasts to [B], followed by [trailing]. *)
Definition broadcasts_to (s B : seq nat) :=
  (size s <= size B)%N /\ forall i, axis_size s i = 1%N \/ axis_size s i = axis_size B i.
Definition shaped T (x : nd T) (trailing B : seq nat) := exists2 s, nshape x = s ++ trailing & broadcasts_to s B.

(** A solve result with batch dimensions that broadcast to [B], with one lattice for the batch. *)
Definition batched_layer n (r : batched_result n) (B : seq nat) :=
  [/\ shaped (b_wavelength r) [::] B, shaped (b_in_plane_wavevector r) [:: 2%N] B,
      [/\ one_lattice (b_u r), one_lattice (b_v r), ndim (b_u r) = ndim (b_in_plane_wavevector r) &
          ndim (b_v r) = ndim (b_in_plane_wavevector r)],
      shaped (b_eigenvalues r) [:: (n + n)%N] B /\ shaped (b_eigenvectors r) [:: (n + n)%N; (n + n)%N] B &
      shaped (b_z_permittivity_matrix r) [:: n; n] B /\
      shaped (b_transverse_permeability_matrix r) [:: (n + n)%N; (n + n)%N] B].
(** [r1] is element [b] of the batch. *)
Definition layer_element n (r : batched_result n) (b : seq nat) (r1 : layer_solve_result n) :=
  [/\ [/\ array_element (b_wavelength r) b (wavelength r1),
          array_element (b_in_plane_wavevector r) (b ++ [:: 0%N]) (in_plane_wavevector r1).1 &
          array_element (b_in_plane_wavevector r) (b ++ [:: 1%N]) (in_plane_wavevector r1).2],
      primitive_lattice_vectors r1 = Lattice (the_vector (b_u r)) (the_vector (b_v r)) /\
      expansion r1 = b_expansion r,
      (forall i, array_element (b_eigenvalues r) (b ++ [:: nat_of_ord i]) (Val (eigenvalues r1 0%R i))) /\
      (forall i j, array_element (b_eigenvectors r) (b ++ [:: nat_of_ord i; nat_of_ord j]) (Val (eigenvectors r1 i j))) &
      (forall i j, array_element (b_z_permittivity_matrix r) (b ++ [:: nat_of_ord i; nat_of_ord j])
         (Val (z_permittivity_matrix r1 i j))) /\
      (forall i j, array_element (b_transverse_permeability_matrix r) (b ++ [:: nat_of_ord i; nat_of_ord j])
         (Val (transverse_permeability_matrix r1 i j)))].
(** A thickness for each element of a batch: a scalar, or an array with a trailing axis of size 1. *)
Definition batched_thickness (t : nd R) (B : seq nat) := nshape t = [::] \/ shaped t [:: 1%N] B.
Definition thickness_element (t : nd R) (b : seq nat) (t1 : R) := array_element t (b ++ [:: 0%N]) t1.

(** The blocks of a scattering matrix at element [b] are those of [s], or are not finite if [s]
    is not. *)
Definition s_matrix_element n (s : batched_s_matrix n) (b : seq nat) (s1 : res (scattering_matrix n)) :=
  [/\ array_element (bs11 s) b (rmap (fun s => s11 s) s1), array_element (bs12 s) b (rmap (fun s => s12 s) s1),
      array_element (bs21 s) b (rmap (fun s => s21 s) s1) & array_element (bs22 s) b (rmap (fun s => s22 s) s1)].

(** A scattering matrix with batch dimensions that broadcast to [B]. *)
Definition batched_scattering n (s : batched_s_matrix n) (B : seq nat) :=
  [/\ [/\ shaped (bs11 s) [::] B, shaped (bs12 s) [::] B, shaped (bs21 s) [::] B & shaped (bs22 s) [::] B],
      batched_layer (bs_start s) B /\ batched_layer (bs_end s) B &
      batched_thickness (bs_start_thickness s) B /\ batched_thickness (bs_end_thickness s) B].
(** [s1] is element [b] of the batch, with its layers and thicknesses. *)
Definition scattering_element n (s : batched_s_matrix n) (b : seq nat) (s1 : scattering_matrix n) :=
  [/\ s_matrix_element s b (Val s1),
      layer_element (bs_start s) b (start_layer_solve_result s1) /\ layer_element (bs_end s) b (end_layer_solve_result s1) &
      thickness_element (bs_start_thickness s) b (start_layer_thickness s1) /\
      thickness_element (bs_end_thickness s) b (end_layer_thickness s1)].
(** Each layer of a list, and each thickness, is element [b] of the batch. *)
Definition layers_element n (layers : seq (batched_result n)) (thicknesses : seq (nd R)) (b : seq nat)
    (layers1 : seq (layer_solve_result n)) (thicknesses1 : seq R) : Prop :=
  [/\ List.Forall2 (fun r r1 => layer_element r b r1) layers layers1 &
      List.Forall2 (fun t t1 => thickness_element t b t1) thicknesses thicknesses1].

(** [x] is the stack of [xs] along a new leading axis ([jnp.stack]). *)
Definition stack_of T (xs : seq (nd T)) (x : nd T) :=
  forall k y, (k < size xs)%N -> y = nth x xs k ->
    nshape x = size xs :: nshape y /\ forall idx, nget x (k :: idx) = nget y idx.
(** The tangent vector fields are missing from all layers, or stacked. *)
Definition stacked_tangents n (rs : seq (batched_result n)) (r : batched_result n) :=
  match b_tangent r with
  | None => forall x, List.In x rs -> b_tangent x = None
  | Some t => exists2 ts, map (@b_tangent n) rs = map Some ts & stack_of (map fst ts) t.1 /\ stack_of (map snd ts) t.2
  end.
(** [r] is the stack of the layers [rs], attribute by attribute. *)
Definition stacked n (rs : seq (batched_result n)) (r : batched_result n) :=
  [/\ [/\ stack_of (map (@b_wavelength n) rs) (b_wavelength r),
      stack_of (map (@b_in_plane_wavevector n) rs) (b_in_plane_wavevector r),
      stack_of (map (@b_u n) rs) (b_u r) /\ stack_of (map (@b_v n) rs) (b_v r),
      stack_of (map (@b_eigenvalues n) rs) (b_eigenvalues r) /\ stack_of (map (@b_eigenvectors n) rs) (b_eigenvectors r) &
      [/\ stack_of (map (@b_z_permittivity_matrix n) rs) (b_z_permittivity_matrix r),
          stack_of (map (@b_inverse_z_permittivity_matrix n) rs) (b_inverse_z_permittivity_matrix r),
          stack_of (map (@b_z_permeability_matrix n) rs) (b_z_permeability_matrix r),
          stack_of (map (@b_inverse_z_permeability_matrix n) rs) (b_inverse_z_permeability_matrix r) &
          stack_of (map (@b_transverse_permeability_matrix n) rs) (b_transverse_permeability_matrix r)]],
      stacked_tangents rs r
    & forall x, List.In x rs -> b_expansion x = b_expansion r].

(** The batches of wavelengths, in-plane wavevectors, lattices and of the permittivity of one
    layer have a joint batch, which broadcasts to [B]. *)
Definition uniform_batch (wl : nd R) (kb : seq nat) (u v : nd R) (eps : nd C) (B : seq nat) := exists pb Bi,
  [/\ nshape eps = pb ++ [:: 1%N; 1%N],
      joint_batch [:: nshape wl; kb; nseq (ndim u).-1 1%N; nseq (ndim v).-1 1%N; pb] Bi,
      0%N \notin Bi & broadcasts_to Bi B].

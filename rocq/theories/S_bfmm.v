(** Specification: batches of patterned and anisotropic layers. *)
From Coq Require Import Reals ZArith.
From mathcomp Require Import all_ssreflect all_algebra.
From Verif Require Import CField Err LinAlg M_basis M_nd M_fmm M_batch M_bstack M_bvector M_bfmm S_batch S_bstack S_bvector.
Set Implicit Arguments. Unset Strict Implicit. Unset Printing Implicit Defensive.

(** The grid [a] is the element of the array [p] that stands for element [b] of a larger batch. *)
Definition grid_element nx ny (p : nd C) (b : seq nat) (a : 'M[C]_(nx, ny)) :=
  forall i j, array_element p (b ++ [:: nat_of_ord i; nat_of_ord j]) (a i j).
Definition tensor_element nx ny (p : tensor (nd C)) (b : seq nat) (a : tensor 'M[C]_(nx, ny)) :=
  [/\ grid_element (t_xx p) b (t_xx a), grid_element (t_xy p) b (t_xy a), grid_element (t_yx p) b (t_yx a),
      grid_element (t_yy p) b (t_yy a) & grid_element (t_zz p) b (t_zz a)].
Definition tensor_shaped (p : tensor (nd C)) (s : seq nat) :=
  [/\ nshape (t_xx p) = s, nshape (t_xy p) = s, nshape (t_yx p) = s, nshape (t_yy p) = s & nshape (t_zz p) = s].

(** The tangent vector field is missing, or its shape is a batch shape, which broadcasts to [B],
    followed by the shape of the grid. *)
Definition tangent_shaped n (r : batched_result n) (nx ny : nat) (B : seq nat) :=
  match b_tangent r with
  | None => True
  | Some t => shaped t.1 [:: nx; ny] B /\ shaped t.2 [:: nx; ny] B
  end.
Definition tangent_element n (r : batched_result n) (b : seq nat) (r1 : layer_solve_result n) :=
  match b_tangent r, tangent_vector_field r1 with
  | None, None => True
  | Some t, Some g => forall i j,
      array_element t.1 (b ++ [:: nat_of_ord i; nat_of_ord j]) (Val (gp_x g i j)) /\
      array_element t.2 (b ++ [:: nat_of_ord i; nat_of_ord j]) (Val (gp_y g i j))
  | _, _ => False
  end.
(** [r1] is element [b] of the batch, in all attributes. *)
Definition solve_element n (r : batched_result n) (b : seq nat) (r1 : layer_solve_result n) :=
  [/\ layer_element r b r1,
      forall i j, array_element (b_inverse_z_permittivity_matrix r) (b ++ [:: nat_of_ord i; nat_of_ord j])
        (Val (inverse_z_permittivity_matrix r1 i j)),
      forall i j, array_element (b_z_permeability_matrix r) (b ++ [:: nat_of_ord i; nat_of_ord j])
        (Val (z_permeability_matrix r1 i j)),
      forall i j, array_element (b_inverse_z_permeability_matrix r) (b ++ [:: nat_of_ord i; nat_of_ord j])
        (Val (inverse_z_permeability_matrix r1 i j)) &
      tangent_element r b r1].

(** The eigenvalues and eigenvectors have the batch shape [A], which the other matrices broadcast to. *)
Definition full_batch n (r : batched_result n) (A : seq nat) :=
  [/\ batch_shape r = A, nshape (b_eigenvalues r) = A ++ [:: (n + n)%N],
      nshape (b_eigenvectors r) = A ++ [:: (n + n)%N; (n + n)%N],
      shaped (b_inverse_z_permittivity_matrix r) [:: n; n] A &
      shaped (b_inverse_z_permeability_matrix r) [:: n; n] A].

(** [form] is [form1] for batches: without a vector field, or with a function that computes, for one
    lattice, the field of each element of a batch. *)
Definition batch_formulation nx ny n (expn : n.-tuple (Z * Z)) (form : bformulation nx ny n) (form1 : formulation nx ny n) :=
  match form, form1 with
  | BFFT, FFT => True
  | BVector f, Vector f1 => forall arr u v, one_lattice u -> one_lattice v ->
      acts_elementwise f f1 arr expn u v (fun=> Lattice (the_vector u) (the_vector v))
  | _, _ => False
  end.

(** [result] is a solve result for a batch of shape [A], and each element of it is the result of
    [single] for the wavelength, in-plane wavevector and medium of that element. So is each element
    of a larger batch [B]. *)
Definition solves_elementwise n T nx ny (result : res (batched_result n))
    (single : R -> R * R -> lattice -> T -> res (layer_solve_result n)) (medium : seq nat -> T -> Prop)
    (wl k u v : nd R) (kb A : seq nat) :=
  exists r, [/\ result = Val r, full_batch r A,
    forall B, broadcasts_to A B -> batched_layer r B /\ tangent_shaped r nx ny B &
    forall B b jw jk m r1, broadcasts_to A B -> valid_index B b -> selects (nshape wl) b jw -> selects kb b jk -> medium b m ->
      single (nget wl jw) (nget k (jk ++ [:: 0%N]), nget k (jk ++ [:: 1%N])) (Lattice (the_vector u) (the_vector v)) m = Val r1 ->
      solve_element r b r1].
(** Wavelengths, in-plane wavevectors and media with the batch shapes given, for one lattice, have
    the joint batch [A]. *)
Definition solve_batch (wl k u v : nd R) (kb pb A : seq nat) :=
  [/\ nshape k = kb ++ [:: 2%N], one_lattice u, one_lattice v,
      joint_batch [:: nshape wl; kb; nseq (ndim u).-1 1%N; nseq (ndim v).-1 1%N; pb] A & 0%N \notin A].
(** The source of the vector field, if given. *)
Definition source_element nx ny (source : option (nd C)) (b : seq nat) (s : option 'M[C]_(nx, ny)) :=
  match source, s with
  | None, None => True
  | Some p, Some a => grid_element p b a
  | _, _ => False
  end.

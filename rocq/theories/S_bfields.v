(** Specification: amplitudes, flux and fields of batches. *)
From Coq Require Import Reals ZArith.
From mathcomp Require Import all_ssreflect all_algebra.
From Verif Require Import CField Err LinAlg M_basis M_nd M_fmm M_scattering M_fields M_batch M_bstack M_bfmm M_bfields S_batch S_bstack S_bfmm.
Set Implicit Arguments. Unset Strict Implicit. Unset Printing Implicit Defensive.

(** Element [b] of an array of matrices is the matrix [a], whose entries are finite. *)
Definition matrix_element T (x : batch T) (b : seq nat) (a : T) := array_element x b (Val a).
(** Two arrays of matrices. *)
Definition pair_element n m (x : batch 'M[C]_(n, m) * batch 'M[C]_(n, m)) (b : seq nat) (x1 : 'M[C]_(n, m) * 'M[C]_(n, m)) :=
  matrix_element x.1 b x1.1 /\ matrix_element x.2 b x1.2.
(** A batch shape to which all of [shapes] broadcast and which itself broadcasts to [B]. (If [B] is
    the joint shape, it is [B].) *)
Definition shape_between (shapes : seq (seq nat)) (s B : seq nat) :=
  broadcasts_to s B /\ forall t, t \in shapes -> broadcasts_to t s.
(** A distance for each element of a batch and each amplitude: the last two axes stand for the modes
    and the amplitudes. *)
Definition batched_distance (d : nd R) (m : nat) (B : seq nat) := broadcasts_to (nshape d) (B ++ [:: 1%N; m]).
Definition distance_element m (d : nd R) (b : seq nat) (d1 : 'rV[R]_m) :=
  forall j, array_element d (b ++ [:: 0%N; nat_of_ord j]) (d1 0%R j).
(** Six fields, each with the shape [s]. *)
Definition fields_shaped T (f : fields6 (batch T)) (s : seq nat) :=
  [/\ nshape (f_ex f) = s /\ nshape (f_ey f) = s, nshape (f_ez f) = s, nshape (f_hx f) = s,
      nshape (f_hy f) = s & nshape (f_hz f) = s].
Definition fields_element T (f : fields6 (batch T)) (b : seq nat) (f1 : fields6 T) :=
  [/\ matrix_element (f_ex f) b (f_ex f1) /\ matrix_element (f_ey f) b (f_ey f1), matrix_element (f_ez f) b (f_ez f1),
      matrix_element (f_hx f) b (f_hx f1), matrix_element (f_hy f) b (f_hy f1) & matrix_element (f_hz f) b (f_hz f1)].
(** A list of six fields as six lists. *)
Definition field_lists T (fs : seq (fields6 T)) : fields6 (seq T) :=
  Fields (map (@f_ex T) fs) (map (@f_ey T) fs) (map (@f_ez T) fs) (map (@f_hx T) fs) (map (@f_hy T) fs) (map (@f_hz T) fs).
(** A solve result for a batch of shape [A]. *)
Definition solve_result n (l : batched_result n) (A : seq nat) := batched_layer l A /\ full_batch l A.
(** The fields of an xy slice for batches are those of each element, on the coordinates of each
    element, for expansions that satisfy [valid]. *)
Definition slice_elementwise n P (fn : fields_xy_slice_fn_b n P) (fn1 : fields_xy_slice_fn n P)
    (valid : n.-tuple (Z * Z) -> Prop) :=
  forall m (f : fields6 (batch 'M[C]_(n, m))) l A S, (0 < n)%N -> (0 < m)%N -> 0%N \notin S ->
  solve_result l A -> broadcasts_to A S -> fields_shaped f S -> valid (b_expansion l) ->
  exists g xy, [/\ fn m f l = Val (g, xy), fields_shaped g S &
    forall b f1 l1 r1, fields_element f b f1 -> layer_element l b l1 -> fn1 m f1 l1 = Val r1 ->
      fields_element g b r1.1 /\ array_element xy b r1.2].

(** Specification: tangent vector fields of batches of arrays. *)
From Coq Require Import Reals ZArith.
From mathcomp Require Import all_ssreflect all_algebra.
From Verif Require Import CField Err LinAlg M_basis M_nd M_fmm M_batch M_bstack M_bvector S_batch.
Set Implicit Arguments. Unset Strict Implicit. Unset Printing Implicit Defensive.

(** [f] computes, for the batch [arr], the field that [f1] computes for each of its elements;
    [l] is the lattice of each element. *)
Definition acts_elementwise nx ny n (f : bvector_fn nx ny n) (f1 : vector_fn nx ny n) (arr : batch 'M[C]_(nx, ny))
    (expn : n.-tuple (Z * Z)) (u v : nd R) (l : seq nat -> lattice) :=
  exists tx ty, [/\ f arr expn u v = Val (tx, ty), nshape tx = nshape arr, nshape ty = nshape arr &
    forall b a, valid_index (nshape arr) b -> nget arr b = Val a ->
      [/\ nget tx b = rmap fst (f1 a expn (l b)), nget ty b = rmap snd (f1 a expn (l b)) &
          forall e, f1 a expn (l b) = Exn e -> e = NonFinite]].
(** The indices of an array of shape [sh] in row-major order. *)
Fixpoint all_indices (sh : seq nat) : seq (seq nat) :=
  match sh with [::] => [:: [::]] | d :: sh => [seq i :: idx | i <- iota 0 d, idx <- all_indices sh] end.
(** The lattice vector at element [b] of a batch. *)
Definition vector_at (x : nd R) (b : seq nat) : R * R := (nget x (b ++ [:: 0%N]), nget x (b ++ [:: 1%N])).

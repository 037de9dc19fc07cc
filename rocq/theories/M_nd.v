(** Arrays with any number of axes, as used by the shape handling of jax.numpy. An array is a
    shape and a function of the index, a list of the same length as the shape. *)
From mathcomp Require Import all_ssreflect.
Set Implicit Arguments. Unset Strict Implicit. Unset Printing Implicit Defensive.

Record nd (T : Type) := Nd { nshape : seq nat; nget : seq nat -> T }.
Definition ndim T (x : nd T) : nat := size (nshape x).
(** Valid indices of an array of shape [sh]. *)
Definition valid_index (sh idx : seq nat) : bool :=
  (size idx == size sh) && all (fun ab : nat * nat => ab.1 < ab.2) (zip idx sh).
(** Two arrays with the same shape and the same elements. *)
Definition same_array T (x y : nd T) : Prop :=
  nshape x = nshape y /\ forall idx, valid_index (nshape x) idx -> nget x idx = nget y idx.

(** [jnp.transpose(x, axes)]: axis [i] of the result is axis [axes[i]] of [x]. *)
Definition transpose T (x : nd T) (axes : seq nat) : nd T :=
  Nd [seq nth 0 (nshape x) a | a <- axes]
     (fun idx => nget x [seq nth 0 idx (index k axes) | k <- iota 0 (ndim x)]).

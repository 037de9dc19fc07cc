(** Model of vector.py for arrays with batch dimensions. The array is given as an array, over the
    batch axes, of matrices (M_bstack.v); a vector field is a batch of pairs of matrices. *)
From Coq Require Import Reals ZArith.
From mathcomp Require Import all_ssreflect all_algebra.
From Verif Require Import CField Err LinAlg M_utils M_basis M_fft M_nd M_fmm M_vector M_batch M_bstack.
Set Implicit Arguments. Unset Strict Implicit. Unset Printing Implicit Defensive.

(** ** [jnp.reshape] *)
Definition num_elements (sh : seq nat) : nat := foldr muln 1 sh.
(** The number of an element in row-major order, and back. *)
Fixpoint ravel (sh idx : seq nat) : nat :=
  match sh, idx with d :: sh, i :: idx => i * num_elements sh + ravel sh idx | _, _ => 0 end.
Fixpoint unravel (sh : seq nat) (k : nat) : seq nat :=
  match sh with [::] => [::] | d :: sh => k %/ num_elements sh :: unravel sh (k %% num_elements sh) end.
Definition reshape T (x : nd T) (sh : seq nat) : res (nd T) :=
  check (num_elements (nshape x) == num_elements sh) TypeError
  (Val (Nd sh (fun idx => nget x (unravel (nshape x) (ravel sh idx))))).

(** vector.py 158-167: [x.reshape((-1, 2))], broadcast to one row for each of [m] arrays *)
Definition lattice_rows (x : nd R) (m : nat) : res (nd R) :=
  rows <- reshape x [:: num_elements (nshape x) %/ 2; 2];;
  broadcast_to rows [:: m; 2].

(** vector.py 105-183 [compute_tangent_field]. The mapped function is traced once, for all of the
    arrays: its checks on shapes and on the number of terms are made first. *)
Definition compute_tangent_field_b nx ny n (arr : batch 'M[C]_(nx, ny)) (expn : n.-tuple (Z * Z)) (u v : nd R)
    (use_jones_direct : bool) (fourier_loss_weight smoothness_loss_weight : R) (steps : nat)
    : res (batch (vfield nx ny)) :=
  let batch_shape := nshape arr in
  let arr := atleast_nd arr 1 in
  arr <- reshape arr [:: num_elements (nshape arr)];;
  let m := head 0 (nshape arr) in
  u <- lattice_rows u m;;
  v <- lattice_rows v m;;
  check (n != 0) ZeroDivisionError
  (_ <- validate_shape_for_expansion (nx, ny) expn;;
   let row (x : nd R) k := (nget x [:: k; 0], nget x [:: k; 1]) in
   let field : batch (vfield nx ny) := Nd [:: m] (fun idx =>
     let k := head 0 idx in
     a <- nget arr [:: k];;
     compute_tangent_field a expn (Lattice (row u k) (row v k)) use_jones_direct
       fourier_loss_weight smoothness_loss_weight steps) in
   reshape field batch_shape).

(** vector.py 19-97: the tangent vector field [(tx, ty)] with the four methods. [jnp.amax] in
    [normalize] is over the axes of the grid, thus for each element of the batch. *)
Definition components nx ny (field : batch (vfield nx ny)) : batch 'M[C]_(nx, ny) * batch 'M[C]_(nx, ny) :=
  (bmap (fun f => f.1) field, bmap (fun f => f.2) field).
Definition bvector_fn nx ny n := batch 'M[C]_(nx, ny) -> n.-tuple (Z * Z) -> nd R -> nd R ->
  res (batch 'M[C]_(nx, ny) * batch 'M[C]_(nx, ny)).
Definition compute_field_jones_direct_b nx ny n (fw sw : R) : bvector_fn nx ny n := fun arr expn u v =>
  field <- compute_tangent_field_b arr expn u v true fw sw 1;; Val (components field).
Definition compute_field_pol_b nx ny n (fw sw : R) : bvector_fn nx ny n := fun arr expn u v =>
  field <- compute_tangent_field_b arr expn u v false fw sw 1;; Val (components field).
Definition compute_field_jones_b nx ny n (fw sw : R) : bvector_fn nx ny n := fun arr expn u v =>
  field <- compute_tangent_field_b arr expn u v false fw sw 1;;
  Val (components (bmap (@normalize_jones nx ny) field)).
Definition compute_field_normal_b nx ny n (fw sw : R) : bvector_fn nx ny n := fun arr expn u v =>
  field <- compute_tangent_field_b arr expn u v false fw sw 1;;
  Val (components (bmap (@normalize_elementwise nx ny) field)).
(** vector.py 638-700: the schemes and their weights. *)
Definition vector_field_scheme_b nx ny n (s : scheme) : bvector_fn nx ny n :=
  match s with
  | JonesDirect => @compute_field_jones_direct_b nx ny n 0%coqR (1 / 2)%coqR
  | Jones => @compute_field_jones_b nx ny n 0%coqR 2%coqR
  | Normal => @compute_field_normal_b nx ny n 0%coqR 2%coqR
  | Pol => @compute_field_pol_b nx ny n 0%coqR 2%coqR
  | JonesDirectFourier => @compute_field_jones_direct_b nx ny n (1 / 20)%coqR 0%coqR
  | JonesFourier => @compute_field_jones_b nx ny n (1 / 5)%coqR 0%coqR
  | NormalFourier => @compute_field_normal_b nx ny n (1 / 5)%coqR 0%coqR
  | PolFourier => @compute_field_pol_b nx ny n (1 / 5)%coqR 0%coqR
  end.

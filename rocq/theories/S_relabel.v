(** Specification for C61: the same structure with its orders listed differently, described at
    an equivalent wavevector, or with the two lattice vectors exchanged. *)
From Coq Require Import Reals ZArith.
From mathcomp Require Import all_ssreflect all_algebra.
From mathcomp Require Import perm.
From Verif Require Import CField Err LinAlg M_utils M_basis M_fft M_fmm_matrices M_fmm M_scattering M_fields S_stack S_shift.
Set Implicit Arguments. Unset Strict Implicit. Unset Printing Implicit Defensive.
Import GRing.Theory.
Local Open Scope ring_scope.

(** How a description is relabelled: whether the lattice vectors are exchanged, the order [g]
    whose reciprocal lattice vector is moved from the orders to the in-plane wavevector, and
    the position [r_perm i] in the first list of the order at position [i] of the second. *)
Record relabelling n := Relabelling { r_swap : bool; r_order : Z * Z; r_perm : 'S_n }.

Definition exchange A (sw : bool) (p : A * A) : A * A := if sw then (p.2, p.1) else p.
Definition exchange_lattice (sw : bool) (l : lattice) : lattice := if sw then Lattice (lat_v l) (lat_u l) else l.
(** Arrays follow the lattice vectors: they are transposed if the vectors are exchanged. *)
Definition regrid (sw : bool) nx ny (x : 'M[C]_(nx, ny)) : 'M[C]_(if sw then ny else nx, if sw then nx else ny) :=
  match sw return 'M[C]_(if sw then ny else nx, if sw then nx else ny) with true => x^T | false => x end.
Definition regrid_tensor (sw : bool) nx ny (t : tensor 'M[C]_(nx, ny)) :=
  Tensor (regrid sw (t_xx t)) (regrid sw (t_xy t)) (regrid sw (t_yx t)) (regrid sw (t_yy t)) (regrid sw (t_zz t)).
Definition regrid_source (sw : bool) nx ny (s : option 'M[C]_(nx, ny)) := omap (@regrid sw nx ny) s.

(** The relabelled wavevector, lattice and list of orders. *)
Definition relabelled n (r : relabelling n) (k0 : R * R) (plv : lattice) (expn : n.-tuple (Z * Z))
    (k0' : R * R) (plv' : lattice) (expn' : n.-tuple (Z * Z)) :=
  [/\ plv' = exchange_lattice (r_swap r) plv,
      forall rv, reciprocal plv = Val rv ->
        k0' = (k0.1 + 2 * PI * (IZR (r_order r).1 * (lat_u rv).1 + IZR (r_order r).2 * (lat_v rv).1),
               k0.2 + 2 * PI * (IZR (r_order r).1 * (lat_u rv).2 + IZR (r_order r).2 * (lat_v rv).2))%coqR &
      forall i, let o := tnth expn (r_perm r i) in
        tnth expn' i = exchange (r_swap r) (o.1 - (r_order r).1, o.2 - (r_order r).2)%coqZ].

(** Two formulations that use the same tangent field, if they use one. *)
Definition same_tangents (sw : bool) nx ny n (plv plv' : lattice) (expn expn' : n.-tuple (Z * Z))
    (form : formulation nx ny n) (form' : formulation (if sw then ny else nx) (if sw then nx else ny) n) :=
  match form, form' with
  | FFT, FFT => True
  | Vector v, Vector v' => forall p t t', v p expn plv = Val t -> v' (regrid sw p) expn' plv' = Val t' ->
                             t'.1 = regrid sw t.1 /\ t'.2 = regrid sw t.2
  | _, _ => False
  end.

(** A solver call, and the call for the relabelled description. The eigensolvers may differ. *)
Inductive relabelled_solve (eig eig' : eig_fn) n (r : relabelling n) : layer_solve_result n -> layer_solve_result n -> Prop :=
| relabelled_isotropic nx ny wl k0 plv (eps : 'M[C]_(nx, ny)) expn form k0' plv' expn' form' l l' :
    relabelled r k0 plv expn k0' plv' expn' -> @same_tangents (r_swap r) _ _ _ plv plv' expn expn' form form' ->
    eigensolve_isotropic_media eig wl k0 plv eps expn form = Val l ->
    eigensolve_isotropic_media eig' wl k0' plv' (regrid (r_swap r) eps) expn' form' = Val l' ->
    relabelled_solve eig eig' r l l'
| relabelled_anisotropic nx ny wl k0 plv (eps : tensor 'M[C]_(nx, ny)) expn form k0' plv' expn' form' l l' :
    relabelled r k0 plv expn k0' plv' expn' -> @same_tangents (r_swap r) _ _ _ plv plv' expn expn' form form' ->
    eigensolve_anisotropic_media eig wl k0 plv eps expn form = Val l ->
    eigensolve_anisotropic_media eig' wl k0' plv' (regrid_tensor (r_swap r) eps) expn' form' = Val l' ->
    relabelled_solve eig eig' r l l'
| relabelled_general nx ny wl k0 plv (eps mu : tensor 'M[C]_(nx, ny)) expn form src k0' plv' expn' form' l l' :
    relabelled r k0 plv expn k0' plv' expn' -> @same_tangents (r_swap r) _ _ _ plv plv' expn expn' form form' ->
    eigensolve_general_anisotropic_media eig wl k0 plv eps mu expn form src = Val l ->
    eigensolve_general_anisotropic_media eig' wl k0' plv' (regrid_tensor (r_swap r) eps) (regrid_tensor (r_swap r) mu)
      expn' form' (regrid_source (r_swap r) src) = Val l' ->
    relabelled_solve eig eig' r l l'.

(** The same field at all points of the plane and depths of the layer. *)
Definition same_field n m (k : layer n) (a : layer_amplitudes n m) (k' : layer n) (a' : layer_amplitudes n m) :=
  forall p (x y : 'I_p -> R) z, fields_at k' a' z x y = fields_at k a z x y.

(** The entry of order [i] of the first or second component of a vector of amplitudes. *)
Definition component n (second : bool) (i : 'I_n) : 'I_(n + n) := if second then rshift n i else lshift n i.
(** Amplitudes, listed in the relabelled order. *)
Definition reorder n m (s : 'S_n) (a : 'M[C]_(n + n, m)) : 'M[C]_(n + n, m) :=
  col_mx (row_perm s (usubmx a)) (row_perm s (dsubmx a)).

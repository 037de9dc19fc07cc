(** Specification for C62: a structure described on a larger cell that repeats its unit cell. *)
From Coq Require Import Reals ZArith.
From mathcomp Require Import all_ssreflect all_algebra.
From Verif Require Import CField Err LinAlg M_utils M_basis M_fft M_fmm_matrices M_fmm M_scattering M_fields S_stack S_shift S_relabel.
Set Implicit Arguments. Unset Strict Implicit. Unset Printing Implicit Defensive.
Import GRing.Theory.
Local Open Scope ring_scope.

(** A cell of [sc_x] by [sc_y] unit cells; order [i] of the unit cell is at position [sc_pos i]
    in the list of orders of the larger cell. *)
Record supercell n n' := Supercell { sc_x : nat; sc_y : nat; sc_pos : 'I_n -> 'I_n' }.

Definition cell_lattice n n' (c : supercell n n') (l : lattice) : lattice :=
  Lattice (INR (sc_x c) * (lat_u l).1, INR (sc_x c) * (lat_u l).2)%coqR
          (INR (sc_y c) * (lat_v l).1, INR (sc_y c) * (lat_v l).2)%coqR.
(** Order [o] of the unit cell, as an order of the larger cell. *)
Definition cell_order n n' (c : supercell n n') (o : Z * Z) : Z * Z := (Z.of_nat (sc_x c) * o.1, Z.of_nat (sc_y c) * o.2)%coqZ.
(** The larger cell contains the orders of the unit cell, once each, and any number of orders
    that the unit cell does not have. *)
Definition cell_orders n n' (c : supercell n n') (expn : n.-tuple (Z * Z)) (expn' : n'.-tuple (Z * Z)) :=
  [/\ (0 < sc_x c)%N /\ (0 < sc_y c)%N, injective (sc_pos c),
      forall i, tnth expn' (sc_pos c i) = cell_order c (tnth expn i) &
      forall k o, tnth expn' k = cell_order c o -> exists i, k = sc_pos c i].

(** Arrays repeated over the larger cell. *)
Lemma tile_bound M N (i : 'I_(M * N)) : (i %% N < N)%N.
Proof. by apply: ltn_pmod; case: N i => // i; move: (ltn_ord i); rewrite {2}muln0. Qed.
Definition tile_index M N (i : 'I_(M * N)) : 'I_N := Ordinal (tile_bound i).
Definition tile Mx My nx ny (x : 'M[C]_(nx, ny)) : 'M[C]_(Mx * nx, My * ny) :=
  \matrix_(i, j) x (tile_index i) (tile_index j).
(** A pattern is tiled; the single value of a uniform material is kept. *)
Definition reps (pattern : bool) (M : nat) : nat := if pattern then M else 1%N.
Definition on_cell n n' (c : supercell n n') (pattern : bool) nx ny (x : 'M[C]_(nx, ny)) :
    'M[C]_(reps pattern (sc_x c) * nx, reps pattern (sc_y c) * ny) :=
  tile (reps pattern (sc_x c)) (reps pattern (sc_y c)) x.
Definition tensor_on_cell n n' (c : supercell n n') (p : bool) nx ny (t : tensor 'M[C]_(nx, ny)) :=
  Tensor (on_cell c p (t_xx t)) (on_cell c p (t_xy t)) (on_cell c p (t_yx t)) (on_cell c p (t_yy t)) (on_cell c p (t_zz t)).
Definition is_pattern (p : bool) (nx ny : nat) := p = ((nx, ny) != (1, 1)%N).

(** Two formulations that use the same tangent field, if they use one. *)
Definition tiled_tangents n n' (c : supercell n n') (p : bool) nx ny (plv : lattice) (expn : n.-tuple (Z * Z)) (expn' : n'.-tuple (Z * Z))
    (form : formulation nx ny n) (form' : formulation (reps p (sc_x c) * nx) (reps p (sc_y c) * ny) n') :=
  match form, form' with
  | FFT, FFT => True
  | Vector v, Vector v' => forall x t t', v x expn plv = Val t -> v' (on_cell c p x) expn' (cell_lattice c plv) = Val t' ->
                             t'.1 = on_cell c p t.1 /\ t'.2 = on_cell c p t.2
  | _, _ => False
  end.

(** A solver call, and the call for the larger cell. The eigensolvers may differ. *)
Inductive supercell_solve (eig eig' : eig_fn) n n' (c : supercell n n') : layer_solve_result n -> layer_solve_result n' -> Prop :=
| supercell_isotropic p nx ny wl k0 plv (eps : 'M[C]_(nx, ny)) expn form expn' form' l l' :
    is_pattern p nx ny -> cell_orders c expn expn' -> @tiled_tangents _ _ c p _ _ plv expn expn' form form' ->
    eigensolve_isotropic_media eig wl k0 plv eps expn form = Val l ->
    eigensolve_isotropic_media eig' wl k0 (cell_lattice c plv) (on_cell c p eps) expn' form' = Val l' ->
    supercell_solve eig eig' c l l'
| supercell_anisotropic p nx ny wl k0 plv (eps : tensor 'M[C]_(nx, ny)) expn form expn' form' l l' :
    is_pattern p nx ny -> cell_orders c expn expn' -> @tiled_tangents _ _ c p _ _ plv expn expn' form form' ->
    eigensolve_anisotropic_media eig wl k0 plv eps expn form = Val l ->
    eigensolve_anisotropic_media eig' wl k0 (cell_lattice c plv) (tensor_on_cell c p eps) expn' form' = Val l' ->
    supercell_solve eig eig' c l l'
| supercell_general p nx ny wl k0 plv (eps mu : tensor 'M[C]_(nx, ny)) expn form src expn' form' l l' :
    is_pattern p nx ny -> cell_orders c expn expn' -> @tiled_tangents _ _ c p _ _ plv expn expn' form form' ->
    eigensolve_general_anisotropic_media eig wl k0 plv eps mu expn form src = Val l ->
    eigensolve_general_anisotropic_media eig' wl k0 (cell_lattice c plv) (tensor_on_cell c p eps) (tensor_on_cell c p mu)
      expn' form' (omap (@on_cell _ _ c p nx ny) src) = Val l' ->
    supercell_solve eig eig' c l l'.

(** The same field at all points of the plane and depths of the layer. *)
Definition same_cell_field n n' m (k : layer n) (a : layer_amplitudes n m) (k' : layer n') (a' : layer_amplitudes n' m) :=
  forall p (x y : 'I_p -> R) z, fields_at k' a' z x y = fields_at k a z x y.

(** Coefficients of the orders of the unit cell, at their positions among the orders of the
    larger cell; the other orders are zero. *)
Definition spread n n' m (c : supercell n n') (X : 'M[C]_(n, m)) : 'M[C]_(n', m) :=
  \matrix_(k, j) \sum_(i | sc_pos c i == k) X i j.
Definition spread_amplitudes n n' m (c : supercell n n') (a : 'M[C]_(n + n, m)) : 'M[C]_(n' + n', m) :=
  col_mx (spread c (usubmx a)) (spread c (dsubmx a)).
(** A matrix of the larger cell has the entries of the one of the unit cell between the orders of
    the unit cell, and couples none of them to any other order. *)
Definition cell_entries n n' (c : supercell n n') (A : 'M[C]_(n + n)) (A' : 'M[C]_(n' + n')) := forall u v j,
  (forall i, A' (component u (sc_pos c i)) (component v (sc_pos c j)) = A (component u i) (component v j)) /\
  (forall k, (forall i, k <> sc_pos c i) -> A' (component u k) (component v (sc_pos c j)) = 0).

(** Specification: moving a periodic structure within its unit cell. *)
From Coq Require Import Reals ZArith.
From mathcomp Require Import all_ssreflect all_algebra.
From Verif Require Import CField Err LinAlg M_utils M_basis M_fft M_fmm_matrices M_fmm M_scattering M_fields S_stack S_maxwell S_fields.
Set Implicit Arguments. Unset Strict Implicit. Unset Printing Implicit Defensive.
Import GRing.Theory.
Local Open Scope ring_scope.

(** The grid point [s] places after point [i] of [N], on the circle. *)
Definition shift_index N (s : nat) (i : 'I_N) : 'I_N :=
  Ordinal (ltn_pmod (i + s) (leq_ltn_trans (leq0n i) (ltn_ord i))).

(** Moving along an axis of [N] points by [s] points is moving by the fraction [f] of the
    lattice vector. An axis with one point carries a uniform profile, which does not change. *)
Definition is_fraction (N s : nat) (f : R) := N = 1%N \/ INR s = (f * INR N)%coqR.

(** [x'] is the pattern [x] moved by [f.1 u + f.2 v], with periodic wrap-around. *)
Definition moved nx ny (f : R * R) (x x' : 'M[C]_(nx, ny)) :=
  exists sx sy, [/\ is_fraction nx sx f.1, is_fraction ny sy f.2 &
    forall i j, x' (shift_index sx i) (shift_index sy j) = x i j].
Definition moved_tensor nx ny (f : R * R) (t t' : tensor 'M[C]_(nx, ny)) :=
  [/\ moved f (t_xx t) (t_xx t'), moved f (t_xy t) (t_xy t'), moved f (t_yx t) (t_yx t'),
      moved f (t_yy t) (t_yy t') & moved f (t_zz t) (t_zz t')].
(** An optional source of the tangent field. *)
Definition moved_source nx ny (f : R * R) (s s' : option 'M[C]_(nx, ny)) := match s, s' with
  | None, None => True | Some x, Some x' => moved f x x' | _, _ => False end.

(** A formulation whose tangent field, if it uses one, moves with the pattern. *)
Definition moves_along nx ny n (f : R * R) (plv : lattice) (expn : n.-tuple (Z * Z)) (form : formulation nx ny n) :=
  match form with
  | FFT => True
  | Vector v => forall p p' t t', moved f p p' -> v p expn plv = Val t -> v p' expn plv = Val t' ->
                  moved f t.1 t'.1 /\ moved f t.2 t'.2
  end.

(** A solver call, and the call for the moved material. The eigensolvers may differ. *)
Inductive moved_solve (eig eig' : eig_fn) n (f : R * R) : layer_solve_result n -> layer_solve_result n -> Prop :=
| moved_isotropic nx ny wl k0 plv (eps eps' : 'M[C]_(nx, ny)) expn form l l' :
    moved f eps eps' -> moves_along f plv expn form ->
    eigensolve_isotropic_media eig wl k0 plv eps expn form = Val l ->
    eigensolve_isotropic_media eig' wl k0 plv eps' expn form = Val l' -> moved_solve eig eig' f l l'
| moved_anisotropic nx ny wl k0 plv (eps eps' : tensor 'M[C]_(nx, ny)) expn form l l' :
    moved_tensor f eps eps' -> moves_along f plv expn form ->
    eigensolve_anisotropic_media eig wl k0 plv eps expn form = Val l ->
    eigensolve_anisotropic_media eig' wl k0 plv eps' expn form = Val l' -> moved_solve eig eig' f l l'
| moved_general nx ny wl k0 plv (eps eps' mu mu' : tensor 'M[C]_(nx, ny)) expn form src src' l l' :
    moved_tensor f eps eps' -> moved_tensor f mu mu' -> moved_source f src src' -> moves_along f plv expn form ->
    eigensolve_general_anisotropic_media eig wl k0 plv eps mu expn form src = Val l ->
    eigensolve_general_anisotropic_media eig' wl k0 plv eps' mu' expn form src' = Val l' ->
    moved_solve eig eig' f l l'.

(** The displacement [f.1 u + f.2 v]. *)
Definition displacement (plv : lattice) (f : R * R) : R * R :=
  (f.1 * (lat_u plv).1 + f.2 * (lat_v plv).1, f.1 * (lat_u plv).2 + f.2 * (lat_v plv).2)%coqR.
(** [exp(-i G . r)] for the reciprocal lattice vector [G] of an order and the displacement [r]. *)
Definition order_phase (f : R * R) (order : Z * Z) : C :=
  cexp (- (Ci * RtoC (2 * PI * (IZR order.1 * f.1 + IZR order.2 * f.2))%coqR)).
(** Fourier coefficients of a field, each multiplied by the phase of its order. *)
Definition phase_shift n m (f : R * R) (expn : n.-tuple (Z * Z)) (F : 'M[C]_(n, m)) : 'M[C]_(n, m) :=
  \matrix_(i, j) (order_phase f (tnth expn i) * F i j).
(** The order of an entry of a vector that stacks the two transverse components. *)
Definition component_order n (expn : n.-tuple (Z * Z)) (i : 'I_(n + n)) : Z * Z :=
  match split i with inl k => tnth expn k | inr k => tnth expn k end.
(** Amplitudes of plane waves, each multiplied by the phase of its order. *)
Definition phase_shift_amplitudes n m (f : R * R) (expn : n.-tuple (Z * Z)) (a : 'M[C]_(n + n, m)) : 'M[C]_(n + n, m) :=
  \matrix_(i, j) (order_phase f (component_order expn i) * a i j).

(** A layer of uniform isotropic material (its modes are the plane waves). *)
Definition uniform_layer n (l : layer_solve_result n) :=
  exists eig wl k0 plv (eps : 'M[C]_(1, 1)) expn form, eigensolve_isotropic_media eig wl k0 plv eps expn form = Val l.

(** The six field components at the points [(x, y)] at depth [z] of a layer. *)
Definition fields_at n m p (k : layer n) (a : layer_amplitudes n m) (z : R) (x y : 'I_p -> R) :
    res (fields6 (xyfield 'I_p m)) :=
  F <- reported_fields k.1 k.2 a.1 a.2 z;;
  g <- fields_on_coordinates F k.1 x y;;
  Val g.1.
(** The field of [a'] in the layer [k'] is the field of [a] in the layer [k], moved by the
    displacement and multiplied by the Bloch phase of the displacement. *)
Definition moved_field n m (f : R * R) (k : layer n) (a : layer_amplitudes n m) (k' : layer n) (a' : layer_amplitudes n m) :=
  let r := displacement (primitive_lattice_vectors k.1) f in
  forall p (x y : 'I_p -> R) z,
  fields_at k' a' z (fun i => x i + r.1)%coqR (fun i => y i + r.2)%coqR =
  rmap (fields6_map (times (cexp (Ci * RtoC (dot (in_plane_wavevector k.1) r))))) (fields_at k a z x y).

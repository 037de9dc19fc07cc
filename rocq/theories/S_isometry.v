(** Specification for C60: the same structure described in rotated or mirrored coordinates. *)
From Coq Require Import Reals ZArith.
From mathcomp Require Import all_ssreflect all_algebra.
From Verif Require Import CField Err LinAlg M_utils M_basis M_fft M_fmm_matrices M_fmm M_scattering M_fields S_stack S_shift.
Set Implicit Arguments. Unset Strict Implicit. Unset Printing Implicit Defensive.
Import GRing.Theory.
Local Open Scope ring_scope.

(** A change of the in-plane coordinates: an orthogonal 2x2 matrix, i.e. a rotation
    (determinant 1) or a mirror image (determinant -1). *)
Record axes := Axes { q_xx : R; q_xy : R; q_yx : R; q_yy : R }.
Definition orthogonal (q : axes) :=
  [/\ q_xx q * q_xx q + q_yx q * q_yx q = 1, q_xy q * q_xy q + q_yy q * q_yy q = 1 &
      q_xx q * q_xy q + q_yx q * q_yy q = 0]%coqR.
Definition det (q : axes) : R := (q_xx q * q_yy q - q_xy q * q_yx q)%coqR.

(** Turned points, wavevectors and lattices. *)
Definition turn (q : axes) (v : R * R) : R * R :=
  (q_xx q * v.1 + q_xy q * v.2, q_yx q * v.1 + q_yy q * v.2)%coqR.
Definition turn_lattice (q : axes) (l : lattice) : lattice := Lattice (turn q (lat_u l)) (turn q (lat_v l)).

(** Turned tensors [Q t Q^T], at every grid point; the arrays hold values at fractional
    positions of the unit cell, which turn with the lattice. *)
Definition lin4 nx ny (a b c d : R) (t : tensor 'M[C]_(nx, ny)) : 'M[C]_(nx, ny) :=
  RtoC a *: t_xx t + RtoC b *: t_xy t + RtoC c *: t_yx t + RtoC d *: t_yy t.
Definition turn_tensor nx ny (q : axes) (t : tensor 'M[C]_(nx, ny)) : tensor 'M[C]_(nx, ny) :=
  Tensor (lin4 (q_xx q * q_xx q)%coqR (q_xx q * q_xy q)%coqR (q_xy q * q_xx q)%coqR (q_xy q * q_xy q)%coqR t)
         (lin4 (q_xx q * q_yx q)%coqR (q_xx q * q_yy q)%coqR (q_xy q * q_yx q)%coqR (q_xy q * q_yy q)%coqR t)
         (lin4 (q_yx q * q_xx q)%coqR (q_yx q * q_xy q)%coqR (q_yy q * q_xx q)%coqR (q_yy q * q_xy q)%coqR t)
         (lin4 (q_yx q * q_yx q)%coqR (q_yx q * q_yy q)%coqR (q_yy q * q_yx q)%coqR (q_yy q * q_yy q)%coqR t)
         (t_zz t).

(** A formulation whose tangent field, if it uses one, turns with the lattice. *)
Definition turns_along nx ny n (q : axes) (plv : lattice) (expn : n.-tuple (Z * Z)) (form : formulation nx ny n) :=
  match form with
  | FFT => True
  | Vector v => forall p t t', v p expn plv = Val t -> v p expn (turn_lattice q plv) = Val t' ->
                  t'.1 = RtoC (q_xx q) *: t.1 + RtoC (q_xy q) *: t.2 /\
                  t'.2 = RtoC (q_yx q) *: t.1 + RtoC (q_yy q) *: t.2
  end.

(** A solver call, and the call for the turned structure. The eigensolvers may differ. *)
Inductive turned_solve (eig eig' : eig_fn) n (q : axes) : layer_solve_result n -> layer_solve_result n -> Prop :=
| turned_isotropic nx ny wl k0 plv (eps : 'M[C]_(nx, ny)) expn form l l' :
    turns_along q plv expn form ->
    eigensolve_isotropic_media eig wl k0 plv eps expn form = Val l ->
    eigensolve_isotropic_media eig' wl (turn q k0) (turn_lattice q plv) eps expn form = Val l' ->
    turned_solve eig eig' q l l'
| turned_anisotropic nx ny wl k0 plv (eps : tensor 'M[C]_(nx, ny)) expn form l l' :
    turns_along q plv expn form ->
    eigensolve_anisotropic_media eig wl k0 plv eps expn form = Val l ->
    eigensolve_anisotropic_media eig' wl (turn q k0) (turn_lattice q plv) (turn_tensor q eps) expn form = Val l' ->
    turned_solve eig eig' q l l'
| turned_general nx ny wl k0 plv (eps mu : tensor 'M[C]_(nx, ny)) expn form src l l' :
    turns_along q plv expn form ->
    eigensolve_general_anisotropic_media eig wl k0 plv eps mu expn form src = Val l ->
    eigensolve_general_anisotropic_media eig' wl (turn q k0) (turn_lattice q plv) (turn_tensor q eps)
      (turn_tensor q mu) expn form src = Val l' ->
    turned_solve eig eig' q l l'.

(** Turned fields: [E] is a vector, [H] a pseudovector. [comb a x b y] is [a x + b y]. *)
Definition turn_fields A (comb : R -> A -> R -> A -> A) (q : axes) (F : fields6 A) : fields6 A :=
  let d := det q in
  Fields (comb (q_xx q) (f_ex F) (q_xy q) (f_ey F)) (comb (q_yx q) (f_ex F) (q_yy q) (f_ey F)) (f_ez F)
         (comb (d * q_xx q) (f_hx F) (d * q_xy q) (f_hy F))%coqR
         (comb (d * q_yx q) (f_hx F) (d * q_yy q) (f_hy F))%coqR (comb d (f_hz F) 0%coqR (f_hz F)).
Definition comb_mx n m (a : R) (x : 'M[C]_(n, m)) (b : R) (y : 'M[C]_(n, m)) : 'M[C]_(n, m) :=
  RtoC a *: x + RtoC b *: y.
Definition comb_xy p m (a : R) (x : xyfield 'I_p m) (b : R) (y : xyfield 'I_p m) : xyfield 'I_p m :=
  fun i j => RtoC a * x i j + RtoC b * y i j.

(** The field of [a'] in the layer [k'] is the field of [a] in the layer [k], turned. *)
Definition turned_field n m (q : axes) (k : layer n) (a : layer_amplitudes n m) (k' : layer n) (a' : layer_amplitudes n m) :=
  forall p (x y : 'I_p -> R) z,
  fields_at k' a' z (fun i => (turn q (x i, y i)).1) (fun i => (turn q (x i, y i)).2) =
  rmap (turn_fields (@comb_xy p m) q) (fields_at k a z x y).

(** Amplitudes of the plane waves of a uniform layer, which are the components [(hx, hy)] of
    the magnetic field of each order. *)
Definition turn_amplitudes n m (q : axes) (a : 'M[C]_(n + n, m)) : 'M[C]_(n + n, m) :=
  let d := det q in
  col_mx (comb_mx (d * q_xx q)%coqR (usubmx a) (d * q_xy q)%coqR (dsubmx a))
         (comb_mx (d * q_yx q)%coqR (usubmx a) (d * q_yy q)%coqR (dsubmx a)).

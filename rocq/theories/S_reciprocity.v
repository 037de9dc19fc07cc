(** Specification: reciprocity. *)
From Coq Require Import Reals ZArith.
From mathcomp Require Import all_ssreflect all_algebra perm.
From Verif Require Import CField Err LinAlg M_utils M_basis M_fft M_fmm_matrices M_fmm M_scattering M_fields S_stack S_maxwell.
Set Implicit Arguments. Unset Strict Implicit. Unset Printing Implicit Defensive.
Import GRing.Theory.
Local Open Scope ring_scope.

(** Order [i] of the first expansion and order [s i] of the second are opposite. *)
Definition opposite n (s : 'S_n) (expn expn' : n.-tuple (Z * Z)) :=
  forall i, tnth expn' (s i) = (- (tnth expn i).1, - (tnth expn i).2)%coqZ.
Definition opposite_wavevector (k : R * R) : R * R := (- k.1, - k.2)%coqR.
(** Transposed tensors. A reciprocal medium has symmetric tensors, which are their own
    transposes; for a magnetized medium the transpose is the medium with the opposite bias. *)
Definition transposed nx ny (t t' : tensor 'M[C]_(nx, ny)) :=
  [/\ t_xx t' = t_xx t, t_xy t' = t_yx t, t_yx t' = t_xy t, t_yy t' = t_yy t & t_zz t' = t_zz t].

(** One layer solved for opposite in-plane wavevectors, with the FFT formulation. The
    eigensolvers may differ. *)
Inductive reciprocal_solve (eig eig' : eig_fn) n (s : 'S_n) : layer_solve_result n -> layer_solve_result n -> Prop :=
| reciprocal_isotropic nx ny wl k0 plv (eps : 'M[C]_(nx, ny)) expn expn' l l' :
    opposite s expn expn' ->
    eigensolve_isotropic_media eig wl k0 plv eps expn FFT = Val l ->
    eigensolve_isotropic_media eig' wl (opposite_wavevector k0) plv eps expn' FFT = Val l' ->
    reciprocal_solve eig eig' s l l'
| reciprocal_anisotropic nx ny wl k0 plv (eps eps' : tensor 'M[C]_(nx, ny)) expn expn' l l' :
    opposite s expn expn' -> transposed eps eps' ->
    eigensolve_anisotropic_media eig wl k0 plv eps expn FFT = Val l ->
    eigensolve_anisotropic_media eig' wl (opposite_wavevector k0) plv eps' expn' FFT = Val l' ->
    reciprocal_solve eig eig' s l l'
| reciprocal_general nx ny wl k0 plv (eps eps' mu mu' : tensor 'M[C]_(nx, ny)) expn expn' src src' l l' :
    opposite s expn expn' -> transposed eps eps' -> transposed mu mu' ->
    eigensolve_general_anisotropic_media eig wl k0 plv eps mu expn FFT src = Val l ->
    eigensolve_general_anisotropic_media eig' wl (opposite_wavevector k0) plv eps' mu' expn' FFT src' = Val l' ->
    reciprocal_solve eig eig' s l l'.

(** The z component of [E x H' - E' x H], averaged over the unit cell: only products of
    opposite orders contribute. *)
Definition reaction n m m' (s : 'S_n) (F : fields6 'M[C]_(n, m)) (F' : fields6 'M[C]_(n, m')) (j : 'I_m) (j' : 'I_m') : C :=
  \sum_i ((f_ex F i j * f_hy F' (s i) j' - f_ey F i j * f_hx F' (s i) j')
          - (f_ex F' (s i) j' * f_hy F i j - f_ey F' (s i) j' * f_hx F i j)).

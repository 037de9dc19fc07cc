(** Specification: a sheet of current between two layers. *)
From Coq Require Import Reals ZArith.
From mathcomp Require Import all_ssreflect all_algebra.
From Verif Require Import CField Err LinAlg M_utils M_basis M_fft M_fmm_matrices M_fmm M_scattering M_fields M_sources S_stack S_maxwell S_fields.
Set Implicit Arguments. Unset Strict Implicit. Unset Printing Implicit Defensive.
Import GRing.Theory.
Local Open Scope ring_scope.

Section Sheet.
Variables (n m : nat).
(** The tangential fields [(ex, ey, hx, hy)] on one side of the sheet. *)
Definition sheet_fields := ('M[C]_(n, m) * 'M[C]_(n, m) * 'M[C]_(n, m) * 'M[C]_(n, m))%type.
(** The delta function terms, at the sheet, of Maxwell's equations curl E = i w B and
    curl H = - i w D + J, with wavevectors [kx], [ky] and [E_z = eta D_z] at the sheet. [dz] and
    [ez] are the coefficients of the delta function in [D_z] and [E_z]; the derivative of a jump
    of [F'] - [F] is the jump times a delta function. *)
Definition current_sheet (w : R) (kx ky : 'rV[R]_n) (eta : 'M[C]_n) (jx jy jz : 'M[C]_(n, m))
    (F F' : sheet_fields) :=
  let '(ex, ey, hx, hy) := F in
  let '(ex', ey', hx', hy') := F' in
  exists dz ez : 'M[C]_(n, m), ez = eta *m dz /\
  forall i c,
    [/\ 0 = - (Ci * RtoC w) * dz i c + jz i c,
        Ci * RtoC (ky 0 i) * ez i c - (ey' i c - ey i c) = 0,
        (ex' i c - ex i c) - Ci * RtoC (kx 0 i) * ez i c = 0,
        - (hy' i c - hy i c) = jx i c &
        hx' i c - hx i c = jy i c].
End Sheet.

(** Fields in two stacks separated by a sheet of current, with only outgoing waves in their
    outer layers: [b_0] in the first and [a_N] in the last layer; the amplitudes [(a, b)] are
    those of the layer before and [(a', b')] those of the layer after the sheet. *)
Definition radiates n m (w : R) (kx ky : 'rV[R]_n) (eta : 'M[C]_n) (jx jy jz : 'M[C]_(n, m))
    (before after : seq (layer n)) (d : layer n) (x : source_amplitudes n m) :=
  [/\ stack_ends before 0 (bwd_amplitude_0_end x) (fwd_amplitude_before_start x) (bwd_amplitude_before_end x),
      stack_ends after (fwd_amplitude_after_start x) (bwd_amplitude_after_end x) (fwd_amplitude_N_start x) 0 &
      exists F F',
      [/\ tangential_fields (last d before) (last d before).2
            (fwd_amplitude_before_start x, bwd_amplitude_before_end x) = Val F,
          tangential_fields (head d after) 0%coqR
            (fwd_amplitude_after_start x, bwd_amplitude_after_end x) = Val F' &
          current_sheet w kx ky eta jx jy jz F F']].

(** A field on a supercell is the average of the fields of the points of a Brillouin zone grid. *)
Definition zone_average m n1 n2 cell (h : 'I_n1 -> 'I_n2 -> xyfield (grid_point cell (n1, n2)) m)
    (field : grid_field m) :=
  forall (pt : grid_point cell (n1, n2)) c,
    field pt.1 pt.2 c = (\sum_i \sum_j h i j pt c) / RtoC (INR (n1 * n2)).

(** The part of a field on a grid of [shape] points that varies as [exp(i q . r)]. *)
Definition plane_wave_part m plv (shape : nat * nat) (field : grid_field m) (q : R * R) (c : 'I_m) : C :=
  (\sum_(a < shape.1) \sum_(b < shape.2) field a b c *
     Cconj (cexp (Ci * RtoC (dot q (unit_cell_coordinate plv shape a b)))))
  / RtoC (INR shape.1 * INR shape.2)%coqR.

(** The standard deviation of a Gaussian [exp(-r^2 / (2 sigma^2))] whose full width at half
    maximum is [fwhm]: the Gaussian is one half at distance [fwhm / 2] from its centre. *)
Definition half_maximum (fwhm sigma : R) :=
  (0 < sigma)%coqR /\ exp (- ((fwhm / 2) ^ 2 / (2 * sigma ^ 2)))%coqR = (1 / 2)%coqR.

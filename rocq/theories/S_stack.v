(** Specification: what it means for wave amplitudes in the layers of a stack to describe
    one electromagnetic field. It only uses the public functions [colocate_amplitudes] and
    [fields_from_wave_amplitudes]: the tangential fields they give at an interface must be
    the same from both sides. Scattering functions do not appear here. *)
From Coq Require Import Reals ZArith.
From mathcomp Require Import all_ssreflect all_algebra.
From Verif Require Import CField Err LinAlg M_utils M_basis M_fft M_fmm_matrices M_fmm M_scattering M_fields.
Set Implicit Arguments. Unset Strict Implicit. Unset Printing Implicit Defensive.
Import GRing.Theory.
Local Open Scope ring_scope.

Section Stack.
Variables (n m : nat).
(** Forward amplitudes at the start, and backward amplitudes at the end, of a layer. *)
Definition layer_amplitudes := ('M[C]_(n + n, m) * 'M[C]_(n + n, m))%type.
(** A layer with its thickness. *)
Definition layer := (layer_solve_result n * R)%type.

(** [(ex, ey, hx, hy)] at height [z] above the start of the layer. *)
Definition tangential_fields (l : layer) (z : R) (x : layer_amplitudes)
    : res ('M[C]_(n, m) * 'M[C]_(n, m) * 'M[C]_(n, m) * 'M[C]_(n, m)) :=
  let ab := colocate_amplitudes x.1 x.2 (const_mx z) l.1 l.2 in
  rmap (fun f => (f_ex f, f_ey f, f_hx f, f_hy f)) (fields_from_wave_amplitudes ab.1 ab.2 l.1).

(** Continuity at the interface between two consecutive layers. *)
Definition interface_matched (l : layer) (x : layer_amplitudes) (l' : layer) (x' : layer_amplitudes) :=
  exists F, tangential_fields l l.2 x = Val F /\ tangential_fields l' 0%coqR x' = Val F.

(** Continuity at every interface of the stack. *)
Fixpoint stack_solution (ls : seq layer) (xs : seq layer_amplitudes) : Prop :=
  match ls, xs with
  | [::], [::] => True
  | l :: ls', x :: xs' =>
      match ls', xs' with
      | l' :: _, x' :: _ => interface_matched l x l' x' /\ stack_solution ls' xs'
      | _, _ => stack_solution ls' xs'
      end
  | _, _ => False
  end.

(** The documented meaning of a scattering matrix (scattering.py 41-44):
    [a_N = s11 a_0 + s12 b_N] and [b_0 = s21 a_0 + s22 b_N]. *)
Definition scatters (s : scattering_matrix n) (a_0 b_0 a_N b_N : 'M[C]_(n + n, m)) :=
  a_N = s11 s *m a_0 + s12 s *m b_N /\ b_0 = s21 s *m a_0 + s22 s *m b_N.

(** Amplitudes at the two ends of a stack: [a_0], [b_0] in its first layer and [a_N], [b_N]
    in its last layer belong to a solution of the stack. *)
Definition stack_ends (ls : seq layer) (a_0 b_0 a_N b_N : 'M[C]_(n + n, m)) :=
  exists x0 xs, [/\ stack_solution ls (x0 :: xs), x0 = (a_0, b_0) & last x0 xs = (a_N, b_N)].
End Stack.

(** The layers of a stack are solved at one wavelength, and their field amplitudes are
    finite (no mode with zero eigenvalue). *)
Definition same_wavelength n (wl : R) (ls : seq (layer_solve_result n)) :=
  forall l, List.In l ls -> wavelength l = wl.
Definition finite_fields n (ls : seq (layer_solve_result n)) :=
  forall l, List.In l ls -> exists M, field_conversion_matrix l = Val M.
(** Every transverse field in the layer is a superposition of its modes, in one way. *)
Definition complete_modes n (ls : seq (layer_solve_result n)) :=
  forall l, List.In l ls -> forall M, field_conversion_matrix l = Val M -> M \in unitmx.

(** Specification for C63: a stack looked at from the other side. *)
From Coq Require Import Reals ZArith.
From mathcomp Require Import all_ssreflect all_algebra.
From Verif Require Import CField Err LinAlg M_utils M_basis M_fft M_fmm_matrices M_fmm M_scattering M_fields S_stack.
Set Implicit Arguments. Unset Strict Implicit. Unset Printing Implicit Defensive.
Import GRing.Theory.
Local Open Scope ring_scope.

(** Fields in the coordinates [(x, y, -z)], up to a common sign: the mirror image has
    [(ex, ey, -ez)] and [(-hx, -hy, hz)], since the magnetic field is an axial vector. *)
Definition mirror_fields (A : Type) (opp : A -> A) (F : fields6 A) : fields6 A :=
  Fields (opp (f_ex F)) (opp (f_ey F)) (f_ez F) (f_hx F) (f_hy F) (opp (f_hz F)).
Definition opp_xy (P : Type) m (X : xyfield P m) : xyfield P m := fun p j => - X p j.
(** What was the forward wave at the start of the layer is the backward wave at its end. *)
Definition exchanged n m (x : layer_amplitudes n m) : layer_amplitudes n m := (x.2, x.1).

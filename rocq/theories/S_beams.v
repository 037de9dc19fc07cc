(** Rotations of three dimensional space. *)
From Coq Require Import Reals.
From mathcomp Require Import all_ssreflect all_algebra.
From Verif Require Import CField M_beams.
Set Implicit Arguments. Unset Strict Implicit. Unset Printing Implicit Defensive.
Import GRing.Theory.
Local Open Scope ring_scope.

Definition is_rotation (M : 'M[R]_3) := M *m M^T = 1%:M /\ \det M = 1.
(** The unit vector with the given polar and azimuthal angle. *)
Definition direction (polar azimuth : R) : 'cV[R]_3 :=
  col3 (cos azimuth * sin polar)%coqR (sin azimuth * sin polar)%coqR (cos polar).
Definition x_axis : 'cV[R]_3 := col3 1 0 0.
Definition y_axis : 'cV[R]_3 := col3 0 1 0.
Definition z_axis : 'cV[R]_3 := col3 0 0 1.
Definition dot3 (u v : 'cV[R]_3) : R := (u^T *m v) 0 0.
Definition cross3 (u v : 'cV[R]_3) : 'cV[R]_3 :=
  let '(u1, u2, u3) := comp3 u in let '(v1, v2, v3) := comp3 v in
  col3 (u2 * v3 - u3 * v2) (u3 * v1 - u1 * v3) (u1 * v2 - u2 * v1).
(** The rotation of [v] about the unit vector [u] by the angle [t]. *)
Definition rotate_about (u : 'cV[R]_3) (t : R) (v : 'cV[R]_3) : 'cV[R]_3 :=
  cos t *: v + sin t *: cross3 u v + ((1 - cos t)%coqR * dot3 u v) *: u.

(** The real rotation [M] applied to a complex vector. *)
Definition rotate_field (M : 'M[R]_3) (F : triple C) : triple C :=
  let '(f1, f2, f3) := F in comp3 (map_mx RtoC M *m col3 f1 f2 f3).

(** The plane wave of wavevector [q], as a function of position. *)
Definition plane_wave (q : 'cV[R]_3) (E H : triple C) (v : 'cV[R]_3) : triple C * triple C :=
  let w := cexp (Ci * RtoC (dot3 q v)) in
  let scale := fun F : triple C => let '(a, b, c) := F in (w * a, w * b, w * c) in
  (scale E, scale H).

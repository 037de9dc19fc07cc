(** Model of src/fmmax/beams.py. Coordinates are real 3-vectors, fields complex 3-vectors. *)
From Coq Require Import Reals ZArith.
From mathcomp Require Import all_ssreflect all_algebra.
From Verif Require Import CField Err LinAlg.
Set Implicit Arguments. Unset Strict Implicit. Unset Printing Implicit Defensive.
Import GRing.Theory.
Local Open Scope ring_scope.

(** [jnp.asarray([[...], [...], [...]])] and [jnp.stack] of three components. *)
Definition mx3 (T : ringType) (rows : seq (seq T)) : 'M[T]_3 := \matrix_(i, j) nth 0 (nth [::] rows i) j.
Definition col3 (T : ringType) (x y z : T) : 'cV[T]_3 := \col_i nth 0 [:: x; y; z] i.
Definition comp3 (T : ringType) (v : 'cV[T]_3) : T * T * T :=
  (v (inord 0) 0, v (inord 1) 0, v (inord 2) 0).

(** jnp.linalg.solve on real matrices. *)
Definition solveR n p (A : 'M[R]_n) (B : 'M[R]_(n, p)) : res 'M[R]_(n, p) :=
  if A \in unitmx then Val (invmx A *m B) else Exn NonFinite.

(** beams.py 133-140 *)
Definition rotation_y_matrix (polar_angle : R) : 'M[R]_3 :=
  mx3 [:: [:: cos polar_angle; 0; sin polar_angle];
          [:: 0; 1; 0];
          [:: - sin polar_angle; 0; cos polar_angle]].
(** beams.py 143-150 *)
Definition rotation_z_matrix (azimuthal_angle : R) : 'M[R]_3 :=
  mx3 [:: [:: cos azimuthal_angle; - sin azimuthal_angle; 0];
          [:: sin azimuthal_angle; cos azimuthal_angle; 0];
          [:: 0; 0; 1]].
(** beams.py 154-178 *)
Definition rotation_p_matrix (polar_angle azimuthal_angle polarization_angle : R) : 'M[R]_3 :=
  let ux := (cos azimuthal_angle * sin polar_angle)%coqR in
  let uy := (sin azimuthal_angle * sin polar_angle)%coqR in
  let uz := cos polar_angle in
  let c := cos polarization_angle in
  let s := sin polarization_angle in
  mx3 [:: [:: c + ux ^ 2 * (1 - c); ux * uy * (1 - c) - uz * s; ux * uz * (1 - c) + uy * s];
          [:: uy * ux * (1 - c) + uz * s; c + uy ^ 2 * (1 - c); uy * uz * (1 - c) - ux * s];
          [:: uz * ux * (1 - c) - uy * s; uz * uy * (1 - c) + ux * s; c + uz ^ 2 * (1 - c)]]%coqR.
(** beams.py 103-179 [rotation_matrix]; dtype promotion has no counterpart. *)
Definition rotation_matrix (polar_angle azimuthal_angle polarization_angle : R) : 'M[R]_3 :=
  rotation_p_matrix polar_angle azimuthal_angle polarization_angle
  *m rotation_z_matrix azimuthal_angle *m rotation_y_matrix polar_angle.

Definition triple (T : Type) := (T * T * T)%type.

(** beams.py 20-100 [shifted_rotated_fields], at one point [(x, y, z)]; the beam function is
    evaluated elementwise. *)
Definition shifted_rotated_fields (field_fn : R -> R -> R -> triple C * triple C)
    (x y z beam_origin_x beam_origin_y beam_origin_z polar_angle azimuthal_angle polarization_angle : R)
    : res (triple C * triple C) :=
  let mat := rotation_matrix polar_angle azimuthal_angle polarization_angle in
  rotated_coords <- solveR mat (col3 x y z);;
  let '(xf, yf, zf) := comp3 rotated_coords in
  rotated_origin <- solveR mat (col3 beam_origin_x beam_origin_y beam_origin_z);;
  let '(xf0, yf0, zf0) := comp3 rotated_origin in
  let '((exr, eyr, ezr), (hxr, hyr, hzr)) := field_fn (xf - xf0)%coqR (yf - yf0)%coqR (zf - zf0)%coqR in
  let efield := map_mx RtoC mat *m col3 exr eyr ezr in
  let hfield := map_mx RtoC mat *m col3 hxr hyr hzr in
  Val (comp3 efield, comp3 hfield).

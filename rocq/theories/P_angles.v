(** C36: far-field angles. *)
From Coq Require Import Reals ZArith Lra Lia.
From mathcomp Require Import all_ssreflect all_algebra.
From Verif Require Import CField Err LinAlg M_utils M_basis M_nd M_farfield S_farfield.
Set Implicit Arguments. Unset Strict Implicit. Unset Printing Implicit Defensive.

Lemma cos_atan_pos t : (0 < cos (atan t))%coqR.
Proof. by have := atan_bound t => h; apply: cos_gt_0; lra. Qed.
Lemma sin_atan_t t : (sin (atan t) = t * cos (atan t))%coqR.
Proof.
have h := cos_atan_pos t; have := tan_atan t; rewrite /tan => e.
have {2}<- := e; field; lra.
Qed.
(** The azimuthal angle is the direction of the vector. *)
Lemma atan2P x y : direction (x, y) (atan2 y x).
Proof.
have pp := PI_RGT_0; have ab := atan_bound (y / x); have c0 := cos_atan_pos (y / x); have sa := sin_atan_t (y / x).
rewrite /atan2 /direction; case: Rlt_dec => [hx|hx]; cbn [is_left].
  split; first lra.
  exists (x / cos (atan (y / x)))%coqR; split.
  - by left; apply: Rdiv_lt_0_compat.
  - by rewrite sa; congr pair; field; lra.
  - by case; lra.
case: Rlt_dec => [hx'|hx']; cbn [is_left].
  have q0 : (y < 0 -> 0 < y / x)%coqR.
    move=> hy; have -> : (y / x = (- y) / (- x))%coqR by field; lra.
    by apply: Rdiv_lt_0_compat; lra.
  have q1 : (0 <= y -> y / x <= 0)%coqR.
    move=> hy; have -> : (y / x = - (y / (- x)))%coqR by field; lra.
    have : (0 <= y / - x)%coqR; last lra.
    by apply: Rmult_le_pos => //; left; apply: Rinv_0_lt_compat; lra.
  case: Rlt_dec => [hy|hy]; cbn [is_left].
    have a0 : (0 < atan (y / x))%coqR by rewrite -atan_0; apply: atan_increasing; exact: q0.
    split; first lra.
    exists (- x / cos (atan (y / x)))%coqR; split.
    - by left; apply: Rdiv_lt_0_compat; lra.
    - rewrite cos_minus sin_minus cos_PI sin_PI sa; congr pair; field; lra.
    - by case; lra.
  have a0 : (atan (y / x) <= 0)%coqR.
    have [h|->] : (y / x < 0 \/ y / x = 0)%coqR by have := q1 ltac:(lra); lra.
      by left; rewrite -atan_0; apply: atan_increasing.
    by rewrite atan_0; lra.
  split; first lra.
  exists (- x / cos (atan (y / x)))%coqR; split.
  - by left; apply: Rdiv_lt_0_compat; lra.
  - rewrite cos_plus sin_plus cos_PI sin_PI sa; congr pair; field; lra.
  - by case; lra.
have -> : x = 0%coqR by lra.
case: Rlt_dec => [hy|hy]; cbn [is_left].
  split; first lra.
  by exists y; split; [lra|rewrite cos_PI2 sin_PI2; congr pair; ring|case; lra].
case: Rlt_dec => [hy'|hy']; cbn [is_left].
  split; first lra.
  by exists (- y)%coqR; split; [lra|rewrite cos_neg sin_neg cos_PI2 sin_PI2; congr pair; ring|case; lra].
have -> : y = 0%coqR by lra.
by split; first lra; exists 0%coqR; rewrite cos_0 sin_0; split; [lra|congr pair; ring|].
Qed.
(** The direction of a vector is unique. *)
Lemma cos_sin_inj a b : (- PI < a <= PI)%coqR -> (- PI < b <= PI)%coqR -> cos a = cos b -> sin a = sin b -> a = b.
Proof.
move=> ha hb hc hs; have pp := PI_RGT_0.
have hd : cos ((a - b) / 2 * 2) = 1%coqR.
  have -> : ((a - b) / 2 * 2 = a - b)%coqR by field.
  by rewrite cos_minus hc hs; have := sin2_cos2 b; rewrite /Rsqr; lra.
have s0 : sin ((a - b) / 2) = 0%coqR.
  move: hd; rewrite Rmult_comm cos_2a_sin => h.
  by apply: Rsqr_0_uniq; rewrite /Rsqr; lra.
case: (Rtotal_order a b) => [lt|[//|gt]].
- have : (sin ((b - a) / 2) > 0)%coqR by apply: sin_gt_0; lra.
  have -> : ((b - a) / 2 = - ((a - b) / 2))%coqR by field.
  by rewrite sin_neg s0; lra.
- have : (sin ((a - b) / 2) > 0)%coqR by apply: sin_gt_0; lra.
  by rewrite s0; lra.
Qed.
Theorem C36_direction_unique v a b : direction v a -> direction v b -> a = b.
Proof.
move=> [ha [r [r0 e z]]] [hb [s [s0 e' z']]].
case: (Req_dec r 0) => hr.
  have v0 : v = (0, 0)%coqR by rewrite e hr; congr pair; ring.
  by rewrite z // z'.
move: e'; rewrite e => -[h1 h2].
have E : (r * r = s * s)%coqR.
  have c1 := sin2_cos2 a; have c2 := sin2_cos2 b; rewrite /Rsqr in c1 c2.
  transitivity (r * cos a * (r * cos a) + r * sin a * (r * sin a))%coqR.
    transitivity (r * r * (sin a * sin a + cos a * cos a))%coqR; [rewrite c1|]; ring.
  rewrite h1 h2; transitivity (s * s * (sin b * sin b + cos b * cos b))%coqR; [|rewrite c2]; ring.
have rs : r = s by nra.
subst s; apply: cos_sin_inj => //; apply: (Rmult_eq_reg_l r) => //.
Qed.

(** Propagating waves (transverse wavevector at most [2 pi / wavelength]): the polar angle is in
    [0, pi/2], the azimuthal angle in (-pi, pi], and the two recover the wavevector. *)
Theorem C36_angles wavelength kx ky : (0 < wavelength)%coqR ->
  (sqrt (kx ^ 2 + ky ^ 2) <= 2 * PI / wavelength)%coqR ->
  exists theta phi, angles_of_wavevector wavelength kx ky = (Some theta, phi) /\
  [/\ (0 <= theta <= PI / 2)%coqR, (- PI < phi <= PI)%coqR &
      transverse_of_angles wavelength theta phi = (kx, ky)].
Proof.
move=> w0 hk; have pp := PI_RGT_0.
have kp : (0 <= kx ^ 2 + ky ^ 2)%coqR by nra.
set kt := sqrt (kx ^ 2 + ky ^ 2) in hk.
have kt0 : (0 <= kt)%coqR by exact: sqrt_pos.
set s := (kt * wavelength / (2 * PI))%coqR.
have s0 : (0 <= s)%coqR by apply: Rmult_le_pos; [nra|left; apply: Rinv_0_lt_compat; lra].
have s1 : (s <= 1)%coqR.
  apply: (Rmult_le_reg_r (2 * PI / wavelength)); first by apply: Rdiv_lt_0_compat; lra.
  by have -> : (s * (2 * PI / wavelength) = kt)%coqR by [rewrite /s; field; lra]; lra.
have [hphi [r [r0 e z]]] := atan2P kx ky.
rewrite /angles_of_wavevector -/kt -/s.
case: Rlt_dec => [h|h]; cbn [is_left]; first lra. case: Rlt_dec => [h'|h']; cbn [is_left]; first lra.
do 2 eexists; split; first reflexivity.
split=> //.
  have as0 : (0 <= asin s)%coqR.
    case: (Rle_lt_dec 0 (asin s)) => // n0; have := sin_lt_0_var (asin s); rewrite sin_asin; last lra.
    by have := asin_bound s; lra.
  by have := asin_bound s; lra.
rewrite /transverse_of_angles sin_asin; last lra.
have -> : (2 * PI / wavelength * s = kt)%coqR by rewrite /s; field; lra.
have -> : kt = r; last by [].
move: (atan2 ky kx) e => phi e; rewrite /kt; case: e => -> ->.
have -> : ((r * cos phi) ^ 2 + (r * sin phi) ^ 2 = r * r)%coqR.
  have := sin2_cos2 phi; rewrite /Rsqr => h2.
  transitivity (r * r * (sin phi * sin phi + cos phi * cos phi))%coqR; first by ring.
  by rewrite h2; ring.
exact: sqrt_square.
Qed.
(** Conversely, the angles of the transverse wavevector of a plane wave are those of the wave. *)
Theorem C36_inverse wavelength theta phi : (0 < wavelength)%coqR ->
  (0 < theta <= PI / 2)%coqR -> (- PI < phi <= PI)%coqR ->
  let k := transverse_of_angles wavelength theta phi in
  angles_of_wavevector wavelength k.1 k.2 = (Some theta, phi).
Proof.
move=> w0 ht hp k; have pp := PI_RGT_0.
have st : (0 < sin theta)%coqR by apply: sin_gt_0; lra.
have k0 : (0 < 2 * PI / wavelength)%coqR by apply: Rdiv_lt_0_compat; lra.
have kt : (sqrt (k.1 ^ 2 + k.2 ^ 2) = 2 * PI / wavelength * sin theta)%coqR.
  rewrite /k /transverse_of_angles /=; set r := (2 * PI / wavelength * sin theta)%coqR.
  have r0 : (0 <= r)%coqR by rewrite /r; nra.
  rewrite !Rmult_1_r.
  have -> : (r * cos phi * (r * cos phi) + r * sin phi * (r * sin phi) = r * r)%coqR.
    have := sin2_cos2 phi; rewrite /Rsqr => h.
    transitivity (r * r * (sin phi * sin phi + cos phi * cos phi))%coqR; first ring.
    by rewrite h; ring.
  exact: sqrt_square.
rewrite /angles_of_wavevector kt.
have -> : (2 * PI / wavelength * sin theta * wavelength / (2 * PI) = sin theta)%coqR by field; lra.
have [s1 s2] := SIN_bound theta.
case: Rlt_dec => [h|h]; cbn [is_left]; first lra. case: Rlt_dec => [h'|h']; cbn [is_left]; first lra.
rewrite asin_sin; last lra.
congr pair; apply: (@C36_direction_unique k); first by rewrite [k]surjective_pairing; exact: atan2P.
split=> //; exists (2 * PI / wavelength * sin theta)%coqR; split=> //; first nra.
rewrite /k /transverse_of_angles => -[h1 h2].
have c := sin2_cos2 phi; rewrite /Rsqr in c.
have r0 : (0 < 2 * PI / wavelength * sin theta)%coqR by nra.
have z1 : cos phi = 0%coqR by apply: (Rmult_eq_reg_l (2 * PI / wavelength * sin theta)); lra.
have z2 : sin phi = 0%coqR by apply: (Rmult_eq_reg_l (2 * PI / wavelength * sin theta)); lra.
by move: c; rewrite z1 z2; lra.
Qed.
(** Normal incidence: polar and azimuthal angles are zero. *)
Theorem C36_normal wavelength : angles_of_wavevector wavelength 0 0 = (Some 0%coqR, 0%coqR).
Proof.
rewrite /angles_of_wavevector; have -> : (0 ^ 2 + 0 ^ 2 = 0)%coqR by ring.
rewrite sqrt_0 /Rdiv !Rmult_0_l; case: Rlt_dec => [h|h]; cbn [is_left]; first lra. case: Rlt_dec => [h'|h']; cbn [is_left]; first lra.
rewrite asin_0 /atan2.
by case: Rlt_dec => [i|i]; cbn [is_left]; first lra.
Qed.
(** Evanescent waves get a polar angle of [pi/2], not nan. *)
Theorem C36_evanescent wavelength kx ky : (0 < wavelength)%coqR ->
  (2 * PI / wavelength < sqrt (kx ^ 2 + ky ^ 2))%coqR ->
  exists phi, angles_of_wavevector wavelength kx ky = (Some (PI / 2)%coqR, phi) /\ direction (kx, ky) phi.
Proof.
move=> w0 hk; have pp := PI_RGT_0; rewrite /angles_of_wavevector.
case: Rlt_dec => [h|[]]; cbn [is_left]; first by eexists; split; [reflexivity|exact: atan2P].
apply: (Rmult_lt_reg_r (2 * PI / wavelength)); first by apply: Rdiv_lt_0_compat; lra.
set kt := sqrt _ in hk *.
by have -> : (kt * wavelength / (2 * PI) * (2 * PI / wavelength) = kt)%coqR by [field; lra]; lra.
Qed.
(** On arrays: places without a wavevector (nan) have no angles, the others theirs. *)
Theorem C36_array (kt : nd (option R)) wavelength p q :
  let: (polar, azimuthal) := angles_from_unflattened_transverse_wavevectors kt wavelength in
  [/\ nshape polar = take 2 (nshape kt), nshape azimuthal = take 2 (nshape kt),
      (forall kx ky, nget kt [:: p; q; 0]%N = Some kx -> nget kt [:: p; q; 1]%N = Some ky ->
         (nget polar [:: p; q], nget azimuthal [:: p; q]) =
         ((angles_of_wavevector wavelength kx ky).1, Some (angles_of_wavevector wavelength kx ky).2)) &
      (nget kt [:: p; q; 0]%N = None -> nget polar [:: p; q] = None /\ nget azimuthal [:: p; q] = None)].
Proof. by split=> // [kx ky /= -> ->|/= ->]. Qed.
(** A wave at 45 degrees. *)
Example ex_C36 : exists kx ky, (kx <> 0)%coqR /\ (0 < sqrt (kx ^ 2 + ky ^ 2) <= 2 * PI / 2)%coqR.
Proof.
exists 1%coqR, 1%coqR; split; first lra.
have pi3 := PI2_3_2.
have -> : (1 ^ 2 + 1 ^ 2 = 2)%coqR by ring.
by have := sqrt_lt_R0 2 ltac:(lra); have := sqrt_less 2; lra.
Qed.
Print Assumptions C36_direction_unique.
Print Assumptions C36_angles.
Print Assumptions C36_inverse.
Print Assumptions C36_normal.
Print Assumptions C36_evanescent.
Print Assumptions C36_array.

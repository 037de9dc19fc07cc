(** C39: normalisation of tangent vector fields. *)
From Coq Require Import Reals ZArith Lra Lia.
From mathcomp Require Import all_ssreflect all_algebra.
From Verif Require Import CField Err LinAlg Tac M_utils M_basis M_fft M_fmm_matrices M_fmm M_fields M_nd M_farfield M_vector S_vector L_fft P_angles L_vector.
Set Implicit Arguments. Unset Strict Implicit. Unset Printing Implicit Defensive.
Import GRing.Theory.
Local Open Scope ring_scope.

(** [normalize] divides by one positive number; afterwards no vector is longer than one; if some
    vector was longer than the tolerance some vector has length one exactly. *)
Theorem C39_normalize nx ny (v : vfield nx ny) :
  exists s, [/\ (0 < s)%coqR,
    (forall i j, (normalize v).1 i j = v.1 i j / RtoC s /\ (normalize v).2 i j = v.2 i j / RtoC s),
    (forall i j, (length_at (normalize v) i j <= 1)%coqR),
    ((exists i j, (tolerance < length_at v i j)%coqR) -> exists i j, length_at (normalize v) i j = 1%coqR) &
    ((forall i j, (length_at v i j <= tolerance)%coqR) -> s = 1%coqR)].
Proof.
exists (norm_factor v); have s0 := norm_factor_gt0 v; split=> //.
- by move=> i j; exact: normalizeE.
- move=> i j; rewrite normalize_length.
  apply: (Rmult_le_reg_r (norm_factor v)) => //; rewrite /Rdiv Rmult_assoc Rinv_l; last lra.
  have h := max_ge v i j; rewrite /norm_factor; case: isclose0P; first exact: max_ge0.
    by have := tolerance_lt1; lra.
  by lra.
- move=> [i [j h]]; have hm := max_ge v i j.
  have [|i' [j' e]] := @max_attained _ _ v; first by have := tolerance_gt0; lra.
  exists i', j'; rewrite normalize_length e /norm_factor; case: isclose0P => [||h']; first exact: max_ge0.
    by lra.
  by field; have := tolerance_gt0; lra.
move=> h; rewrite /norm_factor; case: isclose0P => [|//|h']; first exact: max_ge0.
have [|i [j e]] := @max_attained _ _ v; first by have := tolerance_gt0; lra.
by have := h i j; lra.
Qed.
(** [normalize_elementwise] gives every vector longer than the tolerance length one, keeping its
    direction, and leaves the others alone. *)
Theorem C39_elementwise nx ny (v : vfield nx ny) i j :
  let w := normalize_elementwise v in
  ((tolerance < length_at v i j)%coqR -> length_at w i j = 1%coqR /\
     v.1 i j = RtoC (length_at v i j) * w.1 i j /\ v.2 i j = RtoC (length_at v i j) * w.2 i j) /\
  ((length_at v i j <= tolerance)%coqR -> w.1 i j = v.1 i j /\ w.2 i j = v.2 i j).
Proof.
move=> w; have l0 := length_ge0 (v.1 i j) (v.2 i j); rewrite -/(length_at v i j) in l0.
rewrite /w {1 2}/length_at !mxE /= !magnitudeE; case: isclose0P => // h; split=> h'.
- by rewrite /length_at in h h'; lra.
- by rewrite !divr1.
- have t0 := tolerance_gt0; have lp : (0 < length_at v i j)%coqR by lra.
  rewrite length_div //; split; first by rewrite -/(length_at v i j); field; lra.
  by split; rewrite mulrC divfK //; apply: RtoC_neq0; lra.
by lra.
Qed.
(** The Jones vector of a field value (x, y) of length m, at most one. *)
Lemma jones_phi m : (0 <= m <= 1)%coqR -> let phi := (PI / 8 * (1 + cos (PI * m)))%coqR in
  (0 <= phi <= PI / 4)%coqR.
Proof.
move=> h phi; have := COS_bound (PI * m); have := PI_RGT_0; rewrite /phi => p [a b]; split; nra.
Qed.
Lemma abs2_unit t : abs2 (cexp (Ci * RtoC t)) = 1%coqR.
Proof. by rewrite cexp_i /abs2 /=; have := sin2_cos2 t; rewrite /Rsqr; lra. Qed.
Definition unit_x (x : C) m : C := if isclose0 m then RtoC (1 / sqrt 2)%coqR else x / RtoC m.
Lemma jones_abs2 x y m : let j := jones_vector x y m in
  let a := unit_x x m in let b := unit_x y m in
  let phi := (PI / 8 * (1 + cos (PI * m)))%coqR in
  (abs2 j.1 + abs2 j.2 = abs2 a + abs2 b + 4 * (cos phi * sin phi) * im (b * Cconj a)%R)%coqR.
Proof.
move=> j a b phi.
have -> : j = let u := cexp (Ci * RtoC (angle (a + Ci * b))) in
  (u * (a * RtoC (cos phi) - b * Ci * RtoC (sin phi)), u * (b * RtoC (cos phi) + a * Ci * RtoC (sin phi))).
  by rewrite /j /a /b /phi /jones_vector /unit_x; case: (isclose0 m).
cbn [fst snd]; rewrite !abs2M abs2_unit; have := sin2_cos2 phi; rewrite /Rsqr.
move: (sin phi) (cos phi) => s c e.
rewrite /abs2 !reimE /=; move: (re a) (im a) (re b) (im b) => p q r t.
have {}e : (c * c = 1 - s * s)%coqR by lra.
set L := (X in X = _); set R := (X in _ = X).
have -> : L = ((p * p + q * q + r * r + t * t) * (c * c + s * s) + 4 * (c * s) * (t * p - r * q))%coqR by rewrite /L; ring.
by rewrite e /R; ring.
Qed.

Lemma unit_abs2 x y m : vector_length x y = m -> (abs2 (unit_x x m) + abs2 (unit_x y m) = 1)%coqR.
Proof.
move=> e; have m0 : (0 <= m)%coqR by rewrite -e; exact: length_ge0.
rewrite /unit_x; case: isclose0P => // h.
  have s2 := sqrt_sqrt 2 ltac:(lra); have sp := sqrt_lt_R0 2 ltac:(lra).
  rewrite /abs2 !reimE; apply: (Rmult_eq_reg_r (sqrt 2 * sqrt 2)%coqR); last by nra.
  by field_simplify; [nra|lra].
have t0 := tolerance_gt0; have mp : (0 < m)%coqR by lra.
by rewrite -length_sqr length_div // e; field; lra.
Qed.
Lemma half_sin_bound phi : (0 <= phi <= PI / 4)%coqR -> (0 <= 2 * (cos phi * sin phi) <= 1)%coqR.
Proof.
move=> h; have -> : (2 * (cos phi * sin phi) = sin (2 * phi))%coqR by rewrite sin_2a; ring.
have [_ b] := SIN_bound (2 * phi); split=> //.
by apply: sin_ge_0; have := PI_RGT_0; lra.
Qed.
(** The Jones vector of a field value: its length is between zero and the square root of two in
    general, and one exactly for components without relative phase, such as real fields. *)
Theorem C39_jones nx ny (v : vfield nx ny) i j :
  let w := normalize_jones v in
  (length_at w i j <= sqrt 2)%coqR /\
  (in_phase (v.1 i j) (v.2 i j) -> length_at w i j = 1%coqR).
Proof.
move=> w; set v' := normalize v.
have l1 : (length_at v' i j <= 1)%coqR by have [s [_ _ h _ _]] := C39_normalize v; exact: h.
have l0 : (0 <= length_at v' i j)%coqR by exact: length_ge0.
have wE : (w.1 i j, w.2 i j) = jones_vector (v'.1 i j) (v'.2 i j) (length_at v' i j).
  rewrite /w /normalize_jones -/v' /vmap; cbn [fst snd]; rewrite [X in (X, _)]mxE [X in (_, X)]mxE magnitudeE.
  by rewrite -surjective_pairing.
have a2 := jones_abs2 (v'.1 i j) (v'.2 i j) (length_at v' i j).
rewrite -wE in a2; cbn [fst snd] in a2.
have u1 := unit_abs2 (erefl (length_at v' i j)); rewrite u1 in a2.
have [p0 p1] := jones_phi (conj l0 l1).
set phi := (PI / 8 * _)%coqR in a2 p0 p1; have [s0 s1] := half_sin_bound (conj p0 p1).
set a := unit_x (v'.1 i j) (length_at v' i j) in a2 u1; set b := unit_x (v'.2 i j) (length_at v' i j) in a2 u1.
split.
  rewrite /length_at lengthE; apply: sqrt_le_1; [|lra|].
    by have := abs2_ge0 (w.1 i j); have := abs2_ge0 (w.2 i j); lra.
  rewrite a2; have hb : (im (b * Cconj a)%R <= 1 / 2)%coqR.
    move: u1; rewrite /abs2 !reimE; move: (re a) (im a) (re b) (im b) => p q r t u1.
    by have := Rle_0_sqr (t - p); have := Rle_0_sqr (r + q); rewrite /Rsqr; lra.
  move: hb; move: (im _) => y hb.
  have -> : (4 * (cos phi * sin phi) = 2 * (2 * (cos phi * sin phi)))%coqR by ring.
  move: (2 * (cos phi * sin phi))%coqR s0 s1 => x s0 s1.
  by have := Rmult_le_compat_l x _ _ s0 hb; lra.
move=> [u [x [y [ex ey]]]]; rewrite /length_at; apply: length_eq; first lra.
rewrite a2; suff -> : im (b * Cconj a) = 0%coqR by lra.
have [e1 e2] := normalizeE v i j; rewrite -/v' ex ey in e1 e2.
rewrite /b /a /unit_x; case: ifP => _; first by rewrite !reimE; ring.
have s0' := norm_factor_gt0 v.
have [m0|mp] : length_at v' i j = 0%coqR \/ length_at v' i j <> 0%coqR.
  by case: (Req_dec (length_at v' i j) 0); [left|right].
  by rewrite m0 invr0 !mulr0 !reimE; ring.
rewrite e1 e2 -!RtoC_inv //; last lra.
by rewrite !reimE; ring.
Qed.
(** Where the field is longest the Jones vector is the field itself up to a phase; where it
    vanishes the Jones vector is circular. *)
Theorem C39_jones_ends nx ny (v : vfield nx ny) i j :
  let w := normalize_jones v in
  (length_at (normalize v) i j = 1%coqR -> exists u, Cmod u = 1%coqR /\
     w.1 i j = u * (normalize v).1 i j /\ w.2 i j = u * (normalize v).2 i j) /\
  (length_at v i j = 0%coqR -> Cmod (w.1 i j) = (/ sqrt 2)%coqR /\ w.2 i j = Ci * w.1 i j).
Proof.
move=> w; set v' := normalize v.
have wE : (w.1 i j, w.2 i j) = jones_vector (v'.1 i j) (v'.2 i j) (length_at v' i j).
  rewrite /w /normalize_jones -/v' /vmap; cbn [fst snd]; rewrite [X in (X, _)]mxE [X in (_, X)]mxE magnitudeE.
  by rewrite -surjective_pairing.
split=> [l1|l0].
- move: wE; rewrite l1 /jones_vector.
  have -> : isclose0 1 = false by apply/isclose0P; [lra|have := tolerance_lt1; lra].
  have -> : (PI / 8 * (1 + cos (PI * 1)) = 0)%coqR by rewrite Rmult_1_r cos_PI; ring.
  rewrite cos_0 sin_0 -[RtoC 1]/(1 : C) -[RtoC 0]/(0 : C) !mulr0 subr0 addr0 !mulr1 !divr1 => -[-> ->].
  eexists; split; last by split; reflexivity.
  by rewrite CmodE abs2_unit sqrt_1.
have l0' : length_at v' i j = 0%coqR by rewrite /v' normalize_length l0 /Rdiv Rmult_0_l.
move: wE; rewrite l0' /jones_vector.
have -> : isclose0 0 = true by apply/isclose0P; [lra|have := tolerance_gt0; lra].
have -> : (PI / 8 * (1 + cos (PI * 0)) = PI / 4)%coqR by rewrite Rmult_0_r cos_0; field.
have sp := sqrt_lt_R0 2 ltac:(lra); have s2 := sqrt_sqrt 2 ltac:(lra).
rewrite cos_PI4 sin_PI4; set u := cexp _; move=> [-> ->].
have -> : (RtoC (1 / sqrt 2) * RtoC (1 / sqrt 2) - RtoC (1 / sqrt 2) * Ci * RtoC (1 / sqrt 2)) = RtoC (/ 2) * (1 - Ci) :> C.
  by Creim; field_simplify; try lra; apply: (Rmult_eq_reg_r (sqrt 2 * sqrt 2)%coqR); try nra; field_simplify; try nra; lra.
have -> : (RtoC (1 / sqrt 2) * RtoC (1 / sqrt 2) + RtoC (1 / sqrt 2) * Ci * RtoC (1 / sqrt 2)) = RtoC (/ 2) * (1 + Ci) :> C.
  by Creim; field_simplify; try lra; apply: (Rmult_eq_reg_r (sqrt 2 * sqrt 2)%coqR); try nra; field_simplify; try nra; lra.
split; last first.
  have -> : 1 + Ci = Ci * (1 - Ci) :> C by Creim; ring.
  by rewrite [RtoC _ * (Ci * _)]mulrCA [u * (Ci * _)]mulrCA.
rewrite CmodE !abs2M abs2_unit -[RHS]sqrt_square; last by left; exact: Rinv_0_lt_compat.
have i2 : (/ sqrt 2 * / sqrt 2 = / 2)%coqR by rewrite -Rinv_mult s2.
congr sqrt; rewrite i2 /abs2 !reimE; lra.
Qed.

(** A field with a quarter-period delay between its components, scaled to half the largest
    length, does not get unit length: the Jones "normalisation" only normalises real fields. *)
Definition delayed : vfield 1 2 :=
  (\matrix_(i, j) (if j == 0 then 1 else RtoC (3 / 10)), \matrix_(i, j) (if j == 0 then 0 else Ci * RtoC (4 / 10))).
Lemma delayed_lengths : length_at delayed 0 0 = 1%coqR /\ length_at delayed 0 1 = (1 / 2)%coqR.
Proof.
split; rewrite /length_at; apply: length_eq; rewrite ?mxE /=; first lra; first by rewrite /abs2 !reimE; lra.
  lra.
by rewrite /abs2 !reimE; lra.
Qed.
Lemma ord2P (j : 'I_2) : j = 0 \/ j = 1.
Proof. by case: j => [[|[|m]]] h //; [left|right]; exact: val_inj. Qed.
Lemma delayed_factor : norm_factor delayed = 1%coqR.
Proof.
have [l0 l1] := delayed_lengths.
have m : max_field_magnitude delayed = 1%coqR.
  have h0 := max_ge delayed 0 0; rewrite l0 in h0.
  have [|i [j e]] := @max_attained _ _ delayed; first lra.
  rewrite -e; have := max_ge delayed i j; rewrite ord1 in e *; case: (ord2P j) e => -> e _ //.
  by rewrite e in l1; lra.
by rewrite /norm_factor m; case: ifP.
Qed.
Theorem C39_jones_unit_refuted : ~ (forall nx ny (v : vfield nx ny) i j, length_at (normalize_jones v) i j = 1%coqR).
Proof.
move=> /(_ _ _ delayed 0 1); rewrite /length_at.
set w := normalize_jones delayed; set v' := normalize delayed.
have [n1 n2] := normalizeE delayed 0 1; rewrite delayed_factor -[RtoC 1]/(1 : C) !divr1 in n1 n2.
have l1 : length_at v' 0 1 = (1 / 2)%coqR by rewrite normalize_length delayed_factor (proj2 delayed_lengths); field.
have wE : (w.1 0 1, w.2 0 1) = jones_vector (v'.1 0 1) (v'.2 0 1) (1 / 2).
  rewrite /w /normalize_jones -/v' /vmap; cbn [fst snd]; rewrite [X in (X, _)]mxE [X in (_, X)]mxE magnitudeE l1.
  by rewrite -surjective_pairing.
have := jones_abs2 (v'.1 0 1) (v'.2 0 1) (1 / 2); rewrite -wE; cbn [fst snd].
rewrite (unit_abs2 l1) lengthE => -> h.
have {}h : (4 * (cos (PI / 8 * (1 + cos (PI * (1 / 2)))) * sin (PI / 8 * (1 + cos (PI * (1 / 2)))))
  * im (unit_x (v'.2 0%R 1%R) (1 / 2) * Cconj (unit_x (v'.1 0%R 1%R) (1 / 2)))%R = 0)%coqR.
  move: h; set z := (_ * im _)%coqR => h.
  have [z0|z0] : (0 <= 1 + z)%coqR \/ (1 + z < 0)%coqR by lra.
    by have := sqrt_sqrt (1 + z) z0; rewrite h; lra.
  by move: h; rewrite sqrt_neg_0; lra.
have e : isclose0 (1 / 2) = false.
  by apply/isclose0P; [lra|rewrite /tolerance; lra].
move: h; rewrite /unit_x e n1 n2 !mxE -RtoC_inv; last lra.
rewrite /=.
have -> : (PI * (1 / 2) = PI / 2)%coqR by field.
rewrite cos_PI2 Rplus_0_r Rmult_1_r.
have -> : (4 * (cos (PI / 8) * sin (PI / 8)) = 2 * sin (PI / 4))%coqR.
  have -> : (PI / 4 = 2 * (PI / 8))%coqR by field.
  by rewrite sin_2a; ring.
have : (0 < sin (PI / 4))%coqR by apply: sin_gt_0; have := PI_RGT_0; lra.
by move: (sin _) => s; lra.
Qed.

Example ex_C39 : exists v : vfield 1 2, (tolerance < length_at v 0%R 0%R)%coqR /\ in_phase (v.1 0 0) (v.2 0 0) /\
  length_at (normalize v) 0 0 = 1%coqR.
Proof.
exists delayed; have [l0 l1] := delayed_lengths; split; first by rewrite l0; exact: tolerance_lt1.
split; first by exists 1, 1%coqR, 0%coqR; rewrite !mxE /= -[RtoC 1]/(1 : C) -[RtoC 0]/(0 : C) mulr1 mulr0.
by rewrite normalize_length l0 delayed_factor; field.
Qed.
Print Assumptions C39_normalize.
Print Assumptions C39_elementwise.
Print Assumptions C39_jones.
Print Assumptions C39_jones_ends.
Print Assumptions C39_jones_unit_refuted.

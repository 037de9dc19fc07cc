(** Lemmas: the directions of vector fields, and fields that are one-dimensional. *)
From Coq Require Import Reals ZArith Lra Lia.
From mathcomp Require Import all_ssreflect all_algebra.
From Verif Require Import CField Err LinAlg Tac M_utils M_basis M_fft M_fmm_matrices M_fmm M_fields M_nd M_farfield M_vector.
From Verif Require Import S_fft S_farfield S_vector L_vector P_angles.
Set Implicit Arguments. Unset Strict Implicit. Unset Printing Implicit Defensive.
Import GRing.Theory.
Local Open Scope ring_scope.

Lemma cargP z : (- PI < carg z <= PI)%coqR /\
  exists2 r, (0 <= r)%coqR & (re z = r * cos (carg z) /\ im z = r * sin (carg z))%coqR.
Proof.
have [h1 [r [r0 [e1 e2] _]]] := atan2P (re z) (im z).
by split=> //; exists r.
Qed.
Lemma angle_bound z : (- PI < angle z <= PI)%coqR.
Proof. by rewrite /angle; have [] := cargP (if isclose0C z then 1 else z). Qed.
Lemma angleP z : (tolerance < Cmod z)%coqR -> exists2 r, (0 < r)%coqR & (re z = r * cos (angle z) /\ im z = r * sin (angle z))%coqR.
Proof.
move=> h; have z0 : isclose0C z = false.
  by rewrite /isclose0C; apply/isclose0P; [exact: Cmod_ge0|lra].
rewrite /angle z0; have [_ [r r0 [e1 e2]]] := cargP z; exists r => //.
case: r0 => // r0; move: h; rewrite CmodE /abs2 e1 e2 -r0 !Rmult_0_l Rplus_0_r.
by rewrite sqrt_0; have := tolerance_gt0; lra.
Qed.

Definition field_angle nx ny (v : vfield nx ny) i j : R := angle (v.1 i j + Ci * v.2 i j).
(** The angle test of [is_1d_field]. *)
Definition same_line (a r : R) : bool :=
  [|| isclose (/ 100) a (r - 2 * PI)%coqR, isclose (/ 100) a (r - 1 * PI)%coqR, isclose (/ 100) a r,
      isclose (/ 100) a (r + 1 * PI)%coqR | isclose (/ 100) a (r + 2 * PI)%coqR].
Lemma is_1dE nx ny (v : vfield nx ny) : is_1d_field v =
  let r := angle ((field_at_max_magnitude v).1 + Ci * (field_at_max_magnitude v).2) in
  (all (fun p => isclose0 (field_magnitude v p.1 p.2) || same_line (field_angle v p.1 p.2) r) (grid_points nx ny)
   || (nx == 1%N) || (ny == 1%N), r).
Proof. by []. Qed.
Lemma sin_close a r x : isclose (/ 100) a (r + x)%coqR -> (Rabs x <= 2 * PI)%coqR -> (- PI < r <= PI)%coqR ->
  (sin x = 0)%coqR -> (sin (a - r) ^ 2 <= / 100)%coqR.
Proof.
rewrite /isclose; case: Rle_dec => // h _ hx hr sx.
have p4 : (PI <= 4)%coqR by exact: PI_4.
have pp := PI_RGT_0.
have h' : (Rabs (a - (r + x)) <= 1 / 50)%coqR.
  have : (Rabs (r + x) <= 12)%coqR by move: hx; split_Rabs; lra.
  by move: (Rabs (r + x)) h => y; lra.
have -> : (a - r = (a - (r + x)) + x)%coqR by ring.
move: (a - (r + x))%coqR h' => e he; rewrite sin_plus sx.
have c2 := sin2_cos2 x; have c3 : (cos x ^ 2 = 1)%coqR by rewrite /Rsqr sx in c2; lra.
have : (Rabs (sin e) <= 1 / 50)%coqR.
  have [e0|e0] := Rle_dec 0 e.
    have : (sin e <= e)%coqR by case: (Req_dec e 0) => [->|?]; [rewrite sin_0; lra|left; apply: sin_lt_x; lra].
    have : (0 <= sin e)%coqR by apply: sin_ge_0; [lra|move: he; split_Rabs; have := PI2_1; lra].
    by move: he; split_Rabs; lra.
  have : (sin (- e) <= - e)%coqR by left; apply: sin_lt_x; lra.
  have : (0 <= sin (- e))%coqR by apply: sin_ge_0; [lra|move: he; split_Rabs; have := PI2_1; lra].
  by rewrite sin_neg; move: he; split_Rabs; lra.
move: (sin e) => s hs; have -> : ((s * cos x + cos e * 0) ^ 2 = s ^ 2 * cos x ^ 2)%coqR by ring.
rewrite c3; have : (- (1 / 50) <= s <= 1 / 50)%coqR by move: hs; split_Rabs; lra.
by nra.
Qed.
Lemma same_line_sin a r : same_line a r -> (- PI < r <= PI)%coqR -> (sin (a - r) ^ 2 <= / 100)%coqR.
Proof.
have pp := PI_RGT_0; have s2 : (sin (2 * PI) = 0)%coqR by exact: sin_2PI.
move=> /or4P [h|h|h|/orP [h|h]] hr.
- by apply: (sin_close (x := (- (2 * PI))%coqR) h) => //; [split_Rabs; lra|rewrite sin_neg s2; ring].
- by apply: (sin_close (x := (- (1 * PI))%coqR) h) => //; [split_Rabs; lra|rewrite Rmult_1_l sin_neg sin_PI; ring].
- by apply: (sin_close (x := 0%coqR)) => //; [rewrite Rplus_0_r|split_Rabs; lra|exact: sin_0].
- by apply: (sin_close h) => //; [split_Rabs; lra|rewrite Rmult_1_l sin_PI].
- by apply: (sin_close h) => //; split_Rabs; lra.
Qed.
(** A field with two significant perpendicular vectors is not one-dimensional. *)
Lemma not_1d nx ny (v : vfield nx ny) i j i' j' : nx <> 1%N -> ny <> 1%N ->
  (tolerance < length_at v i j)%coqR -> (tolerance < length_at v i' j')%coqR ->
  cos (field_angle v i j - field_angle v i' j')%coqR = 0%coqR ->
  (is_1d_field v).1 = false.
Proof.
move=> /eqP /negbTE hx /eqP /negbTE hy l1 l2 hc; rewrite is_1dE; cbv zeta; set r := angle _; cbn [fst]; rewrite hx hy !orbF.
have rb : (- PI < r <= PI)%coqR := angle_bound _.
apply/negbTE/negP => /allP h.
have t a b : (tolerance < length_at v a b)%coqR -> (sin (field_angle v a b - r) ^ 2 <= / 100)%coqR.
  move=> l; have := h (a, b) (grid_pointsP _); cbn [fst snd]; rewrite magnitudeE => /orP [|s].
    by move=> /isclose0P; have := length_ge0 (v.1 a b) (v.2 a b); rewrite -/(length_at v a b) => g /(_ g); lra.
  exact: same_line_sin.
have := t _ _ l1; have := t _ _ l2; move: hc; move: (field_angle v i j) (field_angle v i' j') => a b.
have -> : (a - b = (a - r) - (b - r))%coqR by ring.
move: (a - r)%coqR (b - r)%coqR => {}a {}b; rewrite cos_minus.
have := sin2_cos2 a; have := sin2_cos2 b; rewrite /Rsqr; move: (sin a) (cos a) (sin b) (cos b) => sa ca sb cb ha hb e h1 h2.
have : (ca * ca * (cb * cb) = sa * sa * (sb * sb))%coqR.
  have -> : (ca * ca * (cb * cb) = (ca * cb + sa * sb) * (ca * cb - sa * sb) + sa * sa * (sb * sb))%coqR by ring.
  by rewrite e; ring.
have : (99 / 100 <= ca * ca)%coqR by nra.
have : (99 / 100 <= cb * cb)%coqR by nra.
have : (sa * sa <= / 100)%coqR by nra.
have : (sb * sb <= / 100)%coqR by nra.
have := Rle_0_sqr sa; have := Rle_0_sqr sb; rewrite /Rsqr.
by move: (ca * ca)%coqR (cb * cb)%coqR (sa * sa)%coqR (sb * sb)%coqR => p q s u; nra.
Qed.
(** Perpendicular real vectors. *)
Lemma perpendicular nx ny (v : vfield nx ny) i j i' j' x y x' y' :
  (v.1 i j = RtoC x) * (v.2 i j = RtoC y) * (v.1 i' j' = RtoC x') * (v.2 i' j' = RtoC y') ->
  (tolerance < length_at v i j)%coqR -> (tolerance < length_at v i' j')%coqR -> (x * x' + y * y' = 0)%coqR ->
  cos (field_angle v i j - field_angle v i' j')%coqR = 0%coqR.
Proof.
move=> e; rewrite /field_angle /length_at !e => l1 l2 h.
have cz (a b : R) : Cmod (RtoC a + Ci * RtoC b) = vector_length (RtoC a) (RtoC b).
  by rewrite CmodE lengthE; congr sqrt; rewrite /abs2 !reimE; ring.
have [r r0 [e1 e2]] := @angleP (RtoC x + Ci * RtoC y) ltac:(by rewrite cz).
have [s s0 [e3 e4]] := @angleP (RtoC x' + Ci * RtoC y') ltac:(by rewrite cz).
move: (angle (RtoC x + _)) (angle (RtoC x' + _)) e1 e2 e3 e4 => a b; rewrite !reimE => e1 e2 e3 e4.
rewrite cos_minus.
have {}h : (r * s * (cos a * cos b + sin a * sin b) = 0)%coqR.
  transitivity ((r * cos a) * (s * cos b) + (r * sin a) * (s * sin b))%coqR; first by ring.
  by rewrite -e1 -e2 -e3 -e4 -h; ring.
have : (0 < r * s)%coqR by exact: Rmult_lt_0_compat.
by move: h => /Rmult_integral [] //; lra.
Qed.

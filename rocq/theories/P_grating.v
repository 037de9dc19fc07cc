(** C40, C50: invariances of tangent fields, and the tangent fields of gratings. *)
From Coq Require Import Reals ZArith Lra Lia.
From mathcomp Require Import all_ssreflect all_algebra.
From Verif Require Import CField Err LinAlg Tac M_utils M_basis M_fft M_fmm_matrices M_fmm M_fields M_nd M_farfield M_vector.
From Verif Require Import S_fft S_fields S_basis S_vector S_scale L_scattering L_fft L_fields L_basis L_flux P_fft P_flux P_fmm L_vector P_vector L_newton L_loss L_direction P_tangent.
Set Implicit Arguments. Unset Strict Implicit. Unset Printing Implicit Defensive.
Import GRing.Theory.
Local Open Scope ring_scope.

(** ** Angles of parallel vectors *)
Lemma angle_uniq x y : (- PI < x <= PI)%coqR -> (- PI < y <= PI)%coqR -> cos x = cos y -> sin x = sin y -> x = y.
Proof.
move=> hx hy ec es; have h : (cos (2 * ((x - y) / 2)) = 1)%coqR.
  have -> : (2 * ((x - y) / 2) = x - y)%coqR by field.
  by rewrite cos_minus ec es; have := sin2_cos2 y; rewrite /Rsqr; lra.
have {h} : (sin ((x - y) / 2) = 0)%coqR.
  move: h; rewrite cos_2a_sin; move: (sin _) => s h; nra.
have [d|[d|d]] : (0 < (x - y) / 2 \/ (x - y) / 2 < 0 \/ x = y)%coqR by lra.
- by have := sin_gt_0 ((x - y) / 2) d ltac:(lra); lra.
- have := sin_gt_0 (- ((x - y) / 2)) ltac:(lra) ltac:(lra); rewrite sin_neg; lra.
- by [].
Qed.
Lemma isclose_refl (x : R) : isclose (/ 100) x x.
Proof.
rewrite /isclose Rminus_eq_0 Rabs_R0; case: Rle_dec => //= h; case: h.
by have := Rabs_pos x; lra.
Qed.
Lemma Cmod_along (c a b : R) : (a * a + b * b = 1)%coqR -> Cmod (RtoC (c * a) + Ci * RtoC (c * b)) = Rabs c.
Proof.
move=> h; rewrite CmodE -sqrt_Rsqr_abs; congr sqrt; rewrite /abs2 !reimE /Rsqr.
transitivity (c * c * (a * a + b * b))%coqR; last by rewrite h; ring.
by ring.
Qed.
Lemma length_along (c a b : R) : (a * a + b * b = 1)%coqR -> vector_length (RtoC (c * a)) (RtoC (c * b)) = Rabs c.
Proof.
move=> h; rewrite lengthE -sqrt_Rsqr_abs; congr sqrt; rewrite /abs2 !reimE /Rsqr.
transitivity (c * c * (a * a + b * b))%coqR; last by rewrite h; ring.
by ring.
Qed.
Lemma angle_along (c a b : R) : (a * a + b * b = 1)%coqR -> (tolerance < Rabs c)%coqR ->
  exists2 s, (s = 1 \/ s = -1)%coqR & (let t := angle (RtoC (c * a) + Ci * RtoC (c * b))%R in cos t = s * a /\ sin t = s * b)%coqR.
Proof.
move=> h hc; have [r r0 [e1 e2]] := @angleP (RtoC (c * a) + Ci * RtoC (c * b)) ltac:(by rewrite Cmod_along).
exists (c / r)%coqR; cbv zeta; move: (angle _) e1 e2 => t; rewrite !reimE => e1 e2; last first.
  have {}e1 : (c * a = r * cos t)%coqR by lra.
  have {}e2 : (c * b = r * sin t)%coqR by lra.
  by split; apply: (Rmult_eq_reg_l r); try lra; rewrite -?e1 -?e2; field; lra.
have e : (r * r = c * c)%coqR.
  have -> : (c * c = (c * a) * (c * a) + (c * b) * (c * b))%coqR by rewrite -[LHS]Rmult_1_r -h; ring.
  have {}e1 : (c * a = r * cos t)%coqR by lra.
  have {}e2 : (c * b = r * sin t)%coqR by lra.
  rewrite e1 e2; have := sin2_cos2 t; rewrite /Rsqr => q.
  by rewrite -[LHS]Rmult_1_r -q; ring.
have [->|->] : (c = r \/ c = - r)%coqR by nra.
  by left; field; lra.
by right; field; lra.
Qed.
Lemma same_line_opposite t r : (- PI < t <= PI)%coqR -> (- PI < r <= PI)%coqR ->
  (cos t = cos r /\ sin t = sin r \/ cos t = - cos r /\ sin t = - sin r)%coqR -> same_line t r.
Proof.
move=> ht hr [[hc hs]|[hc hs]]; rewrite /same_line.
  by rewrite (angle_uniq ht hr hc hs) isclose_refl !orbT.
have pp := PI_RGT_0; have [r0|r0] := Rle_dec r 0.
  have e : t = (r + 1 * PI)%coqR.
    by apply: angle_uniq => //; [lra|rewrite Rmult_1_l neg_cos|rewrite Rmult_1_l neg_sin].
  by rewrite {4}e isclose_refl !orbT.
have e : t = (r - 1 * PI)%coqR.
  apply: angle_uniq => //; [lra| |].
    by rewrite Rmult_1_l cos_minus cos_PI sin_PI hc; ring.
  by rewrite Rmult_1_l sin_minus cos_PI sin_PI hs; ring.
by rewrite {2}e isclose_refl !orbT.
Qed.

(** ** Fields along one direction *)
Lemma max_reference nx ny (v : vfield nx ny) : (0 < max_field_magnitude v)%coqR ->
  exists i j, field_at_max_magnitude v = (v.1 i j, v.2 i j) /\ length_at v i j = max_field_magnitude v.
Proof.
move=> h; have [i [j e]] := max_attained h.
set P := fun p : 'I_nx * 'I_ny => field_magnitude v p.1 p.2 == max_field_magnitude v.
have hP : has P (grid_points nx ny) by apply/hasP; exists (i, j); [exact: grid_pointsP|rewrite /P magnitudeE e].
have lt : (find P (grid_points nx ny) < size (grid_points nx ny))%N by rewrite -has_find.
have := nth_find (i, j) hP; set p := nth _ _ _ => /eqP hp.
exists p.1, p.2; rewrite -[length_at _ _ _]magnitudeE hp; split=> //.
by rewrite /field_at_max_magnitude -/P (nth_map (i, j)).
Qed.
Lemma reference_cases nx ny (v : vfield nx ny) :
  field_at_max_magnitude v = (0, 0) \/ exists i j, field_at_max_magnitude v = (v.1 i j, v.2 i j).
Proof.
rewrite /field_at_max_magnitude; move: (find _ _) => k; have [h|h] := ltnP k (size (grid_points nx ny)).
  move: h; case: (grid_points nx ny) => [|p0 s] // h; right; rewrite (nth_map p0) //.
  by exists (nth p0 (p0 :: s) k).1, (nth p0 (p0 :: s) k).2.
by left; rewrite nth_default // size_map.
Qed.
Lemma angle_small z : (Cmod z <= tolerance)%coqR -> angle z = 0%coqR.
Proof.
move=> h; rewrite /angle /isclose0C; have -> : isclose0 (Cmod z) by apply/isclose0P => //; exact: Cmod_ge0.
rewrite /carg /atan2; cbn [re im fst snd]; case: Rlt_dec => h'; cbn [is_left]; last by case: h'; exact: Rlt_0_1.
by rewrite /Rdiv Rmult_0_l atan_0.
Qed.
(** Every vector of the field is a real multiple of [(a, b)]. *)
Definition along nx ny (v : vfield nx ny) (a b : R) := forall i j, exists c : R, v.1 i j = RtoC (c * a) /\ v.2 i j = RtoC (c * b).
Lemma along_1d nx ny (v : vfield nx ny) (a b : R) : (a * a + b * b = 1)%coqR -> along v a b ->
  exists t, is_1d_field v = (true, t) /\
  ((exists i j, (tolerance < length_at v i j)%coqR) -> exists2 s, (s = 1 \/ s = -1)%coqR & (cos t = s * a /\ sin t = s * b)%coqR) /\
  ((forall i j, (length_at v i j <= tolerance)%coqR) -> t = 0%coqR).
Proof.
move=> h hv; rewrite is_1dE; cbv zeta; set t := angle _; exists t.
have tb : (- PI < t <= PI)%coqR := angle_bound _.
have [m|m] := Rlt_dec tolerance (max_field_magnitude v).
  have [|i0 [j0 [e0 l0]]] := @max_reference _ _ v; first by have := tolerance_gt0; lra.
  have [c0 [x0 y0]] := hv i0 j0.
  have [|s hs] := @angle_along c0 _ _ h; first by rewrite -(length_along c0 h) -x0 -y0 -/(length_at v i0 j0) l0.
  rewrite -x0 -y0 => et.
  have tE : t = angle (v.1 i0 j0 + Ci * v.2 i0 j0) by rewrite /t e0.
  rewrite -tE in et; split; last by split; [exists s|move=> /(_ i0 j0); rewrite l0; lra].
  congr pair; apply/orP; left; apply/orP; left; apply/allP => -[i j] _; cbn [fst snd]; rewrite magnitudeE.
  case: isclose0P => [|//|l]; first exact: length_ge0.
  have [c [x y]] := hv i j.
  have [|s' hs'] := @angle_along c _ _ h; first by rewrite -(length_along c h) -x -y; apply: Rnot_le_lt.
  rewrite -x -y -/(field_angle v i j) => et'; apply: same_line_opposite => //; first exact: angle_bound.
  case: et' et => [-> ->] [-> ->].
  by case: hs => ->; case: hs' => ->; [left|right|right|left]; split; ring.
split; last split; last first.
- move=> _; rewrite /t; have [->|[i [j ->]]] := reference_cases v; cbn [fst snd].
    by apply: angle_small; rewrite mulr0 addr0 -[0 : C]/(RtoC 0) Cmod_RC Rabs_R0; have := tolerance_gt0; lra.
  have [c [x y]] := hv i j; rewrite x y; apply: angle_small; rewrite Cmod_along //.
  by rewrite -(length_along c h) -x -y; have := max_ge v i j; rewrite /length_at; lra.
- by move=> [i [j l]]; have := max_ge v i j; lra.
congr pair; apply/orP; left; apply/orP; left; apply/allP => -[i j] _; cbn [fst snd]; rewrite magnitudeE.
by apply/orP; left; apply/isclose0P; [exact: length_ge0|have := max_ge v i j; lra].
Qed.

(** ** The tangent field of a grating *)
Lemma tangent_1dE nx ny n (arr : 'M[C]_(nx, ny)) (expn : n.-tuple (Z * Z)) l jones fw sw steps grad gx gy t :
  n <> 0%N -> distinct expn -> resolves nx ny expn -> nondegenerate l -> compute_gradient arr l = Val grad ->
  filter_and_adjust_resolution grad.1 expn = Val gx -> filter_and_adjust_resolution grad.2 expn = Val gy ->
  is_1d_field (normalize (gx, gy)) = (true, t) ->
  compute_tangent_field arr expn l jones fw sw steps = Val (normalize (const_mx (RtoC (sin t)), const_mx (RtoC (cos t)))).
Proof.
move=> n0 hd hr hn h1 h2 h3 h4; have /eqP n0' := n0; rewrite /compute_tangent_field n0' /check h1 bindE h2 bindE h3 bindE h4.
have hr2 : resolves (doubled_shape nx ny expn).1 (doubled_shape nx ny expn).2 expn by exact: doubled_resolves.
rewrite fft_fieldE // bindE.
have [B hB] := basis_total hn; have [rv hrv [FL hFL eFL]] := fourier_lossE expn hB.
by rewrite (field_lossE n0 hr2 hd hB _ _ _ _ _ hFL) bindE (validV n0 hr).
Qed.
Lemma constant_unit nx ny (x y : R) : (x * x + y * y = 1)%coqR ->
  normalize (const_mx (RtoC x), const_mx (RtoC y)) = (const_mx (RtoC x), const_mx (RtoC y)) :> vfield nx ny.
Proof.
move=> h; set v := (_, _) : vfield nx ny.
have lv i j : length_at v i j = 1%coqR.
  by rewrite /length_at !mxE; apply: length_eq; [lra|rewrite /abs2 !reimE; lra].
have nf (i : 'I_nx) (j : 'I_ny) : norm_factor v = 1%coqR.
  have h0 := max_ge v i j; rewrite lv in h0.
  have [|i' [j' e]] := @max_attained _ _ v; first lra.
  by rewrite /norm_factor -e lv; case: ifP.
have [e1 e2] : (forall i j, (normalize v).1 i j = v.1 i j) /\ (forall i j, (normalize v).2 i j = v.2 i j).
  by split=> i j; have [n1 n2] := normalizeE v i j; rewrite ?n1 ?n2 (nf i j) -[RtoC 1]/(1 : C) divr1.
rewrite [LHS]surjective_pairing; congr pair; apply/matrixP => i j; [exact: e1|exact: e2].
Qed.
(** If the filtered gradient is along the unit vector [(a, b)] everywhere, then the tangent field is
    constant: [(b, a)] or [- (b, a)] if the gradient is significant, [(0, 1)] otherwise. *)
Theorem C50_grating nx ny n (arr : 'M[C]_(nx, ny)) (expn : n.-tuple (Z * Z)) l jones fw sw steps grad (a b : R) :
  n <> 0%N -> distinct expn -> resolves nx ny expn -> nondegenerate l -> central_gradient l arr grad ->
  let w := field_series expn (field_coefficients grad expn) (doubled_shape nx ny expn).1 (doubled_shape nx ny expn).2 in
  (a * a + b * b = 1)%coqR -> along w a b ->
  ((exists i j, (tolerance < length_at w i j)%coqR) -> exists2 s, (s = 1 \/ s = -1)%coqR &
     compute_tangent_field arr expn l jones fw sw steps = Val (const_mx (RtoC (s * b)), const_mx (RtoC (s * a)))) /\
  ((forall i j, (length_at w i j <= tolerance)%coqR) ->
     compute_tangent_field arr expn l jones fw sw steps = Val (const_mx 0, const_mx 1)).
Proof.
move=> n0 hd hr hn hg w h hw.
have [grad' hg'] := proj1 (C49_gradient arr l) hn.
have eg : grad' = grad by have [_ [k1 k2]] := C49_gradient arr l; apply: k2 => //; have [] := k1 _ hg'.
rewrite {}eg in hg'.
have k1 := filterE grad.1 n0 hd hr; have k2 := filterE grad.2 n0 hd hr.
have E t := tangent_1dE jones fw sw steps n0 hd hr hn hg' k1 k2 (t := t).
have wE : (fourier_series expn (\col_i fourier_coefficient grad.1 (tnth expn i)) (doubled_shape nx ny expn).1 (doubled_shape nx ny expn).2,
       fourier_series expn (\col_i fourier_coefficient grad.2 (tnth expn i)) (doubled_shape nx ny expn).1 (doubled_shape nx ny expn).2) = w.
  by rewrite /w /field_series !field_coefficients_col.
rewrite {}wE in E; have f0 := norm_factor_gt0 w.
have hv : along (normalize w) a b.
  move=> i j; have [c [e1 e2]] := hw i j; exists (c / norm_factor w)%coqR; have [-> ->] := normalizeE w i j.
  have d (x : R) : RtoC x / RtoC (norm_factor w) = RtoC (x / norm_factor w).
    by rewrite -RtoC_inv -?rmorphM //=; lra.
  by rewrite e1 e2 !d; split; congr RtoC; rewrite /Rdiv; ring.
have [t [ht [h1 h2]]] := along_1d h hv; rewrite (E t ht).
split=> [[i [j l1]]|l0].
  have mw := max_ge w i j.
  have [|s hs [ec es]] := h1.
    have [|i' [j' e]] := @max_attained _ _ w; first by have := tolerance_gt0; lra.
    exists i', j'; rewrite normalize_length e /norm_factor.
    case: (isclose0P (max_ge0 w)) => [|_]; first lra.
    rewrite /Rdiv Rinv_r; last by have := tolerance_gt0; lra.
    exact: tolerance_lt1.
  exists s => //; rewrite ec es constant_unit //.
  have -> : (s * b * (s * b) + s * a * (s * a) = s * s * (a * a + b * b))%coqR by ring.
  by rewrite h; case: hs => ->; lra.
have nf : norm_factor w = 1%coqR.
  rewrite /norm_factor; case: (isclose0P (max_ge0 w)) => // m.
  have [|i' [j' e]] := @max_attained _ _ w; first by have := tolerance_gt0; lra.
  by have := l0 i' j'; lra.
rewrite h2; last by move=> i j; rewrite normalize_length nf /Rdiv Rinv_1 Rmult_1_r.
by rewrite sin_0 cos_0 constant_unit //; lra.
Qed.
(** The tangent field of a grating has unit length, and is perpendicular to the gradient if the
    gradient is along one of the coordinate axes. *)
Corollary C50_axes nx ny n (arr : 'M[C]_(nx, ny)) (expn : n.-tuple (Z * Z)) l jones fw sw steps grad (a b : R) :
  n <> 0%N -> distinct expn -> resolves nx ny expn -> nondegenerate l -> central_gradient l arr grad ->
  let w := field_series expn (field_coefficients grad expn) (doubled_shape nx ny expn).1 (doubled_shape nx ny expn).2 in
  (a * a + b * b = 1)%coqR -> along w a b ->
  exists2 v, compute_tangent_field arr expn l jones fw sw steps = Val v &
  (forall i j, length_at v i j = 1%coqR) /\
  (a = 0%coqR \/ b = 0%coqR -> (exists i j, (tolerance < length_at w i j)%coqR) ->
   forall i j, RtoC a * v.1 i j + RtoC b * v.2 i j = 0).
Proof.
move=> n0 hd hr hn hg w h hw.
have [h1 h2] := C50_grating jones fw sw steps n0 hd hr hn hg h hw.
have [m|m] := Rlt_dec tolerance (max_field_magnitude w).
  have [|i0 [j0 e0]] := @max_attained _ _ w; first by have := tolerance_gt0; lra.
  have [|s hs ->] := h1; first by exists i0, j0; rewrite e0.
  eexists; first by []; split=> [i j|z _ i j].
    rewrite /length_at !mxE length_along; last lra.
    by case: hs => ->; split_Rabs; lra.
  by rewrite !mxE; case: z => ->; Creim; ring.
rewrite h2; last by move=> i j; rewrite -/w; have := max_ge w i j; lra.
eexists; first by []; split=> [i j|_ [i [j l1]]]; last by have := max_ge w i j; lra.
rewrite /length_at !mxE -[0 : C]/(RtoC 0) -[1 : C]/(RtoC 1); apply: length_eq; rewrite /abs2 ?reimE; lra.
Qed.

(** ** Gratings along other directions *)
Definition oblique : lattice := Lattice (1, 0)%coqR (1, 1)%coqR.
Definition ridge : 'M[C]_(3, 3) := \matrix_(i, j) RtoC (1 + 2 * cos (2 * PI * (INR i / 3))).
Definition ridge_coefficients : 'cV[C]_5 := \col_k (if (k < 3)%N then 1 else 0).
Lemma ridge_series : ridge = fourier_series cross ridge_coefficients 3 3.
Proof.
apply/matrixP => i j; rewrite cross_series !mxE /= !inordK //= !mul1r !mul0r !addr0 /wave !cexp_i.
have -> : (2 * PI * (-1 * INR i / INR 3) = - (2 * PI * (INR i / 3)))%coqR by rewrite /=; field.
have -> : (2 * PI * (1 * INR i / INR 3) = (2 * PI * (INR i / 3)))%coqR by rewrite /=; field.
by rewrite !cos_neg !sin_neg; Creim; ring.
Qed.
Lemma oblique_gradient gx gy du dv : gradient_of oblique gx gy du dv -> gx = du /\ gy = dv - du.
Proof.
have a : S_basis.cell_area oblique = 1%coqR by rewrite /S_basis.cell_area /cross_product /= -[RHS]Rabs_R1; f_equal; ring.
rewrite /gradient_of a sqrt_1 /= -[RtoC 1]/(1 : C) -[RtoC 0]/(0 : C) !mulr1 !mulr0 !mul1r addr0.
by case=> -> <-; rewrite addrC addKr.
Qed.
Lemma ridge_field g N1 N2 (i : 'I_N1) (j : 'I_N2) : (0 < N1)%N -> (0 < N2)%N -> central_gradient oblique ridge g ->
  let v := field_series cross (field_coefficients g cross) N1 N2 in
  v.1 i j = RtoC (- 6 * sin (PI / 3) * sin (2 * PI * (INR i / INR N1))) /\
  v.2 i j = RtoC (6 * sin (PI / 3) * sin (2 * PI * (INR i / INR N1))).
Proof.
move=> p1 p2 hg v.
set c1 := \col_k (RtoC (INR 3 * sin (2 * PI * (IZR (tnth cross k).1 / INR 3))) * Ci * ridge_coefficients k 0).
have [e1 e2] : g.1 = fourier_series cross c1 3 3 /\ g.2 = fourier_series cross (- c1) 3 3.
  split; apply/matrixP => a b; have [h1 h2] := oblique_gradient (hg a b);
    have [d1 _] := difference_series cross ridge_coefficients a b.
    by rewrite h1 ridge_series d1.
  rewrite h2 (_ : ridge a (next b) = ridge a (previous b)); last by rewrite !mxE.
  by rewrite subrr mulr0 sub0r ridge_series d1 !mxE -sumrN; apply: eq_bigr => k _; rewrite [X in _ = X * _]mxE mulNr.
have [hd hr _ _] := ex_C49.
have f1 : col 0 (field_coefficients g cross) = c1.
  by rewrite field_coefficients_col; apply/colP => k; rewrite mxE e1 coefficient_series.
have f2 : col 1 (field_coefficients g cross) = - c1.
  by rewrite field_coefficients_col; apply/colP => k; rewrite mxE e2 coefficient_series.
have sp : sin (2 * PI * (1 / INR 3))%coqR = sin (PI / 3)%coqR.
  have -> : (2 * PI * (1 / INR 3) = PI - PI / 3)%coqR by rewrite /=; field.
  by rewrite -sin_PI_x; f_equal; ring.
have sn : sin (2 * PI * (-1 / INR 3))%coqR = (- sin (PI / 3))%coqR.
  by rewrite -sp -sin_neg; f_equal; rewrite /=; field.
have s0 : sin (2 * PI * (0 / INR 3))%coqR = 0%coqR by rewrite /Rdiv Rmult_0_l Rmult_0_r sin_0.
have w N a : (0 < N)%N -> wave N 1 a - wave N (-1) a = RtoC (2 * sin (2 * PI * (INR a / INR N))) * Ci.
  move=> N0; have n0 : INR N <> 0%coqR by apply: not_0_INR; natlia.
  rewrite /wave !cexp_i.
  have -> : (2 * PI * (-1 * INR a / INR N) = - (2 * PI * (INR a / INR N)))%coqR by field.
  have -> : (2 * PI * (1 * INR a / INR N) = (2 * PI * (INR a / INR N)))%coqR by field.
  by rewrite cos_neg sin_neg; Creim; ring.
have v1 : v.1 i j = RtoC (- 6 * sin (PI / 3) * sin (2 * PI * (INR i / INR N1))).
  rewrite /v /field_series; cbn [fst]; rewrite f1 cross_series !mxE !(tnth_nth (0, 0)%coqZ) /= !inordK //= s0 sp sn.
  transitivity (RtoC (3 * sin (PI / 3)) * Ci * (wave N1 1 i - wave N1 (-1) i)); last first.
    by rewrite w //; move: (sin _) (sin _) => s t; Creim; ring.
  by move: (sin _) (wave N1 _ _) (wave N1 _ _) (wave N2 _ _) (wave N2 _ _) => s a b c d; Creim; ring.
split=> //; transitivity (- v.1 i j); last by rewrite v1; move: (sin _) (sin _) => s t; Creim; ring.
rewrite /v /field_series; cbn [fst snd]; rewrite f1 f2 !mxE -sumrN; apply: eq_bigr => k _.
by rewrite [X in X * _]mxE mulNr.
Qed.
Lemma ridge_along g N1 N2 : central_gradient oblique ridge g -> (0 < N1)%N -> (0 < N2)%N ->
  along (field_series cross (field_coefficients g cross) N1 N2) (sqrt 2 / 2) (- (sqrt 2 / 2)).
Proof.
have s2 : (sqrt 2 * sqrt 2 = 2)%coqR by apply: sqrt_sqrt; lra.
move=> hg p1 p2 i j; have [-> ->] := ridge_field i j p1 p2 hg.
  move: (sin _) (sin _) => s t; exists (- 6 * t * s * sqrt 2)%coqR.
  split; congr RtoC.
    by rewrite -[LHS]Rmult_1_r (_ : 1 = sqrt 2 * sqrt 2 / 2)%coqR; [field|rewrite s2; field].
  by rewrite -[LHS]Rmult_1_r (_ : 1 = sqrt 2 * sqrt 2 / 2)%coqR; [field|rewrite s2; field].
Qed.
Lemma ridge_significant g N1 N2 : central_gradient oblique ridge g -> N1 = 6%N -> N2 = 6%N -> exists i j, (tolerance < length_at (field_series cross (field_coefficients g cross) N1 N2) i j)%coqR.
Proof.
have q1 : (6 * sin (PI / 3) * sin (PI / 3) = 9 / 2)%coqR.
  by have := sin_pi3; move: (sin _) => s e; rewrite Rmult_assoc e; field.
move=> hg -> ->; exists 1%R, 0%R; rewrite /length_at; have [|//|-> ->] := @ridge_field g 6 6 1 0 _ _ hg; first by [].
  rewrite lengthE /abs2 !reimE.
  have -> : sin (2 * PI * (INR (1%R : 'I_6) / INR 6))%coqR = sin (PI / 3)%coqR by f_equal; rewrite /=; field.
  have -> : (-6 * sin (PI / 3) * sin (PI / 3) = - (9 / 2))%coqR by lra.
  rewrite q1; apply: Rlt_trans tolerance_lt1 _; rewrite -{1}sqrt_1; apply: sqrt_lt_1_alt; lra.
Qed.
Lemma oblique_nondegenerate : nondegenerate oblique.
Proof. by rewrite /nondegenerate /S_basis.cell_area /cross_product /= (_ : (1 * 1 - 0 * 1 = 1)%coqR) ?Rabs_R1; lra. Qed.
Example ex_C50 : exists g, central_gradient oblique ridge g /\
  let w := field_series cross (field_coefficients g cross) (doubled_shape 3 3 cross).1 (doubled_shape 3 3 cross).2 in
  along w (sqrt 2 / 2) (- (sqrt 2 / 2)) /\ exists i j, (tolerance < length_at w i j)%coqR.
Proof.
have [g hg'] := proj1 (C49_gradient ridge oblique) oblique_nondegenerate.
have [hg _] := proj1 (proj2 (C49_gradient ridge oblique)) _ hg'.
by exists g; split=> //; split; [apply: ridge_along|apply: ridge_significant].
Qed.
(** The claim that the tangent field of a grating is perpendicular to its gradient is false: on an
    oblique lattice the computed field can be parallel to it. *)
Theorem C50_perpendicular_refuted : ~ (forall nx ny n (arr : 'M[C]_(nx, ny)) (expn : n.-tuple (Z * Z)) l grad v,
  n <> 0%N -> distinct expn -> resolves nx ny expn -> nondegenerate l -> central_gradient l arr grad ->
  (forall i j, exists x : R, arr i j = RtoC x) -> (forall i j j', arr i j = arr i j') ->
  compute_tangent_field arr expn l false 0 1 1 = Val v ->
  forall i j, grad.1 i j * v.1 i j + grad.2 i j * v.2 i j = 0).
Proof.
move=> H; have [hd hr _ _] := ex_C49.
have hn : nondegenerate oblique.
  by rewrite /nondegenerate /S_basis.cell_area /cross_product /= (_ : (1 * 1 - 0 * 1 = 1)%coqR) ?Rabs_R1; lra.
have [g hg'] := proj1 (C49_gradient ridge oblique) hn; have [hg _] := proj1 (proj2 (C49_gradient ridge oblique)) _ hg'.
have s2 : (sqrt 2 * sqrt 2 = 2)%coqR by apply: sqrt_sqrt; lra.
have s0 : (0 < sqrt 2)%coqR by apply: sqrt_lt_R0; lra.
have ab : (sqrt 2 / 2 * (sqrt 2 / 2) + - (sqrt 2 / 2) * - (sqrt 2 / 2) = 1)%coqR by lra.
have N6 : doubled_shape 3 3 cross = (6, 6)%N by [].
have q1 : (6 * sin (PI / 3) * sin (PI / 3) = 9 / 2)%coqR.
  by have := sin_pi3; move: (sin _) => s e; rewrite Rmult_assoc e; field.
have al := fun N1 N2 => @ridge_along g N1 N2 hg; have sg := fun N1 N2 => @ridge_significant g N1 N2 hg.
have [K _] := C50_grating false 0 1 1 (n := 5) ltac:(by []) hd hr hn hg ab (al (doubled_shape 3 3 cross).1 (doubled_shape 3 3 cross).2 isT isT).
have [s hs hv] := K (sg _ _ erefl erefl).
have h1 : forall i j, exists x : R, ridge i j = RtoC x by move=> i j; rewrite mxE; eexists.
have h2 : forall i j j', ridge i j = ridge i j' by move=> i j j'; rewrite !mxE.
have := H _ _ _ ridge cross oblique g _ ltac:(by []) hd hr hn hg h1 h2 hv 1 0; rewrite !mxE.
have [e1 e2] : g.1 1 0 = RtoC (- (9 / 2)) /\ g.2 1 0 = RtoC (9 / 2).
  have [-> ->] := oblique_gradient (hg 1 0); rewrite !mxE.
  have -> : (2 * PI * (INR (next (1%R : 'I_3)) / 3) = PI / 3 + PI)%coqR by rewrite /=; field.
  have -> : (2 * PI * (INR (previous (1%R : 'I_3)) / 3) = 0)%coqR by rewrite /=; field.
  rewrite neg_cos cos_PI3 cos_0; have -> : INR 3 = 3%coqR by rewrite /=; ring.
  by split; Creim; field.
rewrite e1 e2 -!rmorphM -rmorphD => /(congr1 re) /=; rewrite RmulE RaddE ?RmulE.
by move: (sqrt 2) s0 => q q0; case: hs => ->; lra.
Qed.
Print Assumptions C50_grating.
Print Assumptions C50_axes.
Print Assumptions C50_perpendicular_refuted.

(** Proofs about lattices and expansions. *)
From Coq Require Import Reals ZArith Lra Lia.
From mathcomp Require Import all_ssreflect all_algebra.
From Verif Require Import CField Err LinAlg M_utils M_basis M_fft M_fmm_matrices M_fmm M_scattering M_fields M_expansion S_maxwell S_fields S_basis L_scattering L_fields.
Set Implicit Arguments. Unset Strict Implicit. Unset Printing Implicit Defensive.

Lemma areaP plv rv : reciprocal plv = Val rv ->
  let d := cross_product (lat_u plv) (lat_v plv) in
  [/\ d <> 0%coqR, lat_u rv = ((lat_v plv).2 / d, - (lat_v plv).1 / d)%coqR &
      lat_v rv = (- (lat_u plv).2 / d, (lat_u plv).1 / d)%coqR].
Proof.
move=> H d; move: H; rewrite /reciprocal => H; binv H r hr; have [/eqP nz e] := recipRV hr.
by case: H => <-; rewrite e.
Qed.
Lemma reciprocal_total plv : nondegenerate plv -> exists rv, reciprocal plv = Val rv.
Proof.
rewrite /nondegenerate /cell_area => h; rewrite /reciprocal /recipR; case: eqP => [e|_]; last by eexists.
by case: h; rewrite e Rabs_R0.
Qed.
Lemma reciprocal_nondegenerate plv rv : reciprocal plv = Val rv -> nondegenerate plv.
Proof. by case/areaP=> h _ _; exact: Rabs_no_R0. Qed.

(** The Bragg vector of an order. *)
Definition order_vector (rv : lattice) (o : Z * Z) : R * R :=
  (2 * PI * (IZR o.1 * (lat_u rv).1 + IZR o.2 * (lat_v rv).1),
   2 * PI * (IZR o.1 * (lat_u rv).2 + IZR o.2 * (lat_v rv).2))%coqR.
Lemma braggP plv rv o G : reciprocal plv = Val rv -> (bragg plv o G <-> G = order_vector rv o).
Proof.
move=> h; have [d0 eu ev] := areaP h; split=> [[h1 h2]|->]; last first.
  by have := @bragg_vectorP plv rv 1 [tuple of [:: o]] ord0 h; rewrite /bragg_vector (tnth_nth o).
move: h1 h2 d0; rewrite /order_vector eu ev /dot /cross_product /=.
case: G plv.(lat_u) plv.(lat_v) {h eu ev} => [g1 g2] [u1 u2] [v1 v2] /= h1 h2 d0.
have e x y : (2 * PI * (IZR o.1 * (x / (u1 * v2 - u2 * v1)) + IZR o.2 * (y / (u1 * v2 - u2 * v1))) =
   ((2 * PI * IZR o.1) * x + (2 * PI * IZR o.2) * y) / (u1 * v2 - u2 * v1))%coqR by field.
by rewrite !e -h1 -h2; congr pair; field.
Qed.
Lemma magnitude2 rv o : ((2 * PI) ^ 2 * (vector_magnitude rv o) ^ 2 = length2 (order_vector rv o))%coqR.
Proof.
rewrite /vector_magnitude /norm2 pow2_sqrt; last by apply: Rplus_le_le_0_compat; exact: Rle_0_sqr.
by rewrite /length2 /dot /=; ring.
Qed.
Lemma magnitude_ge0 rv o : (0 <= vector_magnitude rv o)%coqR. Proof. exact: sqrt_pos. Qed.
Lemma order_vector0 plv rv o : reciprocal plv = Val rv -> (length2 (order_vector rv o) <= 0)%coqR -> o = (0, 0)%coqZ.
Proof.
move=> h; have hb : bragg plv o (order_vector rv o) by apply/(braggP o _ h).
case: hb; rewrite /dot; case: (order_vector rv o) => g1 g2 /= h1 h2; rewrite /length2 /dot /= => le.
have p := PI_RGT_0.
have e1 : g1 = 0%coqR by nra. have e2 : g2 = 0%coqR by nra.
have z1 : IZR o.1 = 0%coqR by move: h1; rewrite e1 e2; nra.
have z2 : IZR o.2 = 0%coqR by move: h2; rewrite e1 e2; nra.
by rewrite [o]surjective_pairing (eq_IZR_R0 _ z1) (eq_IZR_R0 _ z2).
Qed.

(** ** Ranges *)
Lemma mem_arangeZ a b x : (x \in arangeZ a b) = (Z.leb a x && Z.ltb x b).
Proof.
apply/mapP/andP => [[i]|[/Z.leb_spec0 h1 /Z.ltb_spec0 h2]].
  rewrite mem_iota add0n => /andP [_ /ltP h] ->; split; [apply/Z.leb_spec0|apply/Z.ltb_spec0]; lia.
exists (Z.to_nat (x - a)); last by lia.
by rewrite mem_iota add0n; apply/ltP; lia.
Qed.
Lemma uniq_arangeZ a b : uniq (arangeZ a b).
Proof. by rewrite map_inj_uniq ?iota_uniq // => i j e; lia. Qed.
Lemma size_arangeZ a b : size (arangeZ a b) = Z.to_nat (b - a).
Proof. by rewrite size_map size_iota. Qed.
Lemma mem_mesh g h (o : Z * Z) : (o \in meshgrid_flat g h) = (o.1 \in g) && (o.2 \in h).
Proof.
apply/allpairsP/andP => [[[x y] /= [h1 h2 ->]]|[h1 h2]] //.
by exists o; split=> //; rewrite -surjective_pairing.
Qed.
Lemma uniq_mesh g h : uniq g -> uniq h -> uniq (meshgrid_flat g h).
Proof. by move=> ug uh; apply: allpairs_uniq => // -[x y] [x' y'] _ _ /=. Qed.
Lemma size_mesh g h : size (meshgrid_flat g h) = (size g * size h)%N.
Proof. exact: size_allpairs. Qed.

Section Sort.
Variable argsort : argsort_fn.
Hypothesis argsortP : argsort_spec argsort.
Variable f : Z * Z -> R.
Lemma take_order_perm G : perm_eq (take_order G (argsort [seq f c | c <- G])) G.
Proof.
have [h _] := argsortP [seq f c | c <- G].
have := perm_map (nth (0, 0)%coqZ G) h; rewrite size_map => h'.
by apply: (perm_trans h'); rewrite map_nth_iota0 // take_size.
Qed.
Lemma take_order_sorted G i j : (i <= j < size G)%N ->
  let s := take_order G (argsort [seq f c | c <- G]) in
  (f (nth (0, 0)%coqZ s i) <= f (nth (0, 0)%coqZ s j))%coqR.
Proof.
move=> hij s; have [h hs] := argsortP [seq f c | c <- G].
have sz : size (argsort [seq f c | c <- G]) = size G by rewrite (perm_size h) size_iota size_map.
have lt k : (k < size G)%N -> (nth 0%N (argsort [seq f c | c <- G]) k < size G)%N.
  by move=> hk; have := perm_mem h (nth 0%N (argsort [seq f c | c <- G]) k); rewrite mem_nth ?sz // mem_iota size_map add0n => /esym.
have := hs i j; rewrite size_map => /(_ hij).
case/andP: hij => hi hj; have hi' := leq_ltn_trans hi hj.
by rewrite /s /take_order !(nth_map 0%N) ?sz // !(nth_map (0, 0)%coqZ) ?lt.
Qed.
End Sort.

Section Generate.
Variables (argsort : argsort_fn) (plv rv : lattice).
Hypothesis argsortP : argsort_spec argsort.
Hypothesis rvE : reciprocal plv = Val rv.

Lemma sorted_by_length G :
  by_length plv (take_order G (argsort [seq vector_magnitude rv c | c <- G])).
Proof.
move=> i j g g'; rewrite (perm_size (take_order_perm argsortP _ G)) => hij /(braggP _ _ rvE) -> /(braggP _ _ rvE) ->.
have := take_order_sorted argsortP (vector_magnitude rv) hij; cbn zeta.
set a := nth _ _ i; set b := nth _ _ j => h.
rewrite -!magnitude2; apply: Rmult_le_compat_l; first exact: pow2_ge_0.
by apply: pow_incr; split; first exact: magnitude_ge0.
Qed.
Lemma zero_first s : by_length plv s -> (0, 0)%coqZ \in s -> nth (0, 0)%coqZ s 0 = (0, 0)%coqZ.
Proof.
move=> hs h0; have hi : (index (0, 0)%coqZ s < size s)%N by rewrite index_mem.
apply: (order_vector0 rvE).
have := hs 0%N (index (0, 0)%coqZ s) (order_vector rv (nth (0, 0)%coqZ s 0)) (order_vector rv (0, 0)%coqZ).
rewrite leq0n hi nth_index // => /(_ isT); have <- : length2 (order_vector rv (0, 0)%coqZ) = 0%coqR.
  by rewrite /length2 /dot /order_vector /=; ring.
by apply; apply/(braggP _ _ rvE).
Qed.
Lemma area_pos : (0 < cell_area plv)%coqR.
Proof. by have [h _ _] := areaP rvE; apply: Rabs_pos_lt. Qed.
Lemma area_rv : (Rabs (cross_product (lat_u rv) (lat_v rv)) = / cell_area plv)%coqR.
Proof.
have [h eu ev] := areaP rvE; rewrite /cell_area eu ev -Rabs_Rinv //; congr Rabs.
move: h; rewrite /cross_product /=; case: (lat_u plv) (lat_v plv) => [u1 u2] [v1 v2] /= h; field.
exact: h.
Qed.
Lemma in_circleE num o : in_circle plv num o <->
  (vector_magnitude rv o < sqrt (IZR num * Rabs (cross_product (lat_u rv) (lat_v rv)) / PI))%coqR.
Proof.
have p := PI_RGT_0; have a0 := area_pos; have m0 := magnitude_ge0 rv o.
have ia := Rinv_0_lt_compat _ a0; have ip := Rinv_0_lt_compat _ p.
rewrite area_rv /in_circle.
have e : (PI * length2 (order_vector rv o) < IZR num * ((2 * PI) ^ 2 / cell_area plv) <->
         (vector_magnitude rv o) ^ 2 < IZR num * / cell_area plv / PI)%coqR.
  rewrite -magnitude2; have q : (0 < PI * (2 * PI) ^ 2)%coqR by apply: Rmult_lt_0_compat => //; apply: pow_lt; lra.
  have -> : (PI * ((2 * PI) ^ 2 * (vector_magnitude rv o) ^ 2) = (PI * (2 * PI) ^ 2) * (vector_magnitude rv o) ^ 2)%coqR by ring.
  have -> : (IZR num * ((2 * PI) ^ 2 / cell_area plv) = (PI * (2 * PI) ^ 2) * (IZR num * / cell_area plv / PI))%coqR by field; lra.
  by split=> h; [apply: (Rmult_lt_reg_l _ _ _ q)|apply: Rmult_lt_compat_l].
split.
- case=> G [/(braggP _ _ rvE) -> /e h]; rewrite -[vector_magnitude rv o]sqrt_pow2 //.
  by apply: sqrt_lt_1_alt; split=> //; exact: pow2_ge_0.
- move=> h; exists (order_vector rv o); split; first by apply/(braggP _ _ rvE).
  apply/e; have h' : (0 < IZR num * / cell_area plv / PI)%coqR.
    case: (Rle_dec (IZR num * / cell_area plv / PI) 0) => [/sqrt_neg_0 e0|]; last by lra.
    by move: h; rewrite e0; lra.
  by have := sqrt_sqrt _ (Rlt_le _ _ h'); nra.
Qed.
Lemma circular_mem num (o : Z * Z) :
  (o \in basis_coefficients_circular argsort rv num) <->
  in_circle plv num o /\ (- num / 2 <= o.1 <= num / 2)%coqZ /\ (- num / 2 <= o.2 <= num / 2)%coqZ.
Proof.
rewrite /basis_coefficients_circular (perm_mem (take_order_perm argsortP _ _)) mem_filter mem_mesh !mem_arangeZ in_circleE.
split.
- case/andP=> h /andP [/andP [/Z.leb_spec0 h1 /Z.ltb_spec0 h2] /andP [/Z.leb_spec0 h3 /Z.ltb_spec0 h4]].
  by split; [case: Rlt_dec h|lia].
- case=> h [h1 h2]; case: Rlt_dec => //= _.
  by apply/andP; split; apply/andP; split; (apply/Z.leb_spec0 || apply/Z.ltb_spec0); lia.
Qed.
Lemma circular_uniq num : uniq (basis_coefficients_circular argsort rv num).
Proof.
rewrite /basis_coefficients_circular (perm_uniq (take_order_perm argsortP _ _)).
by apply: filter_uniq; apply: uniq_mesh; exact: uniq_arangeZ.
Qed.

(** Orders in the circle have bounded indices. *)
Lemma cauchy (a b : R * R) : ((dot a b) ^ 2 <= length2 a * length2 b)%coqR.
Proof.
case: a b => [a1 a2] [b1 b2]; rewrite /length2 /dot /=; have := pow2_ge_0 (a1 * b2 - a2 * b1); nra.
Qed.
Lemma circle_bound num o (w : R * R) (z : Z) (h : Z) : in_circle plv num o -> (0 <= h)%coqZ ->
  (forall G, bragg plv o G -> dot G w = (2 * PI * IZR z)%coqR) ->
  (length2 w * IZR num <= PI * cell_area plv * (IZR h + 1) ^ 2)%coqR -> (Z.abs z <= h)%coqZ.
Proof.
have p := PI_RGT_0; have a0 := area_pos.
case=> G [hb hc] h0 hw le; have ew := hw G hb; have cs := cauchy G w; rewrite ew in cs.
have l0 : (0 <= length2 w)%coqR by rewrite /length2 /dot; nra.
have g0 : (0 <= length2 G)%coqR by rewrite /length2 /dot; nra.
have pp : (0 < (2 * PI) ^ 2)%coqR by apply: pow_lt; lra.
have hh : (0 <= IZR h)%coqR by apply: (IZR_le 0).
have k1 : (PI * length2 G * cell_area plv < IZR num * (2 * PI) ^ 2)%coqR.
  have := Rmult_lt_compat_r _ _ _ a0 hc; have -> : (IZR num * ((2 * PI) ^ 2 / cell_area plv) * cell_area plv = IZR num * (2 * PI) ^ 2)%coqR by field; lra.
  by [].
have k2 : ((IZR z) ^ 2 < (IZR h + 1) ^ 2)%coqR.
  have pa : (0 < PI * cell_area plv)%coqR by apply: Rmult_lt_0_compat.
  have k3 : ((2 * PI) ^ 2 * (IZR z) ^ 2 * (PI * cell_area plv) <= length2 w * (PI * length2 G * cell_area plv))%coqR.
    have -> : (length2 w * (PI * length2 G * cell_area plv) = (length2 G * length2 w) * (PI * cell_area plv))%coqR by ring.
    have -> : ((2 * PI) ^ 2 * IZR z ^ 2 = (2 * PI * IZR z) ^ 2)%coqR by ring.
    by apply: Rmult_le_compat_r; lra.
  case: (Req_dec (length2 w) 0) => [e0|ne].
    move: k3; rewrite e0 Rmult_0_l => k3.
    have -> : (IZR z ^ 2 = 0)%coqR; last by nra.
    have := pow2_ge_0 (IZR z); have : (0 < (2 * PI) ^ 2 * (PI * cell_area plv))%coqR by nra.
    by move=> *; nra.
  have k4 : (length2 w * (PI * length2 G * cell_area plv) < length2 w * (IZR num * (2 * PI) ^ 2))%coqR by apply: Rmult_lt_compat_l; lra.
  have k5 : (length2 w * (IZR num * (2 * PI) ^ 2) <= (2 * PI) ^ 2 * (PI * cell_area plv * (IZR h + 1) ^ 2))%coqR.
    have -> : (length2 w * (IZR num * (2 * PI) ^ 2) = (2 * PI) ^ 2 * (length2 w * IZR num))%coqR by ring.
    by apply: Rmult_le_compat_l; lra.
  have k6 : ((2 * PI) ^ 2 * (PI * cell_area plv) * (IZR z) ^ 2 < (2 * PI) ^ 2 * (PI * cell_area plv) * (IZR h + 1) ^ 2)%coqR by lra.
  by apply: Rmult_lt_reg_l k6; nra.
have k7 : (IZR (Z.abs z) < IZR (h + 1))%coqR.
  rewrite abs_IZR plus_IZR; have := pow2_abs (IZR z); have := Rabs_pos (IZR z); nra.
by move/lt_IZR: k7; lia.
Qed.
End Generate.

(** ** The quadratic equation *)
Lemma quadratic_solution (r : R) (n : Z) z : (0 < r)%coqR -> (1 <= n)%coqZ -> solve_quadratic n r = Val z ->
  exists x, [/\ (0 <= x)%coqR, ((2 * x + 1) * (2 * (r * x) + 1) = IZR n)%coqR & (Rabs (IZR z - x) <= 1 / 2)%coqR].
Proof.
move=> r0 n1; rewrite /solve_quadratic; case: Rlt_dec => // h [<-].
have n1' : (1 <= IZR n)%coqR by apply: (IZR_le 1).
set d := (_ - _)%coqR in h *; have d0 : (0 <= d)%coqR by lra.
have s2 := sqrt_sqrt _ d0; have s0 := sqrt_pos d.
set x := (_ / _)%coqR; have ex : (x * (8 * r) = - (2 * (r + 1)) + sqrt d)%coqR by rewrite /x; field; lra.
exists x; split.
- have k : (2 * (r + 1) <= sqrt d)%coqR.
    rewrite -[(2 * (r + 1))%coqR]sqrt_pow2; last lra.
    by apply: sqrt_le_1_alt; rewrite /d; have : (0 <= r * (IZR n - 1))%coqR by [apply: Rmult_le_pos; lra]; lra.
  by apply: (Rmult_le_reg_r (8 * r)); lra.
- have : ((x * (8 * r) + 2 * (r + 1)) ^ 2 = d)%coqR by rewrite ex -[RHS]s2; ring.
  by rewrite /d => k; apply: (Rmult_eq_reg_l (16 * r)); lra.
- by rewrite Rabs_minus_sym; exact: round_half_evenP.
Qed.
Lemma quadratic_total (r : R) (n : Z) : (0 < r)%coqR -> (1 <= n)%coqZ -> exists z, solve_quadratic n r = Val z.
Proof.
move=> r0 n1; have n1' : (1 <= IZR n)%coqR by apply: (IZR_le 1).
rewrite /solve_quadratic; case: Rlt_dec => h; last by eexists.
by exfalso; have : (0 <= r * (IZR n - 1))%coqR by [apply: Rmult_le_pos; lra]; nra.
Qed.
Lemma quadratic_unique (r x y c : R) : (0 < r)%coqR -> (0 <= x)%coqR -> (0 <= y)%coqR ->
  ((2 * x + 1) * (2 * (r * x) + 1) = c)%coqR -> ((2 * y + 1) * (2 * (/ r * y) + 1) = c)%coqR -> y = (r * x)%coqR.
Proof.
move=> r0 x0 y0 h1 h2; have ir := Rinv_0_lt_compat _ r0.
pose w := (/ r * y)%coqR; have yw : y = (r * w)%coqR by rewrite /w; field; lra.
have w0 : (0 <= w)%coqR by rewrite /w; nra.
rewrite yw; congr Rmult; move: h2; rewrite -/w yw => h2.
have : ((w - x) * (4 * r * (x + w) + 2 * (r + 1)) = 0)%coqR by lra.
case/Rmult_integral; first by lra.
by have : (0 <= r * (x + w))%coqR by [apply: Rmult_le_pos; lra]; lra.
Qed.

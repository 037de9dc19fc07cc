(** Fourier matrices of turned materials. *)
From Coq Require Import Reals ZArith Lra.
From mathcomp Require Import all_ssreflect all_algebra.
From Verif Require Import CField Err LinAlg Tac M_utils M_basis M_fft M_fmm_matrices M_fmm M_scattering M_fields S_stack S_maxwell S_fft S_modes S_isometry.
From Verif Require Import L_scattering L_stack L_maxwell L_fft L_fmm L_modes L_isometry P_fmm.
Set Implicit Arguments. Unset Strict Implicit. Unset Printing Implicit Defensive.
Import GRing.Theory.
Local Open Scope ring_scope.

(** ** Convolution matrices are linear *)
Section Conv.
Variables (nx ny n : nat) (expn : n.-tuple (Z * Z)).
Implicit Types (x y : 'M[C]_(nx, ny)).
Definition cv x : 'M[C]_n := \matrix_(i, j) fourier_coefficient x (standard_toeplitz_index expn i j).
Lemma cvE x T : fourier_convolution_matrix x expn = Val T -> T = cv x.
Proof. exact: conv_entry. Qed.
Lemma cvD x y : cv (x + y) = cv x + cv y.
Proof.
apply/matrixP=> i j; rewrite !mxE /fourier_coefficient -mulrDl; congr (_ / _).
rewrite -big_split; apply: eq_bigr => a _; rewrite -big_split; apply: eq_bigr => b _ /=.
by rewrite mxE mulrDl.
Qed.
Lemma cvZ c x : cv (c *: x) = c *: cv x.
Proof.
apply/matrixP=> i j; rewrite !mxE /fourier_coefficient mulrA; congr (_ / _).
rewrite big_distrr; apply: eq_bigr => a _; rewrite big_distrr; apply: eq_bigr => b _ /=.
by rewrite mxE mulrA.
Qed.
Lemma cvN x : cv (- x) = - cv x.
Proof. by rewrite -scaleN1r cvZ scaleN1r. Qed.
Definition lin4' p (a b c d : R) (A B A' B' : 'M[C]_p) : 'M[C]_p :=
  RtoC a *: A + RtoC b *: B + RtoC c *: A' + RtoC d *: B'.
Lemma cv_lin4 a b c d (t : tensor 'M[C]_(nx, ny)) :
  cv (lin4 a b c d t) = lin4' a b c d (cv (t_xx t)) (cv (t_xy t)) (cv (t_yx t)) (cv (t_yy t)).
Proof. by rewrite /lin4 !cvD !cvZ. Qed.
End Conv.

Lemma bl_conj n a b c d (A B A' B' : 'M[C]_n) :
  bl n a b c d *m block_mx A B A' B' *m (bl n a b c d)^T =
  block_mx (lin4' (a * a) (a * b) (b * a) (b * b) A B A' B') (lin4' (a * c) (a * d) (b * c) (b * d) A B A' B')
           (lin4' (c * a) (c * b) (d * a) (d * b) A B A' B') (lin4' (c * c) (c * d) (d * c) (d * d) A B A' B')%coqR.
Proof.
rewrite bl_tr /bl !mulmx_block !mul_scalar_mx !mul_mx_scalar /lin4'.
congr block_mx; apply/matrixP=> i j; rewrite !mxE.
all: by move: (A i j) (B i j) (A' i j) (B' i j) => x y z w; Creim; ring.
Qed.

Section Tensors.
Variables (q : axes) (hq : orthogonal q) (nx ny n : nat) (expn : n.-tuple (Z * Z)).
Implicit Types (t : tensor 'M[C]_(nx, ny)).
Notation cv := (cv expn).

(** The complementary axes: the transformation of [(-Ey, Ex)]. *)
Definition coax := Axes (q_yy q) (- q_yx q)%coqR (- q_xy q)%coqR (q_xx q).
Lemma coax_orth : orthogonal coax.
Proof.
have [c1 c2 c3] := hq; split=> /=.
- by rewrite -c2; ring.
- by rewrite -c1; ring.
- by rewrite -[RHS]Ropp_0 -c3; ring.
Qed.
Lemma coax_det : det coax = det q.
Proof. by rewrite /det /=; ring. Qed.

Lemma fft_turn t T T' :
  transverse_permittivity_fft_anisotropic (t_xx t) (t_xy t) (t_yx t) (t_yy t) expn = Val T ->
  (let t' := turn_tensor q t in
   transverse_permittivity_fft_anisotropic (t_xx t') (t_xy t') (t_yx t') (t_yy t') expn = Val T') ->
  T' *m Um q n = Um q n *m T.
Proof.
rewrite /transverse_permittivity_fft_anisotropic => H H'; apply: (conjU hq).
binv H a ha; move/cvE: ha => ha; binv H b hb; move/cvE: hb => hb; binv H c hc; move/cvE: hc => hc; binv H d hd; move/cvE: hd => hd; case: H => <-.
binv H' a' ha'; move/cvE: ha' => ha'; binv H' b' hb'; move/cvE: hb' => hb'; binv H' c' hc'; move/cvE: hc' => hc'; binv H' d' hd'; move/cvE: hd' => hd'; case: H' => <-.
subst; rewrite /Um bl_conj /= !cvN !cv_lin4 /lin4'.
move: (cv _) (cv _) (cv _) (cv _) => A B A' B'.
congr block_mx; apply/matrixP=> i j; rewrite !mxE.
all: by move: (A i j) (B i j) (A' i j) (B' i j) => x y z w; Creim; ring.
Qed.
Lemma fft_mu_turn t T T' :
  transverse_permeability_fft_anisotropic (t_xx t) (t_xy t) (t_yx t) (t_yy t) expn = Val T ->
  (let t' := turn_tensor q t in
   transverse_permeability_fft_anisotropic (t_xx t') (t_xy t') (t_yx t') (t_yy t') expn = Val T') ->
  T' *m Um q n = Um q n *m T.
Proof.
rewrite /transverse_permeability_fft_anisotropic => H H'; apply: (conjQ hq).
binv H a ha; move/cvE: ha => ha; binv H b hb; move/cvE: hb => hb; binv H c hc; move/cvE: hc => hc; binv H d hd; move/cvE: hd => hd; case: H => <-.
binv H' a' ha'; move/cvE: ha' => ha'; binv H' b' hb'; move/cvE: hb' => hb'; binv H' c' hc'; move/cvE: hc' => hc'; binv H' d' hd'; move/cvE: hd' => hd'; case: H' => <-.
by subst; rewrite /Qm bl_conj /= !cv_lin4.
Qed.
Lemma fft_iso_turn (x : 'M[C]_(nx, ny)) T : transverse_permittivity_fft x expn = Val T ->
  T *m Um q n = Um q n *m T.
Proof. by rewrite /transverse_permittivity_fft => H; binv H a ha; case: H => <-; exact: bl_block. Qed.

(** ** Vector formulation, isotropic *)
Definition turned_grid (tx ty tx' ty' : 'M[C]_(nx, ny)) :=
  tx' = RtoC (q_xx q) *: tx + RtoC (q_xy q) *: ty /\ ty' = RtoC (q_yx q) *: tx + RtoC (q_yy q) *: ty.
Lemma sq_Cmod (z : C) : (Cmod z ^ 2 = re z * re z + im z * im z)%coqR.
Proof. by rewrite CmodE /= Rmult_1_r sqrt_sqrt //; exact: abs2_ge0. Qed.
Lemma turn_norm (x y : C) :
  (Cmod (RtoC (q_xx q) * x + RtoC (q_xy q) * y)%R ^ 2 + Cmod (RtoC (q_yx q) * x + RtoC (q_yy q) * y)%R ^ 2
   = Cmod x ^ 2 + Cmod y ^ 2)%coqR.
Proof.
have [c1 c2 c3] := hq; rewrite !sq_Cmod !reimE.
transitivity ((q_xx q * q_xx q + q_yx q * q_yx q) * (re x * re x + im x * im x)
  + (q_xy q * q_xy q + q_yy q * q_yy q) * (re y * re y + im y * im y)
  + 2 * (q_xx q * q_xy q + q_yx q * q_yy q) * (re x * re y + im x * im y))%coqR; first by ring.
by rewrite c1 c2 c3; ring.
Qed.
Definition safe (x y : C) : R :=
  let d := (Cmod x ^ 2 + Cmod y ^ 2)%coqR in (/ (if isclose0 d then 1%coqR else d))%coqR.
Lemma termsE x y : tangent_terms x y =
  (y * Cconj y * RtoC (safe x y), x * Cconj y * RtoC (safe x y), Cconj x * y * RtoC (safe x y), x * Cconj x * RtoC (safe x y)).
Proof.
rewrite /tangent_terms /safe; move: (if _ then _ else _) => d.
have e (t : C) : RtoC (Cmod t ^ 2 / d)%coqR = t * Cconj t * RtoC (/ d)%coqR.
  rewrite -abs2E -rmorphM /=; congr RtoC; rewrite -Cmod2 /= Rmult_1_r.
  by [].
rewrite !e -!fmorphV /=.
by [].
Qed.
Lemma turn_safe (x y : C) :
  safe (RtoC (q_xx q) * x + RtoC (q_xy q) * y) (RtoC (q_yx q) * x + RtoC (q_yy q) * y) = safe x y.
Proof. by rewrite /safe turn_norm. Qed.
(** The tangent terms, as a tensor in the order [yy, yx, xy, xx]. *)
Definition terms (tx ty : 'M[C]_(nx, ny)) : tensor 'M[C]_(nx, ny) :=
  Tensor (\matrix_(i, j) (tangent_terms (tx i j) (ty i j)).2) (\matrix_(i, j) (tangent_terms (tx i j) (ty i j)).1.2)
         (\matrix_(i, j) (tangent_terms (tx i j) (ty i j)).1.1.2) (\matrix_(i, j) (tangent_terms (tx i j) (ty i j)).1.1.1) 0.
Lemma turn_terms tx ty tx' ty' : turned_grid tx ty tx' ty' -> terms tx' ty' = turn_tensor q (terms tx ty).
Proof.
move=> [-> ->]; rewrite /terms /turn_tensor /lin4; cbv beta iota delta [t_xx t_xy t_yx t_yy t_zz].
congr Tensor; apply/matrixP=> i j; rewrite !mxE !termsE turn_safe /=.
all: by move: (tx i j) (ty i j) (safe _ _) => x y d; Creim; ring.
Qed.
Lemma vector_turn (x tx ty tx' ty' : 'M[C]_(nx, ny)) T T' : turned_grid tx ty tx' ty' ->
  transverse_permittivity_vector x tx ty expn = Val T ->
  transverse_permittivity_vector x tx' ty' expn = Val T' -> T' *m Um q n = Um q n *m T.
Proof.
rewrite /transverse_permittivity_vector => /turn_terms h H H'.
binv H a ha; binv H b hb; binv H c hc; binv H e he; rewrite ha hb /= hc /= he /= in H'.
binv H p1 h1; binv H p2 h2; binv H p3 h3; binv H p4 h4; case: H => <-.
binv H' r1 g1; binv H' r2 g2; binv H' r3 g3; binv H' r4 g4; case: H' => <-.
have hP : block_mx r1 r2 r3 r4 *m Um q n = Um q n *m block_mx p1 p2 p3 p4.
  apply: (conjQ hq); rewrite /Qm bl_conj (cvE h1) (cvE h2) (cvE h3) (cvE h4) (cvE g1) (cvE g2) (cvE g3) (cvE g4).
  rewrite -[X in block_mx (cv X)]/(t_xx (terms tx' ty')) -[X in block_mx _ (cv X)]/(t_xy (terms tx' ty')).
  rewrite -[X in block_mx _ _ (cv X)]/(t_yx (terms tx' ty')) -[X in block_mx _ _ _ (cv X)]/(t_yy (terms tx' ty')).
  by rewrite h /= !cv_lin4.
by rewrite mulmxBl mulmxBr -mulmxA hP !mulmxA -!bl_block.
Qed.
End Tensors.

(** ** Vector formulation, anisotropic *)
Section Rotation.
Variables (M : axes) (hM : orthogonal M) (nx ny n : nat) (expn : n.-tuple (Z * Z)).
Local Notation δ := (det M).
Notation cv := (cv expn).
Notation MM := (bl n (q_xx M) (q_xy M) (q_yx M) (q_yy M)).
Notation DD := (bl n 1%coqR 0%coqR 0%coqR δ).
Lemma RC0 : RtoC 0%coqR = 0. Proof. by []. Qed.
Lemma RC1 : RtoC 1%coqR = 1. Proof. by []. Qed.
Lemma DD2 : DD *m DD = 1%:M.
Proof. by rewrite bl_mul -bl1; congr bl; rewrite ?(det2 hM); ring. Qed.
Lemma MtM : MM^T *m MM = 1%:M.
Proof. exact: (QtQ hM). Qed.
Record rotated (t00 t01 t10 t11 t00' t01' t10' t11' : 'M[C]_(nx, ny)) : Prop := Rotated {
  ro00 : forall i j, t00' i j = RtoC (q_xx M) * t00 i j + RtoC (q_xy M) * t10 i j;
  ro10 : forall i j, t10' i j = RtoC (q_yx M) * t00 i j + RtoC (q_yy M) * t10 i j;
  ro01 : forall i j, t01' i j = RtoC δ * (RtoC (q_xx M) * t01 i j + RtoC (q_xy M) * t11 i j);
  ro11 : forall i j, t11' i j = RtoC δ * (RtoC (q_yx M) * t01 i j + RtoC (q_yy M) * t11 i j) }.
Definition M2 := mx22 (RtoC (q_xx M)) (RtoC (q_xy M)) (RtoC (q_yx M)) (RtoC (q_yy M)).
Definition M2t := mx22 (RtoC (q_xx M)) (RtoC (q_yx M)) (RtoC (q_xy M)) (RtoC (q_yy M)).
Definition D2 := mx22 1 0 0 (RtoC δ).
Lemma mx22_1 : mx22 1 0 0 1 = 1%:M.
Proof. by apply/matrixP=> -[[|[|i]] hi] [[|[|j]] hj]; rewrite !mxE. Qed.
Lemma D22 : D2 *m D2 = 1%:M.
Proof. by rewrite mx22M -mx22_1; congr mx22; rewrite ?mul1r ?mul0r ?mulr0 ?addr0 ?add0r // -RtoCM (det2 hM). Qed.
Lemma M22 : M2t *m M2 = 1%:M.
Proof.
have [c1 c2 c3] := hM; rewrite mx22M -mx22_1 -!RtoCM -!rmorphD /= !RaddE c1 c2.
by rewrite ![(q_xy M * q_xx M)%coqR]Rmult_comm ![(q_yy M * q_yx M)%coqR]Rmult_comm c3.
Qed.
Definition turned22 (A A' : grid22 nx ny) := forall i j, at22 A' i j = M2 *m at22 A i j *m M2t.
Lemma solve22_turn (T T' A A' X X' : grid22 nx ny) :
  (forall i j, at22 T' i j = M2 *m at22 T i j *m D2) -> turned22 A A' ->
  solve22 T A = Val X -> solve22 T' A' = Val X' ->
  [/\ g00 X' = g00 X, g01 X' = RtoC δ *: g01 X, g10 X' = RtoC δ *: g10 X & g11 X' = g11 X].
Proof.
move=> hT hA; rewrite /solve22; case: ifP => // /forallP u [<-]; case: ifP => // /forallP u' [<-] /=.
have key i j : invmx (at22 T' i j) *m (at22 A' i j *m at22 T' i j) =
    D2 *m (invmx (at22 T i j) *m (at22 A i j *m at22 T i j)) *m D2.
  have {}u : at22 T i j \in unitmx by move: (u i) => /forallP.
  have {}u' : at22 T' i j \in unitmx by move: (u' i) => /forallP.
  apply: (can_inj (mulKmx u')); rewrite mulKVmx // hT hA.
  move: (at22 T i j) (at22 A i j) u => t a u.
  rewrite -!mulmxA (mulmxA M2t) M22 mul1mx [D2 *m (D2 *m _)]mulmxA D22 mul1mx (mulmxA t (invmx t)) mulmxV // mul1mx.
  by [].
have e (x : 'M[C]_2) : D2 *m x *m D2 = mx22 (x 0 0) (RtoC δ * x 0 1) (RtoC δ * x 1 0) (x 1 1).
  have -> : x = mx22 (x 0 0) (x 0 1) (x 1 0) (x 1 1).
    apply/matrixP=> -[[|[|i]] hi] [[|[|j]] hj] //; rewrite mxE /=; congr (x _ _); exact: val_inj.
  rewrite /D2 !mx22M; congr mx22; rewrite ?mxE /= ?mul1r ?mul0r ?mulr0 ?mulr1 ?addr0 ?add0r // 1?mulrC //.
  by rewrite mulrA -RtoCM (det2 hM) RC1 mul1r.
by split; apply/matrixP=> i j; rewrite [LHS]mxE key e [LHS]mxE /= [RHS]mxE ?[(\matrix_(_, _) _) i j]mxE.
Qed.

Lemma rot_turn t00 t01 t10 t11 t00' t01' t10' t11' r r' :
  rotated t00 t01 t10 t11 t00' t01' t10' t11' ->
  rotation_matrices t00 t01 t10 t11 expn = Val r -> rotation_matrices t00' t01' t10' t11' expn = Val r' ->
  [/\ forall i j, at22 r'.1.1 i j = M2 *m at22 r.1.1 i j *m D2, r'.1.2 = MM *m r.1.2 *m DD & r'.2 = DD *m r.2 *m MM^T].
Proof.
case=> h00 h10 h01 h11; rewrite /rotation_matrices => H H'.
binv H f1 h1; binv H f2 h2; binv H f3 h3; binv H f4 h4; binv H i1 h5; binv H i2 h6; binv H i3 h7; binv H i4 h8; case: H => <-.
binv H' f1' h1'; binv H' f2' h2'; binv H' f3' h3'; binv H' f4' h4'; binv H' i1' h5'; binv H' i2' h6'; binv H' i3' h7'; binv H' i4' h8'; case: H' => <-.
split=> /=.
- move=> i j; rewrite /at22 /= /M2 /D2 !mx22M h00 h01 h10 h11.
  by congr mx22; Cring.
- have e0 : t00' = RtoC (q_xx M) *: t00 + RtoC (q_xy M) *: t10 by apply/matrixP=> i j; rewrite h00 !mxE.
  have e1 : t10' = RtoC (q_yx M) *: t00 + RtoC (q_yy M) *: t10 by apply/matrixP=> i j; rewrite h10 !mxE.
  have e2 : t01' = RtoC δ *: (RtoC (q_xx M) *: t01 + RtoC (q_xy M) *: t11) by apply/matrixP=> i j; rewrite h01 !mxE.
  have e3 : t11' = RtoC δ *: (RtoC (q_yx M) *: t01 + RtoC (q_yy M) *: t11) by apply/matrixP=> i j; rewrite h11 !mxE.
  rewrite (cvE h1) (cvE h2) (cvE h3) (cvE h4) (cvE h1') (cvE h2') (cvE h3') (cvE h4') e0 e1 e2 e3.
  rewrite !(cvD, cvZ) /bl !mulmx_block !mul_scalar_mx !mul_mx_scalar RC0 RC1 !scale0r !scale1r ?scaler0 ?addr0 ?add0r.
  by [].
- pose den i j := (if isclose0 (Cmod (t00 i j * t11 i j - t10 i j * t01 i j)) then 1%coqR else Cmod (t00 i j * t11 i j - t10 i j * t01 i j)).
  have hden i j : (if isclose0 (Cmod (t00' i j * t11' i j - t10' i j * t01' i j)) then 1%coqR else Cmod (t00' i j * t11' i j - t10' i j * t01' i j)) = den i j.
    rewrite /den; suff -> : Cmod (t00' i j * t11' i j - t10' i j * t01' i j) = Cmod (t00 i j * t11 i j - t10 i j * t01 i j) by [].
    rewrite h00 h01 h10 h11; congr Cmod; move: (t00 i j) (t01 i j) (t10 i j) (t11 i j) => x y z w.
    transitivity (RtoC (δ * δ)%coqR * (x * w - z * y)); first by rewrite /det; Creim; ring.
    by rewrite (det2 hM) RC1 mul1r.
  have m1 := det_xx hM; have m2 := det_xy hM; have m3 := det_yx hM; have m4 := det_yy hM.
  pose s00 : 'M[C]_(nx, ny) := \matrix_(i, j) (t11 i j / RtoC (den i j)).
  pose s01 : 'M[C]_(nx, ny) := \matrix_(i, j) (- t01 i j / RtoC (den i j)).
  pose s10 : 'M[C]_(nx, ny) := \matrix_(i, j) (- t10 i j / RtoC (den i j)).
  pose s11 : 'M[C]_(nx, ny) := \matrix_(i, j) (t00 i j / RtoC (den i j)).
  rewrite (cvE h5) (cvE h6) (cvE h7) (cvE h8) (cvE h5') (cvE h6') (cvE h7') (cvE h8').
  have -> : \matrix_(i, j) (t11' i j / RtoC (if isclose0 (Cmod (t00' i j * t11' i j - t10' i j * t01' i j)) then 1%coqR else Cmod (t00' i j * t11' i j - t10' i j * t01' i j))) =
      RtoC (q_xx M) *: s00 + RtoC (q_xy M) *: s01.
    apply/matrixP=> i j; rewrite mxE hden h11 !mxE -m4; have -> : q_xy M = (- (δ * q_yx M))%coqR by rewrite m3; ring.
    by move: (t01 i j) (t11 i j) (_^-1) => x y v; Creim; ring.
  have -> : \matrix_(i, j) (- t01' i j / RtoC (if isclose0 (Cmod (t00' i j * t11' i j - t10' i j * t01' i j)) then 1%coqR else Cmod (t00' i j * t11' i j - t10' i j * t01' i j))) =
      RtoC (q_yx M) *: s00 + RtoC (q_yy M) *: s01.
    apply/matrixP=> i j; rewrite mxE hden h01 !mxE -m1; have -> : q_yx M = (- (δ * q_xy M))%coqR by rewrite m2; ring.
    by move: (t01 i j) (t11 i j) (_^-1) => x y v; Creim; ring.
  have -> : \matrix_(i, j) (- t10' i j / RtoC (if isclose0 (Cmod (t00' i j * t11' i j - t10' i j * t01' i j)) then 1%coqR else Cmod (t00' i j * t11' i j - t10' i j * t01' i j))) =
      RtoC δ *: (RtoC (q_xx M) *: s10 + RtoC (q_xy M) *: s11).
    apply/matrixP=> i j; rewrite mxE hden h10 !mxE -m1; have -> : q_yx M = (- (δ * q_xy M))%coqR by rewrite m2; ring.
    by move: (t00 i j) (t10 i j) (_^-1) => x y v; Creim; ring.
  have -> : \matrix_(i, j) (t00' i j / RtoC (if isclose0 (Cmod (t00' i j * t11' i j - t10' i j * t01' i j)) then 1%coqR else Cmod (t00' i j * t11' i j - t10' i j * t01' i j))) =
      RtoC δ *: (RtoC (q_yx M) *: s10 + RtoC (q_yy M) *: s11).
    apply/matrixP=> i j; rewrite mxE hden h00 !mxE -m4; have -> : q_xy M = (- (δ * q_yx M))%coqR by rewrite m3; ring.
    by move: (t00 i j) (t10 i j) (_^-1) => x y v; Creim; ring.
  rewrite -/s00 -/s01 -/s10 -/s11 !(cvD, cvZ) bl_tr /bl !mulmx_block !mul_scalar_mx !mul_mx_scalar RC0 RC1 !scale0r !scale1r ?scaler0 ?addr0 ?add0r.
  by rewrite !scalerDr !scalerA ![RtoC δ * _]mulrC.
Qed.
Lemma rotated_turn (g g' : grid22 nx ny) r r' T T' : turned22 g g' ->
  [/\ forall i j, at22 r'.1.1 i j = M2 *m at22 r.1.1 i j *m D2, r'.1.2 = MM *m r.1.2 *m DD & r'.2 = DD *m r.2 *m MM^T] ->
  rotated_fourier_matrix g r expn = Val T -> rotated_fourier_matrix g' r' expn = Val T' -> T' = MM *m T *m MM^T.
Proof.
rewrite /rotated_fourier_matrix => hg [hr1 hr2 hr3] H H'.
binv H s hs; binv H a ha; binv H b hb; binv H c hc; binv H u hu; binv H v hv; binv H e he; case: H => <-.
binv H' s' hs'; have [e1 e2 e3 e4] := solve22_turn hr1 hg hs hs'; rewrite e1 e2 e3 e4 in H'.
rewrite ha hu /= hv /= he /= in H'; binv H' b' hb'; binv H' c' hc'; case: H' => <-.
have -> : block_mx a b' c' e = DD *m block_mx a b c e *m DD.
  rewrite (cvE hb) (cvE hc) (cvE hb') (cvE hc') !cvZ /bl !mulmx_block !mul_scalar_mx !mul_mx_scalar RC0 RC1 !scale0r !scale1r ?scaler0 ?addr0 ?add0r.
  by rewrite scalerA -RtoCM (det2 hM) RC1 scale1r.
rewrite hr2 hr3 -!mulmxA; congr (_ *m (_ *m _)).
by rewrite !(mulmxA DD DD) DD2 !mul1mx.
Qed.
End Rotation.

Section Vector.
Variables (q : axes) (hq : orthogonal q) (nx ny n : nat) (expn : n.-tuple (Z * Z)).
Implicit Types (t : tensor 'M[C]_(nx, ny)).
Variables (tx ty tx' ty' : 'M[C]_(nx, ny)).
Hypothesis (ht : turned_grid q tx ty tx' ty').
Lemma tx_at i j : tx' i j = RtoC (q_xx q) * tx i j + RtoC (q_xy q) * ty i j.
Proof. by have [-> _] := ht; rewrite !mxE. Qed.
Lemma ty_at i j : ty' i j = RtoC (q_yx q) * tx i j + RtoC (q_yy q) * ty i j.
Proof. by have [_ ->] := ht; rewrite !mxE. Qed.
Lemma vector_mu_turn t T T' :
  transverse_permeability_vector_anisotropic (t_xx t) (t_xy t) (t_yx t) (t_yy t) tx ty expn = Val T ->
  (let t' := turn_tensor q t in
   transverse_permeability_vector_anisotropic (t_xx t') (t_xy t') (t_yx t') (t_yy t') tx' ty' expn = Val T') ->
  T' *m Um q n = Um q n *m T.
Proof.
rewrite /transverse_permeability_vector_anisotropic => H H'; binv H r hr; binv H' r' hr'; apply: (conjQ hq).
apply: (rotated_turn hq _ _ H H').
  move=> i j; rewrite /at22 /M2 /M2t !mx22M /= !mxE.
  by congr mx22; move: (t_xx t i j) (t_xy t i j) (t_yx t i j) (t_yy t i j) => x y z w; Creim; ring.
apply: (rot_turn hq _ hr hr'); have m1 := det_xx hq; have m2 := det_xy hq; have m3 := det_yx hq; have m4 := det_yy hq.
split=> i j; rewrite ?tx_at ?ty_at // !mxE ?tx_at ?ty_at mulrDr !mulrA -!RtoCM ?m1 ?m2 ?m3 ?m4.
all: by move: (tx i j) (ty i j) => x y; Creim; ring.
Qed.
Lemma vector_eps_turn t T T' :
  transverse_permittivity_vector_anisotropic (t_xx t) (t_xy t) (t_yx t) (t_yy t) tx ty expn = Val T ->
  (let t' := turn_tensor q t in
   transverse_permittivity_vector_anisotropic (t_xx t') (t_xy t') (t_yx t') (t_yy t') tx' ty' expn = Val T') ->
  T' *m Um q n = Um q n *m T.
Proof.
rewrite /transverse_permittivity_vector_anisotropic => H H'; binv H r hr; binv H' r' hr'; apply: (conjU hq).
apply: (rotated_turn (coax_orth hq) _ _ H H').
  move=> i j; rewrite /at22 /M2 /M2t !mx22M /= !mxE.
  by congr mx22; move: (t_xx t i j) (t_xy t i j) (t_yx t i j) (t_yy t i j) => x y z w; Creim; ring.
apply: (rot_turn (coax_orth hq) _ hr hr'); have m1 := det_xx hq; have m2 := det_xy hq; have m3 := det_yx hq; have m4 := det_yy hq.
split=> i j; rewrite ?coax_det /= !mxE ?tx_at ?ty_at ?mulrDr ?mulrA -?RtoCM -?Ropp_mult_distr_r ?m1 ?m2 ?m3 ?m4.
all: by move: (tx i j) (ty i j) => x y; Creim; ring.
Qed.
End Vector.

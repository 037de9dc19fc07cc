(** C32, C33: reorientation of beams. *)
From Coq Require Import Reals ZArith Lra Lia Nsatz.
From mathcomp Require Import all_ssreflect all_algebra.
From Verif Require Import CField Err LinAlg M_beams S_beams.
Set Implicit Arguments. Unset Strict Implicit. Unset Printing Implicit Defensive.
Import GRing.Theory.
Local Open Scope ring_scope.

Lemma mx3P (T : ringType) p (A B : 'M[T]_(3, p)) :
  (forall j, A (inord 0) j = B (inord 0) j) -> (forall j, A (inord 1) j = B (inord 1) j) ->
  (forall j, A (inord 2) j = B (inord 2) j) -> A = B.
Proof.
move=> h0 h1 h2; apply/matrixP=> i j.
have [->|[->|->]] : i = inord 0 \/ i = inord 1 \/ i = inord 2; last by [].
- by case: i => [[|[|[|//]]] hi]; [left|right; left|right; right]; apply: val_inj; rewrite /= inordK.
- exact: h0.
- exact: h1.
Qed.
Lemma sum3 (T : ringType) (f : 'I_3 -> T) : \sum_i f i = f (inord 0) + f (inord 1) + f (inord 2).
Proof.
rewrite !big_ord_recl big_ord0 addr0 addrA.
by congr (f _ + f _ + f _); apply: val_inj; rewrite /= inordK.
Qed.
Lemma comp3K (T : ringType) (v : 'cV[T]_3) : let '(x, y, z) := comp3 v in col3 x y z = v.
Proof. by apply: mx3P => j; rewrite (ord1 j) mxE inordK. Qed.
Lemma comp3P (T : ringType) (v : 'cV[T]_3) : exists x y z, comp3 v = (x, y, z) /\ col3 x y z = v.
Proof. by do 3 eexists; split; [|exact: (comp3K v)]. Qed.
Lemma col3K (T : ringType) (x y z : T) : comp3 (col3 x y z) = (x, y, z).
Proof. by rewrite /comp3 !mxE !inordK. Qed.
(** Entries of a product of explicit matrices. *)
Lemma mx3M (T : ringType) (a11 a12 a13 a21 a22 a23 a31 a32 a33 b11 b12 b13 b21 b22 b23 b31 b32 b33 : T) :
  mx3 [:: [:: a11; a12; a13]; [:: a21; a22; a23]; [:: a31; a32; a33]] *m
  mx3 [:: [:: b11; b12; b13]; [:: b21; b22; b23]; [:: b31; b32; b33]] =
  mx3 [:: [:: a11 * b11 + a12 * b21 + a13 * b31; a11 * b12 + a12 * b22 + a13 * b32; a11 * b13 + a12 * b23 + a13 * b33];
          [:: a21 * b11 + a22 * b21 + a23 * b31; a21 * b12 + a22 * b22 + a23 * b32; a21 * b13 + a22 * b23 + a23 * b33];
          [:: a31 * b11 + a32 * b21 + a33 * b31; a31 * b12 + a32 * b22 + a33 * b32; a31 * b13 + a32 * b23 + a33 * b33]].
Proof.
by apply/matrixP=> i j; rewrite !mxE sum3 !mxE !inordK //; case: i j => [[|[|[|//]]] hi] [[|[|[|//]]] hj].
Qed.
Lemma mx3V (T : ringType) (a11 a12 a13 a21 a22 a23 a31 a32 a33 x y z : T) :
  mx3 [:: [:: a11; a12; a13]; [:: a21; a22; a23]; [:: a31; a32; a33]] *m col3 x y z =
  col3 (a11 * x + a12 * y + a13 * z) (a21 * x + a22 * y + a23 * z) (a31 * x + a32 * y + a33 * z).
Proof.
by apply/matrixP=> i j; rewrite !mxE sum3 !mxE !inordK //; case: i => [[|[|[|//]]] hi].
Qed.
Lemma mx3T (T : ringType) (a11 a12 a13 a21 a22 a23 a31 a32 a33 : T) :
  (mx3 [:: [:: a11; a12; a13]; [:: a21; a22; a23]; [:: a31; a32; a33]])^T =
  mx3 [:: [:: a11; a21; a31]; [:: a12; a22; a32]; [:: a13; a23; a33]].
Proof. by apply/matrixP=> i j; rewrite !mxE; case: i j => [[|[|[|//]]] hi] [[|[|[|//]]] hj]. Qed.
Lemma mx3_1 : (1%:M : 'M[R]_3) = mx3 [:: [:: 1; 0; 0]; [:: 0; 1; 0]; [:: 0; 0; 1]].
Proof. by apply/matrixP=> i j; rewrite !mxE; case: i j => [[|[|[|//]]] hi] [[|[|[|//]]] hj]. Qed.

Ltac sc2 t := have := sin2_cos2 t; rewrite /Rsqr; move: (sin t) (cos t) => ? ? ?.
Ltac eqR := match goal with |- @eq _ ?a ?b => change (@eq R a b) end.
Ltac cong3 := do ?congr (_ :: _); rewrite ?(RaddE, RmulE, RoppE, R0E, R1E) -?Rsqr_pow2 /Rsqr; eqR; try ring; try nsatz.
Lemma rot_z_add a b : rotation_z_matrix a *m rotation_z_matrix b = rotation_z_matrix (a + b).
Proof.
rewrite /rotation_z_matrix mx3M; congr mx3; rewrite sin_plus cos_plus.
cong3.
Qed.
Lemma rot_y_add a b : rotation_y_matrix a *m rotation_y_matrix b = rotation_y_matrix (a + b).
Proof. rewrite /rotation_y_matrix mx3M; congr mx3; rewrite sin_plus cos_plus; cong3. Qed.
Lemma rot_z_orth a : rotation_z_matrix a *m (rotation_z_matrix a)^T = 1%:M.
Proof. rewrite /rotation_z_matrix mx3T mx3M mx3_1; congr mx3; sc2 a; cong3. Qed.
Lemma rot_y_orth a : rotation_y_matrix a *m (rotation_y_matrix a)^T = 1%:M.
Proof. rewrite /rotation_y_matrix mx3T mx3M mx3_1; congr mx3; sc2 a; cong3. Qed.
Lemma half_det (f : R -> 'M[R]_3) : (forall a b, f a *m f b = f (a + b)%coqR) ->
  (forall a, f a *m (f a)^T = 1%:M) -> forall a, \det (f a) = 1.
Proof.
move=> add orth a; have -> : a = (a / 2 + a / 2)%coqR by field.
by rewrite -add det_mulmx -{2}det_tr -det_mulmx orth det1.
Qed.
Lemma rotationM A B : is_rotation A -> is_rotation B -> is_rotation (A *m B).
Proof.
move=> [oA dA] [oB dB]; split; last by rewrite det_mulmx dA dB mulr1.
by rewrite trmx_mul mulmxA -[A *m B *m _]mulmxA oB mulmx1.
Qed.
Lemma rot_z a : is_rotation (rotation_z_matrix a).
Proof. by split; [exact: rot_z_orth|exact: half_det rot_z_add rot_z_orth a]. Qed.
Lemma rot_y a : is_rotation (rotation_y_matrix a).
Proof. by split; [exact: rot_y_orth|exact: half_det rot_y_add rot_y_orth a]. Qed.
Lemma rotation_p_conj pol az t :
  let Q := rotation_z_matrix az *m rotation_y_matrix pol in
  rotation_p_matrix pol az t = Q *m rotation_z_matrix t *m Q^T.
Proof.
rewrite /rotation_p_matrix /rotation_z_matrix /rotation_y_matrix !mx3M mx3T !mx3M.
congr mx3; sc2 pol; sc2 az; move: (sin t) (cos t) => s c; cong3.
Qed.
(** The matrix is a rotation by the polarization angle about z, then by the polar angle about y,
    then by the azimuthal angle about z. *)
Theorem C32_euler pol az t :
  rotation_matrix pol az t = rotation_z_matrix az *m rotation_y_matrix pol *m rotation_z_matrix t.
Proof.
rewrite /rotation_matrix rotation_p_conj -mulmxA -[_ *m _^T *m _]mulmxA.
have [oQ _] := rotationM (rot_z az) (rot_y pol).
by rewrite (mulmx1C oQ) mulmx1.
Qed.
Print Assumptions C32_euler.
Theorem C32_rotation pol az t : is_rotation (rotation_matrix pol az t).
Proof. by rewrite C32_euler; exact: rotationM (rotationM (rot_z _) (rot_y _)) (rot_z _). Qed.
Print Assumptions C32_rotation.
Theorem C32_axis pol az t : rotation_matrix pol az t *m z_axis = direction pol az.
Proof.
rewrite C32_euler /rotation_z_matrix /rotation_y_matrix /z_axis -!mulmxA !mx3V /direction.
congr col3; rewrite ?(RaddE, RmulE, RoppE, R0E, R1E); eqR; ring.
Qed.
Print Assumptions C32_axis.
Lemma rotate_aboutE pol az t v :
  rotate_about (direction pol az) t v = rotation_p_matrix pol az t *m v.
Proof.
have := comp3K v; case: (comp3 v) => [[x y] z] <-.
rewrite /rotation_p_matrix mx3V /rotate_about /cross3 /direction !col3K /dot3.
apply: mx3P => j; rewrite !mxE ?sum3 !mxE ?inordK //=;
sc2 pol; sc2 az; move: (sin t) (cos t) => s c;  rewrite ?(RaddE, RmulE, RoppE, R0E, R1E) -?Rsqr_pow2 /Rsqr; eqR; try ring; nsatz.
Qed.
(** The polarization angle turns everything about the propagation direction. *)
Theorem C32_polarization pol az t v :
  rotation_matrix pol az t *m v = rotate_about (direction pol az) t (rotation_matrix pol az 0 *m v).
Proof.
have p0 : rotation_p_matrix pol az 0 = 1%:M.
  rewrite rotation_p_conj; have -> : rotation_z_matrix 0 = 1%:M.
    by rewrite /rotation_z_matrix mx3_1 cos_0 sin_0 oppr0.
  by rewrite mulmx1; have [-> _] := rotationM (rot_z az) (rot_y pol).
by rewrite rotate_aboutE /rotation_matrix p0 mul1mx !mulmxA.
Qed.
Print Assumptions C32_polarization.
(** At polarization angle zero, x goes to the direction of increasing polar angle and y to that
    of increasing azimuthal angle. *)
Theorem C32_transverse pol az :
  rotation_matrix pol az 0 *m x_axis = col3 (cos az * cos pol)%coqR (sin az * cos pol)%coqR (- sin pol)%coqR /\
  rotation_matrix pol az 0 *m y_axis = col3 (- sin az)%coqR (cos az) 0.
Proof.
by split; rewrite C32_euler /rotation_z_matrix /rotation_y_matrix /x_axis /y_axis -!mulmxA !mx3V;
  congr col3; rewrite cos_0 sin_0 ?(RaddE, RmulE, RoppE, R0E, R1E); eqR; ring.
Qed.
Print Assumptions C32_transverse.

(** ** C33 *)
(** The field at [x0 + R p] is [R] applied to the field of the beam at [p]. *)
Theorem C33_rigid_motion field_fn (p x0 : 'cV[R]_3) pol az t :
  let M := rotation_matrix pol az t in
  let '(x, y, z) := comp3 (x0 + M *m p) in
  let '(ox, oy, oz) := comp3 x0 in
  let '(xf, yf, zf) := comp3 p in
  let '(E, H) := field_fn xf yf zf in
  shifted_rotated_fields field_fn x y z ox oy oz pol az t = Val (rotate_field M E, rotate_field M H).
Proof.
move=> M; have [oM dM] := C32_rotation pol az t; rewrite -/M in oM dM.
have uM : M \in unitmx by rewrite unitmxE dM unitr1.
have [x [y [z [-> hx]]]] := comp3P (x0 + M *m p).
have [ox [oy [oz [-> ho]]]] := comp3P x0.
have [xf [yf [zf [hp _]]]] := comp3P p; rewrite hp.
rewrite /shifted_rotated_fields -/M /solveR uM hx ho; cbn [bind]; rewrite mulmxDr mulKmx //.
rewrite /comp3 in hp *; case: hp => e1 e2 e3.
rewrite ![(_ + p) _ _]mxE e1 e2 e3.
have S (a b : R) : (a + b - a)%coqR = b by ring.
rewrite !RaddE !S; case: (field_fn xf yf zf) => [[[e1' e2'] e3'] [[h1 h2] h3]] //.
Qed.
Print Assumptions C33_rigid_motion.
(** The same, stated for an arbitrary point: no point is undefined. *)
Theorem C33_everywhere field_fn x y z ox oy oz pol az t :
  let M := rotation_matrix pol az t in
  let '(xf, yf, zf) := comp3 (M^T *m (col3 x y z - col3 ox oy oz)) in
  shifted_rotated_fields field_fn x y z ox oy oz pol az t
  = Val (rotate_field M (field_fn xf yf zf).1, rotate_field M (field_fn xf yf zf).2).
Proof.
move=> M; have [oM _] := C32_rotation pol az t; rewrite -/M in oM.
have := C33_rigid_motion field_fn (M^T *m (col3 x y z - col3 ox oy oz)) (col3 ox oy oz) pol az t.
rewrite -/M; cbv zeta; rewrite mulmxA oM mul1mx addrC subrK !col3K.
have [xf [yf [zf [-> _]]]] := comp3P (M^T *m (col3 x y z - col3 ox oy oz)); by case: (field_fn xf yf zf) => E H.
Qed.
Print Assumptions C33_everywhere.

(** A plane wave of wavevector [q] becomes the plane wave of wavevector [R q], with both
    amplitudes rotated. *)
Lemma rotate_scale M w a b c : rotate_field M (w * a, w * b, w * c) =
  let '(x, y, z) := rotate_field M (a, b, c) in (w * x, w * y, w * z).
Proof.
rewrite /rotate_field.
have -> : col3 (w * a) (w * b) (w * c) = w *: col3 a b c.
  by apply: mx3P => j; rewrite !mxE !inordK.
by rewrite -scalemxAr /comp3; congr (_, _, _); rewrite [LHS]mxE.
Qed.
Theorem C33_plane_wave (q : 'cV[R]_3) (E H : triple C) x y z ox oy oz pol az t :
  let M := rotation_matrix pol az t in
  shifted_rotated_fields (fun x y z => plane_wave q E H (col3 x y z)) x y z ox oy oz pol az t
  = Val (plane_wave (M *m q) (rotate_field M E) (rotate_field M H) (col3 x y z - col3 ox oy oz)).
Proof.
move=> M; have := C33_everywhere (fun x y z => plane_wave q E H (col3 x y z)) x y z ox oy oz pol az t.
rewrite -/M; cbv zeta; set X := col3 x y z - _.
have [a [b [c [-> hv]]]] := comp3P (M^T *m X); move=> ->; rewrite hv /plane_wave.
have -> : dot3 (M *m q) X = dot3 q (M^T *m X) by rewrite /dot3 trmx_mul mulmxA.
case: E H => [[e1 e2] e3] [[h1 h2] h3]; cbn [fst snd]; rewrite !rotate_scale.
by case: (rotate_field M (e1, e2, e3)) (rotate_field M (h1, h2, h3)) => [[? ?] ?] [[? ?] ?].
Qed.
Print Assumptions C33_plane_wave.
(** Witness: a wave along z, sent in the direction of polar angle pi/2 and azimuth 0, goes
    along x, and its x polarization becomes -z. *)
Example C33_witness : rotation_matrix (PI / 2) 0 0 *m z_axis = x_axis /\
  rotation_matrix (PI / 2) 0 0 *m x_axis = - z_axis.
Proof.
have [e _] := C32_transverse (PI / 2) 0; rewrite e C32_axis /direction /x_axis /z_axis.
rewrite cos_0 sin_0 sin_PI2 cos_PI2; split; first by congr col3; rewrite ?R0E ?R1E; eqR; ring.
by apply: mx3P => j; rewrite !mxE !inordK //= ?R0E ?R1E ?RoppE; eqR; ring.
Qed.

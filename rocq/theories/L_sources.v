(** Proofs about sources. *)
From Coq Require Import Reals ZArith Lra Lia.
From mathcomp Require Import all_ssreflect all_algebra.
From Verif Require Import CField Err LinAlg M_utils M_basis M_fft M_fmm_matrices M_fmm M_scattering M_fields M_sources S_stack S_maxwell S_fft S_fields S_basis S_sources L_scattering L_stack L_fft L_fields.
Set Implicit Arguments. Unset Strict Implicit. Unset Printing Implicit Defensive.
Import GRing.Theory.
Local Open Scope ring_scope.

Section Emission.
Variables (n m : nat).
Notation P l d := (diag (phase (eigenvalues l) d)).

Lemma inv_qE (l : layer_solve_result n) (f : fin_layer l) r : recip (eigenvalues l) = Val r ->
  diag r = RtoC (fl_w f) *: diag (wq f).
Proof.
move=> /recipV [nz e]; rewrite -linearZ /=; congr diag; apply/matrixP=> i j.
by rewrite (ord1 i) !mxE e invfM mulrA divff ?mul1r // fin_w0.
Qed.

(** The emission equation is the jump condition. *)
Lemma emissionE (before after : scattering_matrix n)
    (f : fin_layer (end_layer_solve_result before)) (f' : fin_layer (start_layer_solve_result after)) M
    (jx jy jz : 'M[C]_(n, m)) pol (a' b : 'M[C]_(n + n, m)) :
  emission_matrix before after = Val M ->
  polarization_terms jx jy jz (end_layer_solve_result before) = Val pol ->
  fl_w f = fl_w f' ->
  let l := end_layer_solve_result before in
  let a := P l (end_layer_thickness before) *m (s12 before *m b) in
  let b' := P (start_layer_solve_result after) (start_layer_thickness after) *m (s21 after *m a') in
  M *m col_mx a' b = pol <->
  RtoC (fl_w f) *: (Et f' a' b' - Et f a b) =
    col_mx (- (rowscale (vC (fl_ky f)) (inverse_z_permittivity_matrix l *m jz)))
           (rowscale (vC (fl_kx f)) (inverse_z_permittivity_matrix l *m jz)) /\
  Ht (start_layer_solve_result after) a' b' - Ht l a b = col_mx jy (- jx).
Proof.
rewrite /emission_matrix (fl_Oe f) /= (fl_Oe f') /= => H; binv H r' h'; binv H r h; case: H => <-.
rewrite /polarization_terms (fl_k f) /= => -[<-] ww.
rewrite (inv_qE f h) (inv_qE f' h') -ww.
set eta := inverse_z_permittivity_matrix _.
have sc (v : 'rV[C]_n) : rowscale v eta *m jz = rowscale v (eta *m jz).
  by rewrite !rowscaleE mulmxA.
rewrite !sc mul_block_col !diag1.
have -> : RtoC (fl_w f) *: (Et f' a' (P (start_layer_solve_result after) (start_layer_thickness after) *m (s21 after *m a'))
     - Et f (P (end_layer_solve_result before) (end_layer_thickness before) *m (s12 before *m b)) b) =
  fl_O f' *m eigenvectors (start_layer_solve_result after) *m (RtoC (fl_w f) *: diag (wq f')) *m
    (1%:M - P (start_layer_solve_result after) (start_layer_thickness after) *m s21 after) *m a' +
  fl_O f *m eigenvectors (end_layer_solve_result before) *m (RtoC (fl_w f) *: diag (wq f)) *m
    (1%:M - P (end_layer_solve_result before) (end_layer_thickness before) *m s12 before) *m b.
  rewrite /Et /emat -!scalemxAr -!scalemxAl -scalerDr; congr (_ *: _).
  rewrite -[X in _ = X + _]mulmxA -[X in _ = _ + X]mulmxA !mulmxBl !mul1mx !mulmxBr !mulmxA.
  by mxab.
have -> : Ht (start_layer_solve_result after) a' (P (start_layer_solve_result after) (start_layer_thickness after) *m (s21 after *m a'))
     - Ht (end_layer_solve_result before) (P (end_layer_solve_result before) (end_layer_thickness before) *m (s12 before *m b)) b =
  eigenvectors (start_layer_solve_result after) *m
    (1%:M + P (start_layer_solve_result after) (start_layer_thickness after) *m s21 after) *m a' +
  - eigenvectors (end_layer_solve_result before) *m
    (1%:M + P (end_layer_solve_result before) (end_layer_thickness before) *m s12 before) *m b.
  rewrite /Ht -[X in _ = X + _]mulmxA -[X in _ = _ + X]mulmxA !mulmxDl !mul1mx !mulNmx !mulmxDr !mulmxA.
  by mxab.
by split=> [/eq_col_mx [-> ->]|[-> ->]].
Qed.

Lemma sheetE (l : layer n) (f : fin_layer l.1) (l' : layer n) (f' : fin_layer l'.1)
    (jx jy jz : 'M[C]_(n, m)) (a b a' b' : 'M[C]_(n + n, m)) :
  (exists F F', [/\ tangential_fields l l.2 (a, b) = Val F, tangential_fields l' 0%coqR (a', b') = Val F' &
     current_sheet (fl_w f) (fl_kx f) (fl_ky f) (inverse_z_permittivity_matrix l.1) jx jy jz F F']) <->
  let A := P l.1 l.2 *m a in let B := P l'.1 l'.2 *m b' in
  RtoC (fl_w f) *: (Et f' a' B - Et f A b) =
    col_mx (- (rowscale (vC (fl_ky f)) (inverse_z_permittivity_matrix l.1 *m jz)))
           (rowscale (vC (fl_kx f)) (inverse_z_permittivity_matrix l.1 *m jz)) /\
  Ht l'.1 a' B - Ht l.1 A b = col_mx jy (- jx).
Proof.
rewrite (tangentialE f) (tangentialE f') /=.
have z1 : (l.2 - l.2 = 0)%coqR by lra.
have z2 : (l'.2 - 0 = l'.2)%coqR by lra.
rewrite z1 z2 !phase0 !mul1mx.
move: (Et f _ _) (Et f' _ _) (Ht l.1 _ _) (Ht l'.1 _ _) => E E' H H'.
set eta := inverse_z_permittivity_matrix _.
have w0 := fin_w0 f; have i0 := Ci_neq0.
split.
- case=> F [F' [[<-] [<-]]] /= [dz [ez [eE J]]].
  have dzE : dz = (Ci * RtoC (fl_w f))^-1 *: jz.
    apply/matrixP=> i c; case: (J i c) => h _ _ _ _; rewrite mxE.
    have {}h : jz i c = Ci * RtoC (fl_w f) * dz i c.
      by apply/eqP; rewrite -subr_eq0 addrC -mulNr -h.
    by rewrite h mulKf // mulf_neq0.
  have ezE : eta *m jz = Ci * RtoC (fl_w f) *: ez.
    by rewrite eE dzE -scalemxAr scalerA divff ?scale1r // mulf_neq0.
  split; apply: col_mx_inj; rewrite ?col_mxKu ?col_mxKd; apply/matrixP=> i c; case: (J i c).
  + move=> _ h _ _ _; move: h; rewrite ezE !mxE => h.
    have {}h : Ci * RtoC (fl_ky f 0 i) * ez i c = E (lshift n i) c - E' (lshift n i) c.
      by apply/eqP; rewrite -subr_eq0 -h; apply/eqP; mxnorm; Cring.
    by rewrite -[E' _ _ - _]opprB -h; mxnorm; Cring.
  + move=> _ _ h _ _; move: h; rewrite ezE !mxE => h.
    have -> : E' (rshift n i) c - E (rshift n i) c = Ci * RtoC (fl_kx f 0 i) * ez i c.
      by apply/eqP; rewrite -subr_eq0 -h.
    by mxnorm; Cring.
  + by move=> _ _ _ _; rewrite !mxE.
  + by move=> _ _ _ h _; move: h; rewrite !mxE => <-; rewrite opprK.
- case=> hE hH; eexists; eexists; split; [reflexivity|reflexivity|].
  exists ((Ci * RtoC (fl_w f))^-1 *: jz), (eta *m ((Ci * RtoC (fl_w f))^-1 *: jz)); split=> // i c.
  have hy := congr1 (fun M => usubmx M i c) hE; have hx := congr1 (fun M => dsubmx M i c) hE.
  have gx := congr1 (fun M => usubmx M i c) hH; have gy := congr1 (fun M => dsubmx M i c) hH.
  move: hy hx gx gy; rewrite /= !col_mxKu !col_mxKd -!scalemxAr.
  move: (eta *m jz) => J; rewrite !mxE => hy hx gx gy.
  set w := RtoC (fl_w f) in w0 hx hy *.
  have cw : Ci * w != 0 by rewrite mulf_neq0.
  split.
  + by rewrite mulrA mulNr divff // mulN1r addNr.
  + have -> : - E' (lshift n i) c - - E (lshift n i) c = - (E' (lshift n i) c - E (lshift n i) c) by mxnorm; Cring.
    apply: (mulfI w0); rewrite mulr0 opprK mulrDr hy invfM.
    rewrite (_ : w * _ = (w / w) * (Ci / Ci) * (RtoC (fl_ky f 0 i) * J i c)); last by mxnorm; Cring.
    by rewrite !divff // !mul1r addrN.
  + apply: (mulfI w0); rewrite mulr0 mulrBr hx invfM.
    rewrite (_ : w * (Ci * _ * _) = (w / w) * (Ci / Ci) * (RtoC (fl_kx f 0 i) * J i c)); last by mxnorm; Cring.
    by rewrite !divff // !mul1r addrN.
  + by rewrite gy opprK.
  + by [].
Qed.
End Emission.

Section Radiates.
Variables (n m : nat).

Lemma radiatesE wl (ls1 ls2 : seq (layer_solve_result n)) ts1 ts2 before after d kx ky
    (jx jy jz : 'M[C]_(n, m)) pol M y :
  stack_s_matrix ls1 ts1 = Val before -> stack_s_matrix ls2 ts2 = Val after ->
  same_wavelength wl (ls1 ++ ls2) -> finite_fields (ls1 ++ ls2) ->
  let l := (last d (zip ls1 ts1)).1 in
  transverse_wavevectors (in_plane_wavevector l) (primitive_lattice_vectors l) (expansion l) = Val (kx, ky) ->
  emission_matrix before after = Val M ->
  polarization_terms jx jy jz (end_layer_solve_result before) = Val pol ->
  radiates (2 * PI / wl)%coqR kx ky (inverse_z_permittivity_matrix l) jx jy jz (zip ls1 ts1) (zip ls2 ts2) d y <->
  M *m col_mx (fwd_amplitude_after_start y) (bwd_amplitude_before_end y) = pol /\
  [/\ bwd_amplitude_0_end y = s22 before *m bwd_amplitude_before_end y,
      fwd_amplitude_before_start y = s12 before *m bwd_amplitude_before_end y,
      bwd_amplitude_after_end y = s21 after *m fwd_amplitude_after_start y &
      fwd_amplitude_N_start y = s11 after *m fwd_amplitude_after_start y].
Proof.
move=> H1 H2 hw hf l hk hM hp.
have ok1 : allp (okl wl) (zip ls1 ts1).
  by apply: okls => k hl; [apply: hw|apply: hf]; apply: List.in_or_app; left.
have ok2 : allp (okl wl) (zip ls2 ts2).
  by apply: okls => k hl; [apply: hw|apply: hf]; apply: List.in_or_app; right.
have [_ _ [rel1 _ he ne1]] := stack_s_matrixP H1 ok1.
have [_ _ [rel2 hs _ ne2]] := stack_s_matrixP H2 ok2.
have el := he d; have es := hs d; rewrite /l in hk *.
have hl : okl wl (last d (zip ls1 ts1)).
  by case: (zip ls1 ts1) ok1 ne1 => // x s hx _; exact: allp_last hx.
have hh : okl wl (head d (zip ls2 ts2)) by case: (zip ls2 ts2) ok2 ne2 => // x s [].
rewrite -el -es in hl hh *; rewrite -el in hk.
case: hl => wl1 [f]; case: hh => wl2 [f']; rewrite /= in f f' wl1 wl2 hk *.
have [kxE kyE] : kx = fl_kx f /\ ky = fl_ky f by have := fl_k f; rewrite hk => -[-> ->].
have wE : (2 * PI / wl)%coqR = fl_w f.
  by have [_ [_ ->]] := angular_frequencyV (fl_we f); rewrite wl1.
have ww : fl_w f = fl_w f'.
  have [_ [_ ->]] := angular_frequencyV (fl_we f); have [_ [_ ->]] := angular_frequencyV (fl_we f').
  by rewrite wl1 wl2.
rewrite /radiates -el -es kxE kyE wE.
have sh := @sheetE n m (end_layer_solve_result before, end_layer_thickness before) f
  (start_layer_solve_result after, start_layer_thickness after) f' jx jy jz.
have em a' b := @emissionE n m before after f f' M jx jy jz pol a' b hM hp ww.
case: y => b0 a b a' b' aN /=.
have e1 : stack_ends (zip ls1 ts1) 0 b0 a b <-> b0 = s22 before *m b /\ a = s12 before *m b.
  rewrite -rel1 /scatters !mulmx0 !add0r.
  by split=> -[-> ->].
have e2 : stack_ends (zip ls2 ts2) a' b' aN 0 <-> b' = s21 after *m a' /\ aN = s11 after *m a'.
  rewrite -rel2 /scatters !mulmx0 !addr0.
  by split=> -[-> ->].
split.
  case=> /e1 [-> hb0] /e2 [hb' ->] /sh /= h3; split=> //.
  by apply/em; rewrite /= -hb0 -hb'.
case=> /em h [h1 h2 h3 h4]; split; [by apply/e1; split|by apply/e2; split|].
by apply/sh; rewrite /= h2 h3.
Qed.

Lemma amplitudes_for_sourceE (before after : scattering_matrix n) (jx jy jz : 'M[C]_(n, m)) x :
  amplitudes_for_source jx jy jz before after = Val x ->
  exists pol M, [/\ emission_matrix before after = Val M, M \in unitmx &
   polarization_terms jx jy jz (end_layer_solve_result before) = Val pol] /\
   (M *m col_mx (fwd_amplitude_after_start x) (bwd_amplitude_before_end x) = pol /\
   [/\ bwd_amplitude_0_end x = s22 before *m bwd_amplitude_before_end x,
      fwd_amplitude_before_start x = s12 before *m bwd_amplitude_before_end x,
      bwd_amplitude_after_end x = s21 after *m fwd_amplitude_after_start x &
      fwd_amplitude_N_start x = s11 after *m fwd_amplitude_after_start x]).
Proof.
rewrite /amplitudes_for_source => H; binv H pol hp; binv H M hM; binv H ab hs; case: H => <-.
have [u e] := solveV hs.
by exists pol, M; split=> //=; rewrite vsubmxK.
Qed.
End Radiates.

Lemma emission_total n (before after : scattering_matrix n)
    (f : fin_layer (end_layer_solve_result before)) (f' : fin_layer (start_layer_solve_result after)) :
  exists M, emission_matrix before after = Val M.
Proof.
rewrite /emission_matrix (fl_Oe f) /= (fl_Oe f') /=.
have r k (g : fin_layer k) : exists r, recip (eigenvalues k) = Val r :> res 'rV[C]_(n + n).
  rewrite /recip ifT; first by eexists.
  by apply/forallP=> i; exact: fl_q g i.
by have [r1 ->] := r _ f'; have [r2 ->] := r _ f; eexists.
Qed.

(** ** Fields of a supercell *)
Lemma coefficient_sum (I : finType) nx ny (c : I -> C) (V : I -> 'M[C]_(nx, ny)) g :
  fourier_coefficient (\matrix_(a, b) \sum_t c t * V t a b) g = \sum_t c t * fourier_coefficient (V t) g.
Proof.
rewrite /fourier_coefficient.
transitivity ((\sum_t c t * \sum_(a < nx) \sum_(b < ny) V t a b * Cconj (wave nx g.1 a * wave ny g.2 b))
   / RtoC (INR nx * INR ny)%coqR).
  congr (_ / _).
  transitivity (\sum_(a < nx) \sum_t \sum_(b < ny) c t * (V t a b * Cconj (wave nx g.1 a * wave ny g.2 b))).
    apply: eq_bigr => a _; rewrite exchange_big /=; apply: eq_bigr => b _.
    by rewrite mxE big_distrl; apply: eq_bigr => t _ /=; rewrite mulrA.
  rewrite exchange_big /=; apply: eq_bigr => t _.
  by rewrite big_distrr; apply: eq_bigr => a _ /=; rewrite big_distrr.
by rewrite big_distrl; apply: eq_bigr => t _ /=; rewrite mulrA.
Qed.

Lemma unit_cell_shift plv shape (p q a b : nat) : (0 < shape.1)%N -> (0 < shape.2)%N ->
  unit_cell_coordinate plv shape (p * shape.1 + a) (q * shape.2 + b) =
  vadd (unit_cell_coordinate plv shape a b) (lattice_point plv (Z.of_nat p) (Z.of_nat q)).
Proof.
move=> /ltP h1 /ltP h2; rewrite /unit_cell_coordinate /vadd /lattice_point /= !plus_INR !mult_INR -!INR_IZR_INZ.
by have n1 := not_0_INR shape.1 ltac:(lia); have n2 := not_0_INR shape.2 ltac:(lia); congr pair; field.
Qed.

Lemma sum_E N (i j : 'I_N) : \sum_(p < N) E N ((Z.of_nat i - Z.of_nat j) * Z.of_nat p)%coqZ =
  if i == j then RtoC (INR N) else 0.
Proof.
have N0 : (0 < N)%N by exact: leq_ltn_trans (ltn_ord i).
rewrite E_sum //; have hi := ltn_ord i; have hj := ltn_ord j; move/ltP: hi => hi; move/ltP: hj => hj.
case: eqP => [->|ne]; first by rewrite Z.sub_diag.
case: Z.eqb_spec => // e; case: ne; apply: val_inj => /=.
apply: Nat2Z.inj; apply Z.mod_divide in e; last by lia.
case: e => k; move: (nat_of_ord i) (nat_of_ord j) hi hj => x y hi hj hk.
have : (k = 0 \/ k <= -1 \/ 1 <= k)%coqZ by lia.
by case=> [|[]] h; nia.
Qed.

Section Supercell.
Variables (n m n1 n2 : nat) (plv rv : lattice) (expn : n.-tuple (Z * Z)) (cell : nat * nat).
Hypotheses (hr : reciprocal plv = Val rv) (hd : distinct expn) (n0 : n <> 0%N)
  (hres : resolves cell.1 cell.2 expn).
Variables (ks : 'I_n1 -> 'I_n2 -> R * R) (c1 c2 : R).
Hypothesis hk : forall (i : 'I_n1) (j : 'I_n2),
  at_fractions plv (INR i / INR n1 + c1)%coqR (INR j / INR n2 + c2)%coqR (ks i j).
Notation G := (bragg_vector rv expn).
Variables (F : 'I_n1 -> 'I_n2 -> 'M[C]_(n, m)) (field : grid_field m).
Hypothesis hF : forall a b c, (a < n1 * cell.1)%N -> (b < n2 * cell.2)%N ->
  field a b c = (\sum_i \sum_j plane_waves (ks i j) G (F i j) (unit_cell_coordinate plv cell a b) c)
                / RtoC (INR (n1 * n2)).

Lemma phase_difference (i i0 : 'I_n1) (j j0 : 'I_n2) (p q : nat) :
  let T := lattice_point plv (Z.of_nat p) (Z.of_nat q) in
  cexp (Ci * RtoC (dot (ks i j) T)) = cexp (Ci * RtoC (dot (ks i0 j0) T)) *
   (E n1 ((Z.of_nat i - Z.of_nat i0) * Z.of_nat p)%coqZ * E n2 ((Z.of_nat j - Z.of_nat j0) * Z.of_nat q)%coqZ).
Proof.
move=> T; have [h1 h2] := hk i j; have [g1 g2] := hk i0 j0.
have N1 : (0 < n1)%N by exact: leq_ltn_trans (ltn_ord i).
have N2 : (0 < n2)%N by exact: leq_ltn_trans (ltn_ord j).
move/ltP: N1 => N1; move/ltP: N2 => N2.
have i1 := not_0_INR n1 ltac:(lia); have i2 := not_0_INR n2 ltac:(lia).
rewrite /E -!cexpD -!mulrDr -!rmorphD /=; congr (cexp (_ * RtoC _)); rewrite !RaddE.
have e k : dot k T = (INR p * dot k (lat_u plv) + INR q * dot k (lat_v plv))%coqR.
  by rewrite /T /dot /lattice_point /= -!INR_IZR_INZ; ring.
rewrite !e h1 h2 g1 g2 !mult_IZR !minus_IZR -!INR_IZR_INZ.
by field.
Qed.

Lemma process_fieldE (l : layer_solve_result n) (i0 : 'I_n1) (j0 : 'I_n2) :
  primitive_lattice_vectors l = plv -> expansion l = expn -> in_plane_wavevector l = ks i0 j0 ->
  process_field l cell (n1, n2) field = Val (F i0 j0).
Proof.
move=> el ee ek; rewrite /process_field el ee ek.
have hv : validate_shape_for_expansion cell expn = Val tt.
  by rewrite [cell]surjective_pairing; apply/validateP.
have [s1 s2] := resolves_pos n0 hres.
rewrite hv; cbn [bind]; congr Val; apply/matrixP=> o c; rewrite mxE /=.
pose V (t : 'I_n1 * 'I_n2) : 'M[C]_(cell.1, cell.2) := \matrix_(a, b)
  (plane_waves (ks t.1 t.2) G (F t.1 t.2) (unit_cell_coordinate plv cell a b) c /
   cexp (Ci * RtoC (dot (ks i0 j0) (unit_cell_coordinate plv cell a b)))).
pose w (s t : 'I_n1 * 'I_n2) : C :=
  (E n1 ((Z.of_nat t.1 - Z.of_nat i0) * Z.of_nat s.1)%coqZ * E n2 ((Z.of_nat t.2 - Z.of_nat j0) * Z.of_nat s.2)%coqZ)
  / RtoC (INR (n1 * n2)).
transitivity (\sum_(s : 'I_n1 * 'I_n2) \sum_(t : 'I_n1 * 'I_n2) w s t * fourier_coefficient (V t) (tnth expn o)).
  rewrite pair_big; apply: eq_bigr => -[p q] _ /=; rewrite mxE.
  have [b1 b2] := hres o.
  rewrite fft2_entry //; [|by lia|by lia].
  rewrite -coefficient_sum; congr (fourier_coefficient _ _); apply/matrixP=> a b; rewrite !mxE.
  have ha : (p * cell.1 + a < n1 * cell.1)%N.
    by apply: (@leq_trans (p.+1 * cell.1)); [rewrite mulSn addnC ltn_add2r|rewrite leq_mul2r (ltn_ord p) orbT].
  have hb : (q * cell.2 + b < n2 * cell.2)%N.
    by apply: (@leq_trans (q.+1 * cell.2)); [rewrite mulSn addnC ltn_add2r|rewrite leq_mul2r (ltn_ord q) orbT].
  rewrite (hF c ha hb) unit_cell_shift // pair_big /= !big_distrl /=; apply: eq_bigr => -[i j] _ /=.
  rewrite (plane_waves_bloch _ _ _ _ _ _ (fun i => bragg_vectorP expn i hr)) (phase_difference i i0 j j0) /w /= mxE /=.
  rewrite -[cexp (Ci * RtoC (_ + _))]/(cexp (Ci * RtoC (dot (ks i0 j0) (unit_cell_coordinate plv cell (p * cell.1 + a) (q * cell.2 + b))))).
  rewrite unit_cell_shift // dotDr.
  have -> : forall x y : R, cexp (Ci * RtoC (x + y)%coqR) = cexp (Ci * RtoC y) * cexp (Ci * RtoC x).
    by move=> x y; rewrite -cexpD -mulrDr -rmorphD /=; congr (cexp (_ * RtoC _)); rewrite RaddE; ring.
  set T := cexp (Ci * RtoC (dot (ks i0 j0) (lattice_point _ _ _))).
  set D := cexp (Ci * RtoC (dot (ks i0 j0) (unit_cell_coordinate _ _ _ _))).
  have T0 : T != 0 by exact: cexp_neq0.
  have D0 : D != 0 by exact: cexp_neq0.
  rewrite invfM; move: (plane_waves _ _ _ _ _) (E n1 _) (E n2 _) (RtoC (INR _))^-1 => x y z r.
  transitivity (T / T * (y * z * r * (x / D))); first by Cring.
  by rewrite divff // mul1r.
rewrite exchange_big /=.
have ws t : \sum_s w s t = if t == (i0, j0) then 1 else 0.
  transitivity ((\sum_(p < n1) E n1 ((Z.of_nat t.1 - Z.of_nat i0) * Z.of_nat p)%coqZ) *
     (\sum_(q < n2) E n2 ((Z.of_nat t.2 - Z.of_nat j0) * Z.of_nat q)%coqZ) / RtoC (INR (n1 * n2))).
    rewrite !big_distrl; transitivity (\sum_(p < n1) \sum_(q < n2) w (p, q) t); first by rewrite pair_big; apply: eq_bigr => -[].
    by apply: eq_bigr => p _ /=; rewrite -mulrA big_distrl big_distrr; apply: eq_bigr => q _ /=; rewrite /w /= !mulrA.
  rewrite !sum_E; case: t => i j /=; rewrite xpair_eqE.
  case: (i =P i0) => _ /=; last by rewrite mul0r mul0r.
  case: (j =P j0) => _ /=; last by rewrite mulr0 mul0r.
  have N1 : (0 < n1)%N by exact: leq_ltn_trans (ltn_ord i0).
  have N2 : (0 < n2)%N by exact: leq_ltn_trans (ltn_ord j0).
  rewrite -rmorphM /= RmulE -mult_INR divff //.
  apply: RtoC_neq0; apply: not_0_INR.
  by move: N1 N2 => /ltP N1 /ltP N2; rewrite -[(n1 * n2)%coq_nat]/(Nat.mul n1 n2); nia.
transitivity (\sum_t (\sum_s w s t) * fourier_coefficient (V t) (tnth expn o)).
  by apply: eq_bigr => t _; rewrite big_distrl.
rewrite (bigD1 (i0, j0)) //= ws eqxx mul1r [X in _ + X]big1 ?addr0; last first.
  by move=> t /negbTE ht; rewrite ws ht mul0r.
have -> : V (i0, j0) = fourier_series expn (col c (F i0 j0)) cell.1 cell.2.
  apply/matrixP=> a b; rewrite !mxE /= /plane_waves big_distrl; apply: eq_bigr => k _ /=.
  rewrite grid_dot // mxE -!mulrA; congr (_ * (_ * _)).
  by rewrite divff ?mulr1 // cexp_neq0.
by rewrite coefficient_series // mxE.
Qed.
End Supercell.

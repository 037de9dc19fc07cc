(** Proofs about moved structures. *)
From Coq Require Import Reals ZArith Lra Lia.
From mathcomp Require Import all_ssreflect all_algebra.
From Verif Require Import CField Err LinAlg Tac M_utils M_basis M_fft M_fmm_matrices M_fmm M_scattering M_fields S_stack S_maxwell S_fields S_fft S_modes S_shift.
From Verif Require Import L_scattering L_stack L_maxwell L_fft L_fmm L_modes.
Set Implicit Arguments. Unset Strict Implicit. Unset Printing Implicit Defensive.
Import GRing.Theory.
Local Open Scope ring_scope.

(** ** Shifted indices *)
Lemma shift_inj N s : injective (@shift_index N s).
Proof.
move=> i j /(congr1 val) /= /eqP; rewrite eqn_modDr => /eqP h; apply: val_inj; move: h.
by rewrite !modn_small.
Qed.
Lemma shift_uniq N s s' f : is_fraction N s f -> is_fraction N s' f -> @shift_index N s =1 @shift_index N s'.
Proof.
move=> h h' i; apply: val_inj => /=; move: (nat_of_ord i) => k.
case: h => [e|h]; first by rewrite e !modn1.
case: h' => [e|h']; first by rewrite e !modn1.
by have -> : s = s' by apply: INR_eq; rewrite h h'.
Qed.

Section Grid.
Variables (nx ny sx sy : nat) (f : R * R).
Hypothesis (hx : is_fraction nx sx f.1) (hy : is_fraction ny sy f.2).
Implicit Types (x : 'M[C]_(nx, ny)).
Definition mv x x' := forall i j, x' (shift_index sx i) (shift_index sy j) = x i j.
Lemma moved_mv x x' : moved f x x' -> mv x x'.
Proof.
move=> [tx [ty [h1 h2 h]]] i j.
by rewrite (shift_uniq hx h1) (shift_uniq hy h2) h.
Qed.

Lemma phase_axis N s t (g : Z) : is_fraction N s t -> (0 < N)%N -> (N = 1%N -> g = 0%coqZ) ->
  E N (- (g * Z.of_nat s))%coqZ = cexp (- (Ci * RtoC (2 * PI * (IZR g * t))%coqR)).
Proof.
move=> h p g1; rewrite /E -mulrN; have -> : - RtoC (2 * PI * (IZR g * t))%coqR = RtoC (- (2 * PI * (IZR g * t)))%coqR.
  by Creim; ring.
congr (cexp (_ * RtoC _)); rewrite opp_IZR mult_IZR -INR_IZR_INZ.
have n0 : INR N <> 0%coqR by apply: not_0_INR => e; rewrite e in p.
case: h => [/g1 ->|->]; first by rewrite /Rdiv; ring.
by field.
Qed.
Lemma order_phaseD g h : order_phase f (g.1 + h.1, g.2 + h.2)%coqZ = order_phase f g * order_phase f h.
Proof.
rewrite /order_phase -cexpD -opprD -mulrDr /= !plus_IZR; congr (cexp (- (_ * _))).
by Creim; ring.
Qed.
Lemma fc_moved x x' g : (0 < nx)%N -> (0 < ny)%N -> (nx = 1%N -> g.1 = 0%coqZ) -> (ny = 1%N -> g.2 = 0%coqZ) ->
  mv x x' -> fourier_coefficient x' g = order_phase f g * fourier_coefficient x g.
Proof.
move=> px py g1 g2 h; rewrite /fourier_coefficient mulrA; congr (_ / _).
rewrite (reindex_inj (@shift_inj nx sx)) big_distrr; apply: eq_bigr => a _ /=.
rewrite (reindex_inj (@shift_inj ny sy)) big_distrr; apply: eq_bigr => b _ /=.
rewrite h mulrCA; congr (_ * _); rewrite !waveE !rmorphM /= -!EN.
have ax N s t (k : Z) (i : 'I_N) : is_fraction N s t -> (0 < N)%N -> (N = 1%N -> k = 0%coqZ) ->
  E N (- (k * Z.of_nat ((i + s) %% N)))%coqZ = cexp (- (Ci * RtoC (2 * PI * (IZR k * t))%coqR)) * E N (- (k * Z.of_nat i))%coqZ.
  move=> ht pN hk; rewrite -(phase_axis ht pN hk) -ED; apply: E_eqmod => //.
  have -> : Z.of_nat ((i + s) %% N) = ((Z.of_nat i + Z.of_nat s) mod Z.of_nat N)%coqZ.
    rewrite -Nat2Z.inj_add -Nat2Z.inj_mod; congr Z.of_nat.
    have pn : N <> 0%N by move=> e; rewrite e in pN.
    apply: (Nat.mod_unique _ _ ((i + s) %/ N)); first by apply/ltP; rewrite ltn_mod.
    by rewrite multE plusE mulnC -divn_eq.
  rewrite -!Z.mul_opp_l Zmult_mod_idemp_r; congr (_ mod _)%coqZ; ring.
rewrite (ax _ _ _ _ _ hx px g1) (ax _ _ _ _ _ hy py g2) mulrACA; congr (_ * _).
rewrite /order_phase -cexpD -opprD -mulrDr; congr (cexp (- (_ * _))).
by Creim; ring.
Qed.

Variables (n : nat) (expn : n.-tuple (Z * Z)).
Definition dl : 'rV[C]_n := \row_i order_phase f (tnth expn i).
Notation d := (diag dl).
Notation D := (diag (row_mx dl dl)).
Lemma conv_moved x x' T T' : mv x x' -> fourier_convolution_matrix x expn = Val T ->
  fourier_convolution_matrix x' expn = Val T' -> T' *m d = d *m T.
Proof.
move=> h hT hT'.
have e : validate_shape_for_expansion (nx, ny) expn = Val tt.
  by move: hT; rewrite /fourier_convolution_matrix; case: (validateE nx ny expn) => ->.
have [n0 hr] := proj1 (validateP nx ny expn) e; have [px py] := resolves_pos n0 hr.
rewrite (conv_entry hT) (conv_entry hT'); apply/matrixP=> i j; rewrite mul_diag_mx mul_mx_diag !mxE.
rewrite (fc_moved px py _ _ h).
- rewrite mulrAC -order_phaseD; congr (order_phase _ _ * _); rewrite /standard_toeplitz_index /=.
  by case: (tnth expn i) (tnth expn j) => [a b] [a' b'] /=; congr (_, _); ring.
- move=> e1; have a := proj1 (hr i); have b := proj1 (hr j); rewrite e1 in a b.
  by change ((tnth expn i).1 - (tnth expn j).1 = 0)%coqZ; lia.
- move=> e1; have a := proj2 (hr i); have b := proj2 (hr j); rewrite e1 in a b.
  by change ((tnth expn i).2 - (tnth expn j).2 = 0)%coqZ; lia.
Qed.

(** ** Matrices conjugated by the phases *)
Definition cj (A A' : 'M[C]_n) := A' *m d = d *m A.
Definition cjD (A A' : 'M[C]_(n + n)) := A' *m D = D *m A.
Lemma cj_block a b c e a' b' c' e' : cj a a' -> cj b b' -> cj c c' -> cj e e' ->
  cjD (block_mx a b c e) (block_mx a' b' c' e').
Proof.
rewrite /cj /cjD DE !mulmx_block !mulmx0 !mul0mx !addr0 !add0r => -> -> -> -> //.
Qed.
Lemma cj0 : cj 0 0. Proof. by rewrite /cj mul0mx mulmx0. Qed.
Lemma cj_scalar c : cj (diag (const_mx c)) (diag (const_mx c)). Proof. exact: diagC. Qed.
Lemma cj_sub A A' B B' : cj A A' -> cj B B' -> cj (A - B) (A' - B').
Proof. by rewrite /cj mulmxBl mulmxBr => -> ->. Qed.
Lemma cjD_sub A A' B B' : cjD A A' -> cjD B B' -> cjD (A - B) (A' - B').
Proof. by rewrite /cjD mulmxBl mulmxBr => -> ->. Qed.
Lemma cjD_mul A A' B B' : cjD A A' -> cjD B B' -> cjD (A *m B) (A' *m B').
Proof. by rewrite /cjD -mulmxA => h ->; rewrite !mulmxA h. Qed.
Lemma cj_inv A A' X X' : cj A A' -> inv A = Val X -> inv A' = Val X' -> cj X X'.
Proof. move=> h /invV [u ->] /invV [u' ->]; exact: inv_conj. Qed.

(** ** Pointwise functions of moved patterns *)
Lemma mv_map (g : C -> C) x x' : mv x x' -> mv (map_mx g x) (map_mx g x').
Proof. by move=> h i j; rewrite !mxE h. Qed.
Lemma mv_opp x x' : mv x x' -> mv (- x) (- x').
Proof. by move=> h i j; rewrite !mxE h. Qed.
Lemma mv_const c : mv (const_mx c) (const_mx c).
Proof. by move=> i j; rewrite !mxE. Qed.
Lemma mv_recip x x' y y' : mv x x' -> recipM x = Val y -> recipM x' = Val y' -> mv y y'.
Proof. by move=> h /recipMV [_ ->] /recipMV [_ ->]; exact: mv_map. Qed.
Lemma mv_fun2 (g : C -> C -> C) x x' y y' : mv x x' -> mv y y' ->
  mv (\matrix_(i, j) g (x i j) (y i j)) (\matrix_(i, j) g (x' i j) (y' i j)).
Proof. by move=> h k i j; rewrite !mxE h k. Qed.
Definition mv22 (g g' : grid22 nx ny) :=
  [/\ mv (g00 g) (g00 g'), mv (g01 g) (g01 g'), mv (g10 g) (g10 g') & mv (g11 g) (g11 g')].
Lemma at22_mv g g' i j : mv22 g g' -> at22 g' (shift_index sx i) (shift_index sy j) = at22 g i j.
Proof. by move=> [h1 h2 h3 h4]; rewrite /at22 h1 h2 h3 h4. Qed.
Lemma solve22_mv t t' a a' u u' : mv22 t t' -> mv22 a a' -> solve22 t a = Val u -> solve22 t' a' = Val u' -> mv22 u u'.
Proof.
rewrite /solve22 => ht ha; case: ifP => // _ [<-]; case: ifP => // _ [<-].
by split=> i j /=; rewrite !mxE !(at22_mv i j ht) !(at22_mv i j ha).
Qed.

(** ** Transverse matrices *)
Lemma fft_mv x x' T T' : mv x x' -> transverse_permittivity_fft x expn = Val T ->
  transverse_permittivity_fft x' expn = Val T' -> cjD T T'.
Proof.
rewrite /transverse_permittivity_fft => h H H'; binv H a ha; binv H' a' ha'; case: H => <-; case: H' => <-.
by apply: cj_block; try exact: cj0; exact: conv_moved h ha ha'.
Qed.
Lemma vector_mv x x' tx tx' ty ty' T T' : mv x x' -> mv tx tx' -> mv ty ty' ->
  transverse_permittivity_vector x tx ty expn = Val T ->
  transverse_permittivity_vector x' tx' ty' expn = Val T' -> cjD T T'.
Proof.
rewrite /transverse_permittivity_vector => h hx' hy' H H'.
binv H a ha; binv H b hb; binv H c hc; binv H e he; binv H p1 h1; binv H p2 h2; binv H p3 h3; binv H p4 h4; case: H => <-.
binv H' a' ha'; binv H' b' hb'; binv H' c' hc'; binv H' e' he'; binv H' q1 h1'; binv H' q2 h2'; binv H' q3 h3'; binv H' q4 h4'; case: H' => <-.
have ca := conv_moved h ha ha'; have cc := conv_moved (mv_recip h hb hb') hc hc'.
have ce := cj_inv cc he he'; have cde := cj_sub ca ce.
apply: cjD_sub; first by apply: cj_block; try exact: cj0; exact: ca.
apply: cjD_mul; first by apply: cj_block; try exact: cj0; exact: cde.
apply: cj_block.
- exact: conv_moved (mv_fun2 (fun u v => (tangent_terms u v).2) hx' hy') h1 h1'.
- exact: conv_moved (mv_fun2 (fun u v => (tangent_terms u v).1.2) hx' hy') h2 h2'.
- exact: conv_moved (mv_fun2 (fun u v => (tangent_terms u v).1.1.2) hx' hy') h3 h3'.
- exact: conv_moved (mv_fun2 (fun u v => (tangent_terms u v).1.1.1) hx' hy') h4 h4'.
Qed.
Lemma fft_eps_mv (t t' : tensor 'M[C]_(nx, ny)) T T' :
  mv (t_xx t) (t_xx t') -> mv (t_xy t) (t_xy t') -> mv (t_yx t) (t_yx t') -> mv (t_yy t) (t_yy t') ->
  transverse_permittivity_fft_anisotropic (t_xx t) (t_xy t) (t_yx t) (t_yy t) expn = Val T ->
  transverse_permittivity_fft_anisotropic (t_xx t') (t_xy t') (t_yx t') (t_yy t') expn = Val T' -> cjD T T'.
Proof.
rewrite /transverse_permittivity_fft_anisotropic => h1 h2 h3 h4 H H'.
binv H a ha; binv H b hb; binv H c hc; binv H e he; case: H => <-.
binv H' a' ha'; binv H' b' hb'; binv H' c' hc'; binv H' e' he'; case: H' => <-.
apply: cj_block; [exact: conv_moved h4 ha ha'|exact: conv_moved (mv_opp h3) hb hb'|exact: conv_moved (mv_opp h2) hc hc'|exact: conv_moved h1 he he'].
Qed.
Lemma fft_mu_mv (t t' : tensor 'M[C]_(nx, ny)) T T' :
  mv (t_xx t) (t_xx t') -> mv (t_xy t) (t_xy t') -> mv (t_yx t) (t_yx t') -> mv (t_yy t) (t_yy t') ->
  transverse_permeability_fft_anisotropic (t_xx t) (t_xy t) (t_yx t) (t_yy t) expn = Val T ->
  transverse_permeability_fft_anisotropic (t_xx t') (t_xy t') (t_yx t') (t_yy t') expn = Val T' -> cjD T T'.
Proof.
rewrite /transverse_permeability_fft_anisotropic => h1 h2 h3 h4 H H'.
binv H a ha; binv H b hb; binv H c hc; binv H e he; case: H => <-.
binv H' a' ha'; binv H' b' hb'; binv H' c' hc'; binv H' e' he'; case: H' => <-.
apply: cj_block; [exact: conv_moved h1 ha ha'|exact: conv_moved h2 hb hb'|exact: conv_moved h3 hc hc'|exact: conv_moved h4 he he'].
Qed.
Lemma mv_fun4 (g : C -> C -> C -> C -> C) x x' y y' z z' w w' : mv x x' -> mv y y' -> mv z z' -> mv w w' ->
  mv (\matrix_(i, j) g (x i j) (y i j) (z i j) (w i j)) (\matrix_(i, j) g (x' i j) (y' i j) (z' i j) (w' i j)).
Proof. by move=> h1 h2 h3 h4 i j; rewrite !mxE h1 h2 h3 h4. Qed.
Lemma rotation_mv a a' b b' c c' e e' r r' : mv a a' -> mv b b' -> mv c c' -> mv e e' ->
  rotation_matrices a b c e expn = Val r -> rotation_matrices a' b' c' e' expn = Val r' ->
  [/\ mv22 r.1.1 r'.1.1, cjD r.1.2 r'.1.2 & cjD r.2 r'.2].
Proof.
rewrite /rotation_matrices => ha hb hc he H H'.
binv H f1 h1; binv H f2 h2; binv H f3 h3; binv H f4 h4; binv H i1 h5; binv H i2 h6; binv H i3 h7; binv H i4 h8; case: H => <-.
binv H' f1' h1'; binv H' f2' h2'; binv H' f3' h3'; binv H' f4' h4'; binv H' i1' h5'; binv H' i2' h6'; binv H' i3' h7'; binv H' i4' h8'; case: H' => <-.
pose den (x y z w : C) := RtoC (if isclose0 (Cmod (x * w - z * y)) then 1%coqR else Cmod (x * w - z * y)).
split=> /=; first by split.
- apply: cj_block; [exact: conv_moved ha h1 h1'|exact: conv_moved hb h2 h2'|exact: conv_moved hc h3 h3'|exact: conv_moved he h4 h4'].
- apply: cj_block.
  + exact: conv_moved (mv_fun4 (fun x y z w : C => w / den x y z w) ha hb hc he) h5 h5'.
  + exact: conv_moved (mv_fun4 (fun x y z w : C => - y / den x y z w) ha hb hc he) h6 h6'.
  + exact: conv_moved (mv_fun4 (fun x y z w : C => - z / den x y z w) ha hb hc he) h7 h7'.
  + exact: conv_moved (mv_fun4 (fun x y z w : C => x / den x y z w) ha hb hc he) h8 h8'.
Qed.
Lemma rotated_mv g g' r r' T T' : mv22 g g' -> [/\ mv22 r.1.1 r'.1.1, cjD r.1.2 r'.1.2 & cjD r.2 r'.2] ->
  rotated_fourier_matrix g r expn = Val T -> rotated_fourier_matrix g' r' expn = Val T' -> cjD T T'.
Proof.
rewrite /rotated_fourier_matrix => hg [hr1 hr2 hr3] H H'.
binv H s hs; binv H a ha; binv H b hb; binv H c hc; binv H u hu; binv H v hv; binv H e he; case: H => <-.
binv H' s' hs'; binv H' a' ha'; binv H' b' hb'; binv H' c' hc'; binv H' u' hu'; binv H' v' hv'; binv H' e' he'; case: H' => <-.
have [s1 s2 s3 s4] := solve22_mv hr1 hg hs hs'.
apply: cjD_mul hr3; apply: cjD_mul hr2 _; apply: cj_block.
- exact: conv_moved s1 ha ha'.
- exact: conv_moved s2 hb hb'.
- exact: conv_moved s3 hc hc'.
- exact: cj_inv (conv_moved (mv_recip s4 hu hu') hv hv') he he'.
Qed.
Lemma vector_eps_mv (t t' : tensor 'M[C]_(nx, ny)) tx tx' ty ty' T T' :
  mv (t_xx t) (t_xx t') -> mv (t_xy t) (t_xy t') -> mv (t_yx t) (t_yx t') -> mv (t_yy t) (t_yy t') ->
  mv tx tx' -> mv ty ty' ->
  transverse_permittivity_vector_anisotropic (t_xx t) (t_xy t) (t_yx t) (t_yy t) tx ty expn = Val T ->
  transverse_permittivity_vector_anisotropic (t_xx t') (t_xy t') (t_yx t') (t_yy t') tx' ty' expn = Val T' -> cjD T T'.
Proof.
rewrite /transverse_permittivity_vector_anisotropic => h1 h2 h3 h4 h5 h6 H H'; binv H r hr; binv H' r' hr'.
apply: rotated_mv H H'; first by split=> //; exact: mv_opp.
by apply: rotation_mv hr hr' => //; [exact: mv_map|exact: mv_opp|exact: mv_map].
Qed.
Lemma vector_mu_mv (t t' : tensor 'M[C]_(nx, ny)) tx tx' ty ty' T T' :
  mv (t_xx t) (t_xx t') -> mv (t_xy t) (t_xy t') -> mv (t_yx t) (t_yx t') -> mv (t_yy t) (t_yy t') ->
  mv tx tx' -> mv ty ty' ->
  transverse_permeability_vector_anisotropic (t_xx t) (t_xy t) (t_yx t) (t_yy t) tx ty expn = Val T ->
  transverse_permeability_vector_anisotropic (t_xx t') (t_xy t') (t_yx t') (t_yy t') tx' ty' expn = Val T' -> cjD T T'.
Proof.
rewrite /transverse_permeability_vector_anisotropic => h1 h2 h3 h4 h5 h6 H H'; binv H r hr; binv H' r' hr'.
apply: rotated_mv H H'; first by split.
by apply: rotation_mv hr hr' => //; [apply: mv_opp; exact: mv_map|exact: mv_map].
Qed.
End Grid.

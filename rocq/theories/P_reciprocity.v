(** C59: reciprocity. *)
From Coq Require Import Reals ZArith Lra Lia.
From mathcomp Require Import all_ssreflect all_algebra fingroup perm.
From Verif Require Import CField Err LinAlg Tac M_utils M_basis M_fft M_fmm_matrices M_fmm M_scattering M_fields S_stack S_maxwell S_fft S_modes S_reciprocity.
From Verif Require Import L_scattering L_stack L_maxwell L_flux L_fft L_modes L_reciprocity L_example S_shift P_scattering P_maxwell P_modes P_fmm P_shift.
Set Implicit Arguments. Unset Strict Implicit. Unset Printing Implicit Defensive.
Import GRing.Theory.
Local Open Scope ring_scope.

(** ** The solvers *)
Lemma opposite_k n (s : 'S_n) k0 plv expn expn' kx ky kx' ky' : opposite s expn expn' ->
  transverse_wavevectors k0 plv expn = Val (kx, ky) ->
  transverse_wavevectors (opposite_wavevector k0) plv expn' = Val (kx', ky') ->
  anti s kx kx' /\ anti s ky ky'.
Proof.
rewrite /transverse_wavevectors => h H H'; binv H r hr; rewrite hr /= in H'.
case: H => <- <-; case: H' => <- <-; split=> i; rewrite !mxE h /= !opp_IZR; ring.
Qed.
Lemma conv_opposite n (s : 'S_n) nx ny (x : 'M[C]_(nx, ny)) expn expn' T T' : opposite s expn expn' ->
  fourier_convolution_matrix x expn = Val T -> fourier_convolution_matrix x expn' = Val T' -> tp s T T'.
Proof.
move=> h H H'; rewrite (conv_entry H) (conv_entry H') /tp -row_permE.
apply/matrixP=> i k; rewrite -[k](permKV s); move: (perm_inv _ _) => j.
rewrite -[_ *m _]trmxK trmx_mul trmxK tr_perm_mx -row_permE !mxE permK.
congr fourier_coefficient; rewrite /standard_toeplitz_index !h.
by case: (tnth expn i) (tnth expn j) => [a b] [c d] /=; congr pair; ring.
Qed.
Lemma numerical_pair eig eig' n (s : 'S_n) wl k0 plv (ez iez mz imz ez' iez' mz' imz' : 'M[C]_n) et mt et' mt' expn expn' tvf tvf' l l' :
  eig_spec eig -> eig_spec eig' -> opposite s expn expn' ->
  tp s ez ez' -> tpD s et et' -> tp s mz mz' -> tpD s mt mt' ->
  numerical_eigensolve eig wl k0 plv ez iez et mz imz mt expn tvf = Val l ->
  numerical_eigensolve eig' wl (opposite_wavevector k0) plv ez' iez' et' mz' imz' mt' expn' tvf' = Val l' ->
  rpair s l l'.
Proof.
move=> he he' ho c1 c2 c3 c4 H H'.
have [x [a1 [a2 [a3 a4]]] [a5 a6] [a7 a8] [a9 _]] := numerical_exact he H.
have [x' [b1 [b2 [b3 b4]]] [b5 b6] [b7 b8] [b9 _]] := numerical_exact he' H'.
split; rewrite ?a1 ?a2 ?a3 ?a4 ?a5 ?a7 ?a9 ?b1 ?b2 ?b3 ?b4 ?b5 ?b7 ?b9 //.
- by move=> kx ky kx' ky'; exact: opposite_k.
- by exists et, et'.
- exact: numerical_root H.
- exact: numerical_root H'.
Qed.
Lemma tp_opp n (s : 'S_n) A A' : tp s A A' -> tp s (- A) (- A').
Proof. by rewrite /tp linearN /= mulNmx mulmxN => ->. Qed.
Lemma general_pair eig eig' n (s : 'S_n) nx ny wl k0 plv (eps eps' mu mu' : tensor 'M[C]_(nx, ny)) expn expn' src src' l l' :
  eig_spec eig -> eig_spec eig' -> opposite s expn expn' -> transposed eps eps' -> transposed mu mu' ->
  eigensolve_general_anisotropic_media eig wl k0 plv eps mu expn FFT src = Val l ->
  eigensolve_general_anisotropic_media eig' wl (opposite_wavevector k0) plv eps' mu' expn' FFT src' = Val l' ->
  rpair s l l'.
Proof.
move=> he he' ho [e1 e2 e3 e4 e5] [m1 m2 m3 m4 m5]; rewrite /eigensolve_general_anisotropic_media; case: eqP => _.
  rewrite /eigensolve_uniform_general_anisotropic_media /= e1 e2 e3 e4 e5 m1 m2 m3 m4 m5 => H H'.
  binv H r hr; binv H r' hr'; rewrite hr hr' /= in H'.
  by apply: (numerical_pair he he' ho _ _ _ _ H H'); try exact: tp_scalar; apply: tp_block; exact: tp_scalar.
rewrite /eigensolve_patterned_general_anisotropic_media /fourier_matrices_patterned_anisotropic_media /= => H H'.
binv H r hr; binv hr a ha; binv hr b hb; binv hr c hc; binv hr e hE; binv hr u hu; binv hr v hv; binv hr w hw; binv hr y hY; case: hr => er; subst r.
binv H' r' hr; binv hr a' ha'; binv hr b' hb'; binv hr c' hc'; binv hr e' hE'; binv hr u' hu'; binv hr v' hv'; binv hr w' hw'; binv hr y' hY'; case: hr => er; subst r'.
rewrite e5 in hc'; rewrite m5 in hw'; rewrite e1 e2 e3 e4 in hE'; rewrite m1 m2 m3 m4 in hY'.
apply: (numerical_pair he he' ho _ _ _ _ H H').
- exact: conv_opposite ho hc hc'.
- move: hE hE'; rewrite /transverse_permittivity_fft_anisotropic => hE hE'.
  binv hE p1 h1; binv hE p2 h2; binv hE p3 h3; binv hE p4 h4; case: hE => <-.
  binv hE' q1 g1; binv hE' q2 g2; binv hE' q3 g3; binv hE' q4 g4; case: hE' => <-.
  by apply: tp_block; [exact: conv_opposite ho h1 g1|exact: conv_opposite ho h3 g2|exact: conv_opposite ho h2 g3|exact: conv_opposite ho h4 g4].
- exact: conv_opposite ho hw hw'.
- move: hY hY'; rewrite /transverse_permeability_fft_anisotropic => hE0 hE1.
  binv hE0 p1 h1; binv hE0 p2 h2; binv hE0 p3 h3; binv hE0 p4 h4; case: hE0 => <-.
  binv hE1 q1 g1; binv hE1 q2 g2; binv hE1 q3 g3; binv hE1 q4 g4; case: hE1 => <-.
  by apply: tp_block; [exact: conv_opposite ho h1 g1|exact: conv_opposite ho h3 g2|exact: conv_opposite ho h2 g3|exact: conv_opposite ho h4 g4].
Qed.
Lemma isotropic_pair eig eig' n (s : 'S_n) nx ny wl k0 plv (eps : 'M[C]_(nx, ny)) expn expn' l l' :
  eig_spec eig -> eig_spec eig' -> opposite s expn expn' ->
  eigensolve_isotropic_media eig wl k0 plv eps expn FFT = Val l ->
  eigensolve_isotropic_media eig' wl (opposite_wavevector k0) plv eps expn' FFT = Val l' ->
  rpair s l l'.
Proof.
move=> he he' ho; rewrite /eigensolve_isotropic_media; case: eqP => _.
  move=> H H'; have [x [a1 [a2 [a3 a4]]] _ [a5 a6] [a7 a8 a9]] := uniform_exact H.
  have [x' [b1 [b2 [b3 b4]]] _ [b5 b6] [b7 b8 b9]] := uniform_exact H'.
  have t1 : tpD s 1%:M 1%:M by rewrite /tpD trmx1 mul1mx mulmx1.
  have t2 : tp s 1%:M 1%:M by rewrite /tp trmx1 mul1mx mulmx1.
  split; rewrite ?a1 ?a2 ?a3 ?a4 ?a5 ?a7 ?a9 ?b1 ?b2 ?b3 ?b4 ?b5 ?b7 ?b9 //.
  - by move=> kx ky kx' ky'; exact: opposite_k.
  - exact: tp_scalar.
  - exists (diag (const_mx (squeeze11 eps))), (diag (const_mx (squeeze11 eps))); split=> //.
    by rewrite /tpD !diag_const_mx tr_scalar_mx mul_scalar_mx mul_mx_scalar.
  - exact: uniform_root H.
  - exact: uniform_root H'.
rewrite /eigensolve_patterned_isotropic_media /fourier_matrices_patterned_isotropic_media /= => H H'.
binv H r hr; binv hr i hi; binv hr iz hiz; binv hr z hz; binv hr et het; case: hr => er; subst r.
binv H' r' hr; binv hr i' hi'; binv hr iz' hiz'; binv hr z' hz'; binv hr et' het'; case: hr => er; subst r'.
apply: (numerical_pair he he' ho _ _ _ _ H H').
- exact: conv_opposite ho hz hz'.
- move: het het'; rewrite /transverse_permittivity_fft => H0 H1.
  binv H0 p1 h1; case: H0 => <-; binv H1 q1 g1; case: H1 => <-.
  by apply: tp_block; try exact: tp0; exact: conv_opposite ho h1 g1.
- exact: tp_scalar.
- by apply: tp_block; exact: tp_scalar.
Qed.
Lemma reciprocal_pair eig eig' n (s : 'S_n) l l' : eig_spec eig -> eig_spec eig' ->
  reciprocal_solve eig eig' s l l' -> rpair s l l'.
Proof.
move=> he he'; case=> {l l'}.
- by move=> nx ny wl k0 plv eps expn expn' l l' ho; exact: isotropic_pair.
- by move=> nx ny wl k0 plv eps eps' expn expn' l l' ho ht H H'; apply: (general_pair he he' ho ht _ H H'); split.
- by move=> nx ny wl k0 plv eps eps' mu mu' expn expn' src src' l l' ho ht hm; exact: general_pair.
Qed.

(** ** Layers *)
Section Recip.
Variables (eig eig' : eig_fn) (n : nat) (s : 'S_n).
Hypotheses (he : eig_spec eig) (he' : eig_spec eig').
Implicit Types (l : layer_solve_result n) (ls : seq (layer_solve_result n)).
Notation recipr := (reciprocal_solve eig eig' s).

Lemma reported_fin l t m (a b : 'M[C]_(n + n, m)) z F : reported_fields l t a b z = Val F -> inhabited (fin_layer l).
Proof. by rewrite /reported_fields /fields_from_wave_amplitudes => H; binv H M hM; exact: fin_layerP hM. Qed.
Lemma layer_reaction l l' (f : fin_layer l) (f' : fin_layer l') m m' t z (a b : 'M[C]_(n + n, m)) (a' b' : 'M[C]_(n + n, m')) F F' j j' :
  rpair s l l' -> reported_fields l t a b z = Val F -> reported_fields l' t a' b' z = Val F' ->
  reaction s F F' j j' = ((a^T *m X s l' f *m (diag (phase (eigenvalues l') t) *m b')
    - b^T *m X s l' f *m (diag (phase (eigenvalues l') t) *m a')) *+ 2) j j'.
Proof.
move=> rp; rewrite (reportedE f) (reportedE f') => -[<-] [<-]; rewrite reactionE.
by rewrite -(rmat_depth f f' rp t z).
Qed.
Lemma layer_reaction_const l l' m m' t z z' (a b : 'M[C]_(n + n, m)) (a' b' : 'M[C]_(n + n, m')) F F' G G' j j' :
  rpair s l l' -> reported_fields l t a b z = Val F -> reported_fields l' t a' b' z = Val F' ->
  reported_fields l t a b z' = Val G -> reported_fields l' t a' b' z' = Val G' ->
  reaction s F F' j j' = reaction s G G' j j'.
Proof.
move=> rp hF hF' hG hG'; have [f] := reported_fin hF; have [f'] := reported_fin hF'.
by rewrite (layer_reaction f f' j j' rp hF hF') (layer_reaction f f' j j' rp hG hG').
Qed.

(** The reaction of two fields is the same at every depth. *)
Theorem C59_layer l l' m m' t (a b : 'M[C]_(n + n, m)) (a' b' : 'M[C]_(n + n, m')) z z' F F' G G' :
  recipr l l' ->
  reported_fields l t a b z = Val F -> reported_fields l' t a' b' z = Val F' ->
  reported_fields l t a b z' = Val G -> reported_fields l' t a' b' z' = Val G' ->
  forall j j', reaction s F F' j j' = reaction s G G' j j'.
Proof. by move=> /(reciprocal_pair he he') rp hF hF' hG hG' j j'; exact: layer_reaction_const rp hF hF' hG hG'. Qed.

Lemma same_reaction m m' (F G : fields6 'M[C]_(n, m)) (F' G' : fields6 'M[C]_(n, m')) j j' :
  same_tangential F G -> same_tangential F' G' -> reaction s F F' j j' = reaction s G G' j j'.
Proof.
case: F G => [x y z u v w] [x1 y1 z1 u1 v1 w1] [-> -> -> ->].
by case: F' G' => [x' y' z' u' v' w'] [x1' y1' z1' u1' v1' w1'] [-> -> -> ->].
Qed.

Definition rok (k k' : layer n) := k'.2 = k.2 /\ rpair s k.1 k'.1.
Lemma pair_reaction m m' (k k' : layer n) (x : layer_amplitudes n m) (x' : layer_amplitudes n m') : rok k k' ->
  exists w : 'M[C]_(m, m'), forall z F F', reported_fields k.1 k.2 x.1 x.2 z = Val F ->
    reported_fields k'.1 k'.2 x'.1 x'.2 z = Val F' -> forall j j', reaction s F F' j j' = w j j'.
Proof.
case: k k' => [l t] [l' t'] [/= -> rp].
case e : (reported_fields l t x.1 x.2 0%coqR) => [G|er]; last first.
  by exists 0 => z F F' hF; have [f] := reported_fin hF; move: e; rewrite (reportedE f).
case e' : (reported_fields l' t x'.1 x'.2 0%coqR) => [G'|er]; last first.
  by exists 0 => z F F' _ hF; have [f] := reported_fin hF; move: e'; rewrite (reportedE f).
exists (\matrix_(j, j') reaction s G G' j j') => z F F' hF hF' j j'.
by rewrite mxE; exact: layer_reaction_const rp hF hF' e e'.
Qed.
Lemma solution_cons m (k k1 : layer n) ks (xs : seq (layer_amplitudes n m)) :
  stack_solution [:: k, k1 & ks] xs ->
  exists x x1 xs0, [/\ xs = [:: x, x1 & xs0], interface_matched k x k1 x1 & stack_solution (k1 :: ks) (x1 :: xs0)].
Proof.
move=> S; have := stack_solution_size S; case: xs S => [|x [|x1 xs]] // [c S] _.
by exists x, x1, xs.
Qed.
Lemma solution_one m (k : layer n) (xs : seq (layer_amplitudes n m)) : stack_solution [:: k] xs -> exists x, xs = [:: x].
Proof. by move=> S; have := stack_solution_size S; case: xs S => [|x [|x1 xs]] // _ _; exists x. Qed.
Lemma stack_reaction m m' (ks ks' : seq (layer n)) (xs : seq (layer_amplitudes n m)) (xs' : seq (layer_amplitudes n m')) :
  List.Forall2 rok ks ks' -> stack_solution ks xs -> stack_solution ks' xs' ->
  exists w : 'M[C]_(m, m'), forall d d' x x' i, (i < size ks)%N ->
    let k := nth d ks i in let k' := nth d' ks' i in
    forall z F F', reported_fields k.1 k.2 (nth x xs i).1 (nth x xs i).2 z = Val F ->
      reported_fields k'.1 k'.2 (nth x' xs' i).1 (nth x' xs' i).2 z = Val F' ->
      forall j j', reaction s F F' j j' = w j j'.
Proof.
move=> H; elim: H xs xs' => {ks ks'} [|k k' ks ks' h hs IH] xs xs'; first by move=> _ _; exists 0.
case: hs IH => {ks ks'} [|k1 k1' ks ks' h1 hs] IH.
  move=> S0 S0'; have [x e] := solution_one S0; have [x' e'] := solution_one S0'; subst xs xs'; clear S0 S0'.
  have [w hw] := pair_reaction x x' h; exists w => d d' y y' [|i] hi kk kk' z F F' hF hF' j j'.
    exact: (hw z F F' hF hF' j j').
  by clear -hi.
move=> S0 S0'; have [x [x1 [xs0 [e c S]]]] := solution_cons S0.
have [x' [x1' [xs0' [e' c' S']]]] := solution_cons S0'.
subst xs xs'; clear S0 S0'.
have [w hw] := IH _ _ S S'; exists w => d d' y y' [|i] hi kk kk' z F F' hF hF' j j'; last first.
  exact: (hw d d' y y' i hi z F F' hF hF' j j').
have [G [G1 [hG hG1 sG]]] := interface_flux c; have [G' [G1' [hG' hG1' sG']]] := interface_flux c'.
have [v hv] := pair_reaction x x' h.
have [e2 _] := h; rewrite [Y in reported_fields _ _ _ _ Y]e2 in hG'.
rewrite (hv z F F' hF hF' j j') -(hv k.2 G G' hG hG' j j').
rewrite (same_reaction j j' sG sG').
exact: (hw k1 k1' x1 x1' 0%N isT _ _ _ hG1 hG1').
Qed.
Lemma rok_zip ls ls' (ts : seq R) : List.Forall2 recipr ls ls' -> List.Forall2 rok (zip ls ts) (zip ls' ts).
Proof.
move=> H; elim: H ts => [|l l' ks ks' h hs IH] [|t ts]; try by constructor.
by constructor; [split=> //; exact: reciprocal_pair he he' h|exact: IH].
Qed.

(** ... and in every layer of a stack. *)
Theorem C59_stack ls ls' (ts : seq R) m m' (xs : seq (layer_amplitudes n m)) (xs' : seq (layer_amplitudes n m')) :
  List.Forall2 recipr ls ls' -> size ls = size ts ->
  stack_solution (zip ls ts) xs -> stack_solution (zip ls' ts) xs' ->
  exists w : 'M[C]_(m, m'), forall d d' x x' i, (i < size ls)%N ->
    let k := nth d (zip ls ts) i in let k' := nth d' (zip ls' ts) i in
    forall z F F', reported_fields k.1 k.2 (nth x xs i).1 (nth x xs i).2 z = Val F ->
      reported_fields k'.1 k'.2 (nth x' xs' i).1 (nth x' xs' i).2 z = Val F' ->
      forall j j', reaction s F F' j j' = w j j'.
Proof.
move=> H sz S S'; have [w hw] := stack_reaction (rok_zip ts H) S S'.
by exists w => d d' x x' i hi; apply: hw; rewrite size_zip -sz minnn.
Qed.
Lemma same_wl' wl ls ls' : List.Forall2 recipr ls ls' -> same_wavelength wl ls -> same_wavelength wl ls'.
Proof.
move=> H; elim: H => [|l l' ks ks' h hs IH] hw k //= [<-|hk].
  by rewrite (rc_wl (reciprocal_pair he he' h)); apply: hw; left.
by apply: IH => // j hj; apply: hw; right.
Qed.

(** The scattering matrices of the two stacks. *)
Theorem C59_scattering wl ls ls' (ts : seq R) S S' m m' (a_0 b_0 a_N b_N : 'M[C]_(n + n, m)) (a_0' b_0' a_N' b_N' : 'M[C]_(n + n, m'))
    z z' F F' G G' :
  List.Forall2 recipr ls ls' -> same_wavelength wl ls -> finite_fields ls -> finite_fields ls' ->
  stack_s_matrix ls ts = Val S -> stack_s_matrix ls' ts = Val S' ->
  scatters S a_0 b_0 a_N b_N -> scatters S' a_0' b_0' a_N' b_N' ->
  reported_fields (start_layer_solve_result S) (start_layer_thickness S) a_0 b_0 z = Val F ->
  reported_fields (start_layer_solve_result S') (start_layer_thickness S') a_0' b_0' z = Val F' ->
  reported_fields (end_layer_solve_result S) (end_layer_thickness S) a_N b_N z' = Val G ->
  reported_fields (end_layer_solve_result S') (end_layer_thickness S') a_N' b_N' z' = Val G' ->
  forall j j', reaction s F F' j j' = reaction s G G' j j'.
Proof.
move=> H hw hf hf' hS hS' sc sc' hF hF' hG hG' j j'.
have [sz rel hs he0] := C01_stack_s_matrix_is_field_continuity hS hw hf.
have [sz' rel' hs' he0'] := C01_stack_s_matrix_is_field_continuity hS' (same_wl' H hw) hf'.
have [x0 [xs [sol ex0 exl]]] := (rel _ _ _ _ _).1 sc.
have [x0' [xs' [sol' ex0' exl']]] := (rel' _ _ _ _ _).1 sc'.
have [w hW] := stack_reaction (rok_zip ts H) sol sol'.
have q := stack_solution_size sol; have q' := stack_solution_size sol'.
have z1 : size (zip ls' ts) = size (zip ls ts) by rewrite !size_zip sz sz'.
move: (zip ls ts) (zip ls' ts) hs he0 hs' he0' hW q q' z1 => ks ks' hs he0 hs' he0' hW q q' z1.
have p0 : (0 < size ks)%N by rewrite -q.
set d := (start_layer_solve_result S, start_layer_thickness S).
set d' := (start_layer_solve_result S', start_layer_thickness S').
have e1 : d = nth d ks 0 by rewrite nth0 -hs.
have e1' : d' = nth d' ks' 0 by rewrite nth0 -hs'.
have e2 : (end_layer_solve_result S, end_layer_thickness S) = nth d ks (size ks).-1 by rewrite nth_last -he0.
have e2' : (end_layer_solve_result S', end_layer_thickness S') = nth d' ks' (size ks).-1 by rewrite -z1 nth_last -he0'.
have l1 : nth x0 (x0 :: xs) (size ks).-1 = (a_N, b_N) by rewrite -q nth_last.
have l1' : nth x0' (x0' :: xs') (size ks).-1 = (a_N', b_N') by rewrite -z1 -q' nth_last.
have k1 := hW d d' x0 x0' 0%N p0 z F F'; rewrite -e1 -e1' ex0 ex0' /= in k1.
have k2 := hW d d' x0 x0' (size ks).-1; rewrite -e2 -e2' l1 l1' /= in k2.
by rewrite (k1 hF hF') (k2 _ _ _ _ hG hG') // prednK.
Qed.

Lemma rok_ends d d' (ks ks' : seq (layer n)) : List.Forall2 rok ks ks' -> (0 < size ks)%N ->
  rok (head d ks) (head d' ks') /\ rok (last d ks) (last d' ks').
Proof.
case=> [//|k k' us us' h hs] _; split; first exact: h.
rewrite /=; clear d d'; elim: hs k k' h => [//|u u' vs vs' hu _ IH] k k' _; exact: IH.
Qed.
Lemma smat_ends wl ls ls' (ts : seq R) S S' :
  List.Forall2 recipr ls ls' -> same_wavelength wl ls -> finite_fields ls -> finite_fields ls' ->
  stack_s_matrix ls ts = Val S -> stack_s_matrix ls' ts = Val S' ->
  [/\ rpair s (start_layer_solve_result S) (start_layer_solve_result S'),
      rpair s (end_layer_solve_result S) (end_layer_solve_result S'),
      start_layer_thickness S' = start_layer_thickness S &
      end_layer_thickness S' = end_layer_thickness S].
Proof.
move=> H hw hf hf' hS hS'.
have [sz _ h1 h2] := C01_stack_s_matrix_is_field_continuity hS hw hf.
have [sz' _ h1' h2'] := C01_stack_s_matrix_is_field_continuity hS' (same_wl' H hw) hf'.
set d := (start_layer_solve_result S, start_layer_thickness S).
have ne : (0 < size (zip ls ts))%N.
  by rewrite size_zip -sz minnn; case: (ls) hS => [|//]; case: (ts).
have [] := rok_ends d d (rok_zip ts H) ne; rewrite -h1 -h1' -h2 -h2' => -[/= e1 r1] [/= e2 r2].
by split.
Qed.
Lemma reported_ex l (f : fin_layer l) m t (a b : 'M[C]_(n + n, m)) z : exists F, reported_fields l t a b z = Val F.
Proof. by rewrite (reportedE f); eexists. Qed.

(** What is transmitted of a wave incident from the first layer, tested with the opposite
    wave incident from the last layer, is what is transmitted of that wave, tested with the
    first. *)
Theorem C59_transmission wl ls ls' (ts : seq R) S S' m m' (a : 'M[C]_(n + n, m)) (b' : 'M[C]_(n + n, m')) z z' F F' G G' :
  List.Forall2 recipr ls ls' -> same_wavelength wl ls -> finite_fields ls -> finite_fields ls' ->
  stack_s_matrix ls ts = Val S -> stack_s_matrix ls' ts = Val S' ->
  reported_fields (start_layer_solve_result S) (start_layer_thickness S) a 0 z = Val F ->
  reported_fields (start_layer_solve_result S') (start_layer_thickness S') 0 (s22 S' *m b') z = Val F' ->
  reported_fields (end_layer_solve_result S) (end_layer_thickness S) (s11 S *m a) 0 z' = Val G ->
  reported_fields (end_layer_solve_result S') (end_layer_thickness S') 0 b' z' = Val G' ->
  forall j j', reaction s F F' j j' = reaction s G G' j j'.
Proof.
move=> H hw hf hf' hS hS' hF hF' hG hG' j j'.
have [r1 r2 t1 t2] := smat_ends H hw hf hf' hS hS'.
have [f0] := reported_fin hF; have [f0'] := reported_fin hF'; have [fN] := reported_fin hG; have [fN'] := reported_fin hG'.
have [P hP] := reported_ex f0 (start_layer_thickness S) a (s21 S *m a) z.
have [P' hP'] := reported_ex fN' (end_layer_thickness S') (s12 S' *m b') b' z'.
have sc : scatters S a (s21 S *m a) (s11 S *m a) 0 by split; rewrite mulmx0 addr0.
have sc' : scatters S' 0 (s22 S' *m b') (s12 S' *m b') b' by split; rewrite mulmx0 add0r.
have e := C59_scattering H hw hf hf' hS hS' sc sc' hP hF' hG hP' j j'.
rewrite t1 in hF'; rewrite t2 in hG' hP'.
rewrite (layer_reaction f0 f0' j j' r1 hF hF') (layer_reaction fN fN' j j' r2 hG hG').
rewrite (layer_reaction f0 f0' j j' r1 hP hF') (layer_reaction fN fN' j j' r2 hG hP') in e.
move: e; rewrite !mulmx0 !trmx0 !mul0mx //.
Qed.

(** Reflection of two waves incident from the first layer. *)
Theorem C59_reflection wl ls ls' (ts : seq R) S S' m m' (a : 'M[C]_(n + n, m)) (a' : 'M[C]_(n + n, m')) z F F' G G' :
  List.Forall2 recipr ls ls' -> same_wavelength wl ls -> finite_fields ls -> finite_fields ls' ->
  stack_s_matrix ls ts = Val S -> stack_s_matrix ls' ts = Val S' ->
  reported_fields (start_layer_solve_result S) (start_layer_thickness S) a 0 z = Val F ->
  reported_fields (start_layer_solve_result S') (start_layer_thickness S') 0 (s21 S' *m a') z = Val F' ->
  reported_fields (start_layer_solve_result S) (start_layer_thickness S) 0 (s21 S *m a) z = Val G ->
  reported_fields (start_layer_solve_result S') (start_layer_thickness S') a' 0 z = Val G' ->
  forall j j', reaction s F F' j j' = - reaction s G G' j j'.
Proof.
move=> H hw hf hf' hS hS' hF hF' hG hG' j j'.
have [r1 r2 t1 t2] := smat_ends H hw hf hf' hS hS'.
have [f0] := reported_fin hF; have [f0'] := reported_fin hF'.
have [sz _ _ h2] := C01_stack_s_matrix_is_field_continuity hS hw hf.
have [sz' _ _ h2'] := C01_stack_s_matrix_is_field_continuity hS' (same_wl' H hw) hf'.
have [P hP] := reported_ex f0 (start_layer_thickness S) a (s21 S *m a) z.
have [P' hP'] := reported_ex f0' (start_layer_thickness S') a' (s21 S' *m a') z.
have inl (us : seq (layer_solve_result n)) d : size us = size ts -> (0 < size us)%N -> List.In (last d (zip us ts)).1 us.
  clear; case: us ts => [//|u us] [|t ts] //= [] e _; clear d.
  by elim: us ts u t e => [|v us IH] [|t' ts] u t //= => [_|[e]]; [left|right; exact: IH].
have ne : (0 < size ls)%N by case: (ls) hS => [|//]; case: (ts).
have ne' : (0 < size ls')%N by case: (ls') hS' => [|//]; case: (ts).
have [M hM] : exists M, field_conversion_matrix (end_layer_solve_result S) = Val M.
  by apply: hf; have := inl ls (end_layer_solve_result S, end_layer_thickness S) sz ne; rewrite -h2.
have [M' hM'] : exists M, field_conversion_matrix (end_layer_solve_result S') = Val M.
  by apply: hf'; have := inl ls' (end_layer_solve_result S', end_layer_thickness S') sz' ne'; rewrite -h2'.
have [fN] := fin_layerP hM; have [fN'] := fin_layerP hM'.
have [Q hQ] := reported_ex fN (end_layer_thickness S) (s11 S *m a) 0 z.
have [Q' hQ'] := reported_ex fN' (end_layer_thickness S') (s11 S' *m a') 0 z.
have sc : scatters S a (s21 S *m a) (s11 S *m a) 0 by split; rewrite mulmx0 addr0.
have sc' : scatters S' a' (s21 S' *m a') (s11 S' *m a') 0 by split; rewrite mulmx0 addr0.
have e := C59_scattering H hw hf hf' hS hS' sc sc' hP hP' hQ hQ' j j'.
rewrite t1 in hF' hG' hP'; rewrite t2 in hQ'.
rewrite (layer_reaction f0 f0' j j' r1 hF hF') (layer_reaction f0 f0' j j' r1 hG hG').
rewrite (layer_reaction f0 f0' j j' r1 hP hP') (layer_reaction fN fN' j j' r2 hQ hQ') in e.
move: e; rewrite !mulmx0 !trmx0 !mul0mx !subr0 !sub0r.
move: (_ *m _ *m _) (_ *m _ *m _) => A B; rewrite !mulr2n !mxE => e.
move: (A j j') (B j j') e => x y e; apply: subr0_eq.
by apply: (etrans _ (etrans e (addr0 _))); clear; Cring.
Qed.
End Recip.
Print Assumptions C59_layer.
Print Assumptions C59_stack.
Print Assumptions C59_scattering.
Print Assumptions C59_transmission.
Print Assumptions C59_reflection.

(** ** Witnesses *)
(** Any expansion has an opposite one; one closed under negation is its own, with the orders
    exchanged. *)
Example C59_opposite_witness n (expn : n.-tuple (Z * Z)) :
  opposite (1%g : 'S_n) expn [tuple (- (tnth expn i).1, - (tnth expn i).2)%coqZ | i < n].
Proof. by move=> i; rewrite perm1 tnth_mktuple. Qed.
Example C59_symmetric_witness : let e := [tuple (0, 0)%coqZ; (1, 0)%coqZ; (- 1, 0)%coqZ] in
  opposite (tperm (@Ordinal 3 1 isT) (@Ordinal 3 2 isT)) e e.
Proof. by move=> e i; rewrite permE /= !(tnth_nth (0, 0)%coqZ); case: i => [[|[|[|//]]] hi]. Qed.
Example C59_tensor_witness nx ny (t : tensor 'M[C]_(nx, ny)) : t_xy t = t_yx t -> transposed t t.
Proof. by move=> e; split. Qed.
Lemma opp_zero : opposite_wavevector (0, 0)%coqR = (0, 0)%coqR.
Proof. by rewrite /opposite_wavevector /= Ropp_0. Qed.
(** A patterned layer between two uniform layers, at normal incidence. *)
Example C59_witness : exists X s,
  let ls := [:: ex_layer 1; ex_patterned X; ex_layer 1] in
  [/\ eig_spec diag_eig /\ List.Forall2 (reciprocal_solve diag_eig diag_eig 1%g) ls ls,
      same_wavelength ex_wl ls, finite_fields ls & stack_s_matrix ls ex_thickness = Val s].
Proof.
have [X hX] := @stripes_solve 3 5 ltac:(lra) ltac:(lra) ltac:(lra).
have ho : opposite (1%g : 'S_1) ex_expn ex_expn by move=> i; rewrite perm1 (tnth_nth (0, 0)%coqZ) (ord1 i).
have m1 : reciprocal_solve diag_eig diag_eig 1%g (ex_layer 1) (ex_layer 1).
  by apply: (reciprocal_isotropic ho ex_air); rewrite opp_zero; exact: ex_air.
have m2 : reciprocal_solve diag_eig diag_eig 1%g (ex_patterned X) (ex_patterned X).
  by apply: (reciprocal_isotropic ho hX); rewrite opp_zero.
exists X, ex_smat => ls; split.
- split; first exact: diag_eig_spec.
  by constructor; [|constructor; [|constructor; [|constructor]]].
- by move=> k [<-|[<-|[<-|[]]]].
- exact: ex_patterned_finite.
- exact: ex_patterned_stack.
Qed.

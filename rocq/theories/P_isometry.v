(** C60: results do not depend on the orientation of the in-plane coordinates. *)
From Coq Require Import Reals ZArith Lra FunctionalExtensionality.
From mathcomp Require Import all_ssreflect all_algebra.
From Verif Require Import CField Err LinAlg Tac M_utils M_basis M_fft M_fmm_matrices M_fmm M_scattering M_fields S_stack S_maxwell S_fields S_fft S_modes S_shift S_isometry.
From Verif Require Import L_scattering L_stack L_maxwell L_fft L_fmm L_fields L_modes L_isometry L_turned P_scattering P_maxwell P_fmm P_modes P_shift L_example.
Set Implicit Arguments. Unset Strict Implicit. Unset Printing Implicit Defensive.
Import GRing.Theory.
Local Open Scope ring_scope.

Section Solvers.
Variables (q : axes) (hq : orthogonal q).
Notation T := (turn_lattice q).
Lemma cross_turn u v : cross_product (turn q u) (turn q v) = (det q * cross_product u v)%coqR.
Proof. by rewrite /cross_product /turn /det /=; ring. Qed.
Lemma det_inv : (/ det q = det q)%coqR.
Proof.
have d := det2 hq; have d0 : det q <> 0%coqR by move=> h; move: d; rewrite h; lra.
by apply: (Rmult_eq_reg_l (det q)) => //; rewrite d Rinv_r.
Qed.
(** The reciprocal lattice turns with the lattice. *)
Lemma reciprocal_turn l : reciprocal (T l) = rmap T (reciprocal l).
Proof.
have d := det2 hq; have d0 : det q <> 0%coqR by move=> h; move: d; rewrite h; lra.
rewrite /reciprocal /= cross_turn /recipR.
case: eqP => h /=.
  have -> : cross_product (lat_u l) (lat_v l) == 0.
    by apply/eqP; move: h; rewrite !R0E => /Rmult_integral [].
  by [].
case: eqP => h' /=; first by case: h; rewrite h' !R0E Rmult_0_r.
rewrite !RinvE Rinv_mult det_inv; congr (Val (Lattice (_, _) (_, _))) => /=.
all: clear h h'; move: (/ cross_product (lat_u l) (lat_v l))%coqR => r; case: l => [[u1 u2] [v1 v2]] /=.
- by transitivity ((det q * q_yx q * v1 + det q * q_yy q * v2) * r)%coqR; [ring|rewrite (det_yx hq) (det_yy hq); ring].
- by transitivity (- (det q * q_xx q * v1 + det q * q_xy q * v2) * r)%coqR; [ring|rewrite (det_xx hq) (det_xy hq); ring].
- by transitivity (- (det q * q_yx q * u1 + det q * q_yy q * u2) * r)%coqR; [ring|rewrite (det_yx hq) (det_yy hq); ring].
- by transitivity ((det q * q_xx q * u1 + det q * q_xy q * u2) * r)%coqR; [ring|rewrite (det_xx hq) (det_xy hq); ring].
Qed.
Lemma wavevectors_turn n k0 plv (expn : n.-tuple (Z * Z)) kx ky :
  transverse_wavevectors k0 plv expn = Val (kx, ky) ->
  transverse_wavevectors (turn q k0) (T plv) expn = Val (turn_row q kx ky).
Proof.
rewrite /transverse_wavevectors reciprocal_turn => H; binv H r hr; rewrite hr /=; case: H => <- <-.
by congr (Val (_, _)); apply/rowP=> i; rewrite !mxE; ring.
Qed.

Lemma numerical_turned eig eig' n wl k0 plv (ez iez mz imz : 'M[C]_n) et mt et' mt' expn tvf tvf' l l' :
  eig_spec eig -> eig_spec eig' ->
  et' *m Um q n = Um q n *m et -> mt' *m Um q n = Um q n *m mt ->
  numerical_eigensolve eig wl k0 plv ez iez et mz imz mt expn tvf = Val l ->
  numerical_eigensolve eig' wl (turn q k0) (T plv) ez iez et' mz imz mt' expn tvf' = Val l' ->
  turned q l l'.
Proof.
move=> he he' c3 c6 H H'.
have [x [a1 [a2 [a3 a4]]] [a5 a6] [a7 a8] [a9 _]] := numerical_exact he H.
have [x' [b1 [b2 [b3 b4]]] [b5 b6] [b7 b8] [b9 _]] := numerical_exact he' H'.
split; rewrite ?a1 ?a2 ?a3 ?a4 ?a5 ?a6 ?a7 ?a8 ?a9 ?b1 ?b2 ?b3 ?b4 ?b5 ?b6 ?b7 ?b8 ?b9 //.
- by move=> kx ky; exact: wavevectors_turn.
- by exists et, et'.
- exact: numerical_root H.
- exact: numerical_root H'.
Qed.
Lemma row_yy : (q_yx q * q_yx q + q_yy q * q_yy q = 1)%coqR.
Proof.
have e1 := det_xx hq; have e2 := det_xy hq; have -> : q_yx q = (- (det q * q_xy q))%coqR by rewrite e2; ring.
rewrite -e1; transitivity ((det q * det q) * (q_xx q * q_xx q + q_xy q * q_xy q))%coqR; first by ring.
by rewrite (det2 hq) (row_xx hq); ring.
Qed.
Lemma row_xy : (q_xx q * q_yx q + q_xy q * q_yy q = 0)%coqR.
Proof.
have e1 := det_xx hq; have e2 := det_xy hq; have -> : q_yx q = (- (det q * q_xy q))%coqR by rewrite e2; ring.
by rewrite -e1; ring.
Qed.
Lemma turn_identity nx ny : let ones := const_mx 1 : 'M[C]_(nx, ny) in let zeros := const_mx 0 : 'M[C]_(nx, ny) in
  turn_tensor q (Tensor ones zeros zeros ones ones) = Tensor ones zeros zeros ones ones.
Proof.
move=> ones zeros; rewrite /turn_tensor /lin4 /=; congr Tensor; apply/matrixP=> i j; rewrite !mxE !mulr0 !addr0 !mulr1 -rmorphD /= RaddE.
- by rewrite (row_xx hq).
- by rewrite row_xy.
- by rewrite ![(q_yx q * _)%coqR]Rmult_comm ![(q_yy q * _)%coqR]Rmult_comm row_xy.
- by rewrite row_yy.
Qed.
Lemma turn_trace nx ny (t : tensor 'M[C]_(nx, ny)) : t_xx (turn_tensor q t) + t_yy (turn_tensor q t) = t_xx t + t_yy t.
Proof.
have [c1 c2 c3] := hq; apply/matrixP=> i j; rewrite !mxE; move: (t_xx t i j) (t_xy t i j) (t_yx t i j) (t_yy t i j) => x y z w.
transitivity (RtoC (q_xx q * q_xx q + q_yx q * q_yx q)%coqR * x + RtoC (q_xx q * q_xy q + q_yx q * q_yy q)%coqR * (y + z)
  + RtoC (q_xy q * q_xy q + q_yy q * q_yy q)%coqR * w); first by Creim; ring.
by rewrite c1 c2 c3; Creim; ring.
Qed.
Lemma turn_squeeze (a b c d : R) (t : tensor 'M[C]_(1, 1)) :
  squeeze11 (lin4 a b c d t) = RtoC a * squeeze11 (t_xx t) + RtoC b * squeeze11 (t_xy t) + RtoC c * squeeze11 (t_yx t) + RtoC d * squeeze11 (t_yy t).
Proof. by rewrite /squeeze11 !(mxgetE _ (isT : (0 < 1)%N) (isT : (0 < 1)%N)) !mxE. Qed.
Lemma dD n (x : C) : diag (const_mx x) = x%:M :> 'M[C]_n.
Proof. exact: diag_const_mx. Qed.
Lemma general_turned eig eig' n nx ny wl k0 plv (eps mu : tensor 'M[C]_(nx, ny)) (expn : n.-tuple (Z * Z)) form src l l' :
  eig_spec eig -> eig_spec eig' -> turns_along q plv expn form ->
  eigensolve_general_anisotropic_media eig wl k0 plv eps mu expn form src = Val l ->
  eigensolve_general_anisotropic_media eig' wl (turn q k0) (T plv) (turn_tensor q eps) (turn_tensor q mu) expn form src = Val l' ->
  turned q l l'.
Proof.
move=> he he' hform; rewrite /eigensolve_general_anisotropic_media; case: eqP => [[ex ey]|_].
  subst nx ny; rewrite /eigensolve_uniform_general_anisotropic_media => H H'.
  binv H r hr; binv H r' hr'; rewrite /= in hr hr'; rewrite /= hr hr' /= in H'.
  apply: (numerical_turned he he' _ _ H H').
    apply: (conjU hq); rewrite /Um bl_conj /= !turn_squeeze !dD /lin4'.
    move: (squeeze11 _) (squeeze11 _) (squeeze11 _) (squeeze11 _) => x y z w.
    by congr block_mx; rewrite !scale_scalar_mx -!raddfD /=; congr scalar_mx; Creim; ring.
  apply: (conjQ hq); rewrite /Qm bl_conj /= !turn_squeeze !dD /lin4'.
  move: (squeeze11 _) (squeeze11 _) (squeeze11 _) (squeeze11 _) => x y z w.
  by congr block_mx; rewrite !scale_scalar_mx -!raddfD /=; congr scalar_mx; Creim; ring.
rewrite turn_trace; move: (match src with Some s => s | None => _ end) => p.
rewrite /eigensolve_patterned_general_anisotropic_media => H H'.
binv H r hr; binv H' r' hr'.
case: r hr H => [[[[[[a b] c] d] e] f] g] hr H; case: r' hr' H' => [[[[[[a' b'] c'] d'] e'] f'] g'] hr' H'.
suff [[e1 e2 e3 e4] [e5 e6]] : [/\ a' = a, b' = b, d' = d & e' = e] /\ c' *m Um q n = Um q n *m c /\ f' *m Um q n = Um q n *m f.
  by subst a' b' d' e'; apply: (numerical_turned he he' e5 e6 H H').
move: hr hr'; rewrite /fourier_matrices_patterned_anisotropic_media => {}H {}H'.
binv H t ht; binv H i hi; binv H iz hiz; binv H z hz; binv H et het; binv H j hj; binv H jz hjz; binv H w hw; binv H mt hmt.
case: H => <- <- <- <- <- <- _.
binv H' t' ht'; rewrite /= hi /= hiz /= hz /= in H'; binv H' et' het'; rewrite /= hj /= hjz /= hw /= in H'; binv H' mt' hmt'.
case: H' => <- <- <- <- <- <- _; split; first by [].
case: form hform ht ht' => [|v] hform ht ht'.
  case: ht => e1; case: ht' => e2; subst t t'; split; [exact: (fft_turn hq het het')|exact: (fft_mu_turn hq hmt hmt')].
binv ht u hu; case: u hu ht => tx ty hu [e1]; binv ht' u' hu'; case: u' hu' ht' => tx' ty' hu' [e2]; subst t t'.
have tg := hform _ _ _ hu hu'.
split; [exact: (vector_eps_turn hq tg het het')|exact: (vector_mu_turn hq tg hmt hmt')].
Qed.
Lemma U_scalar n (x : C) : diag (const_mx x) *m Um q n = Um q n *m diag (const_mx x).
Proof. by rewrite dD mul_scalar_mx mul_mx_scalar. Qed.
Lemma isotropic_turned eig eig' n nx ny wl k0 plv (eps : 'M[C]_(nx, ny)) (expn : n.-tuple (Z * Z)) form l l' :
  eig_spec eig -> eig_spec eig' -> turns_along q plv expn form ->
  eigensolve_isotropic_media eig wl k0 plv eps expn form = Val l ->
  eigensolve_isotropic_media eig' wl (turn q k0) (T plv) eps expn form = Val l' ->
  turned q l l'.
Proof.
move=> he he' hform; rewrite /eigensolve_isotropic_media; case: eqP => _.
  move=> H H'; have [x [a1 [a2 [a3 a4]]] _ [a5 a6] [a7 a8 a9]] := uniform_exact H.
  have [x' [b1 [b2 [b3 b4]]] _ [b5 b6] [b7 b8 b9]] := uniform_exact H'.
  split; rewrite ?a1 ?a2 ?a3 ?a4 ?a5 ?a6 ?a7 ?a8 ?a9 ?b1 ?b2 ?b3 ?b4 ?b5 ?b6 ?b7 ?b8 ?b9 ?mul1mx ?mulmx1 //.
  - by move=> kx ky; exact: wavevectors_turn.
  - by exists (diag (const_mx (squeeze11 eps))), (diag (const_mx (squeeze11 eps))); split=> //; exact: U_scalar.
  - exact: uniform_root H.
  - exact: uniform_root H'.
rewrite /eigensolve_patterned_isotropic_media => H H'.
binv H r hr; binv H' r' hr'; case: r hr H => [[[a b] c] d] hr H; case: r' hr' H' => [[[a' b'] c'] d'] hr' H'.
suff [e1 e2 e3] : [/\ a' = a, b' = b & c' *m Um q n = Um q n *m c].
  subst a' b'; apply: (numerical_turned he he' e3 _ H H').
  by rewrite !dD raddf0; exact: bl_block.
move: hr hr'; rewrite /fourier_matrices_patterned_isotropic_media => {}H {}H'.
binv H t ht; binv H i hi; binv H iz hiz; binv H z hz; binv H et het; case: H => <- <- <- _.
binv H' t' ht'; rewrite /= hi /= hiz /= hz /= in H'; binv H' et' het'; case: H' => <- <- <- _.
split; try by [].
case: form hform ht ht' => [|g] hform ht ht'.
  by case: ht => e1; case: ht' => e2; subst t t'; move: het het' => /= het; rewrite het => -[<-]; exact: (fft_iso_turn q het).
binv ht p hp; case: p hp ht => tx ty hp [e1]; binv ht' p' hp'; case: p' hp' ht' => tx' ty' hp' [e2]; subst t t'.
exact: (vector_turn hq (hform _ _ _ hp hp') het het').
Qed.
Lemma turned_layers eig eig' n (l l' : layer_solve_result n) : eig_spec eig -> eig_spec eig' ->
  turned_solve eig eig' q l l' -> turned q l l'.
Proof.
move=> he he'; case=> {l l'}.
- by move=> nx ny wl k0 plv eps expn form l l'; exact: isotropic_turned.
- move=> nx ny wl k0 plv eps expn form l l' hf H H'; apply: (general_turned he he' hf H).
  by rewrite turn_identity; exact: H'.
- by move=> nx ny wl k0 plv eps mu expn form src l l'; exact: general_turned.
Qed.
End Solvers.

(** ** Fields *)
Section Turned.
Variables (n : nat) (q : axes) (hq : orthogonal q).
Implicit Types (l : layer_solve_result n) (ls : seq (layer_solve_result n)).
Lemma dot_turn a b : dot (turn q a) (turn q b) = dot a b.
Proof.
have [c1 c2 c3] := hq; rewrite /dot /turn /=; case: a b => [a1 a2] [b1 b2] /=.
transitivity ((q_xx q * q_xx q + q_yx q * q_yx q) * (a1 * b1) + (q_xy q * q_xy q + q_yy q * q_yy q) * (a2 * b2)
  + (q_xx q * q_xy q + q_yx q * q_yy q) * (a1 * b2 + a2 * b1))%coqR; first by ring.
by rewrite c1 c2 c3; ring.
Qed.
Lemma pw_turn m k rv (expn : n.-tuple (Z * Z)) (F : 'M[C]_(n, m)) r j :
  plane_waves (turn q k) (bragg_vector (turn_lattice q rv) expn) F (turn q r) j = plane_waves k (bragg_vector rv expn) F r j.
Proof.
rewrite /plane_waves; apply: eq_bigr => i _; congr (_ * cexp (_ * RtoC _)); rewrite -[RHS]dot_turn.
by congr dot; rewrite /vadd /bragg_vector /turn /=; congr pair; ring.
Qed.
Lemma pw_comb m k (G : 'I_n -> R * R) a b (X Y : 'M[C]_(n, m)) r j :
  plane_waves k G (comb_mx a X b Y) r j = RtoC a * plane_waves k G X r j + RtoC b * plane_waves k G Y r j.
Proof.
rewrite /plane_waves !big_distrr -big_split; apply: eq_bigr => i _ /=.
by rewrite /comb_mx !mxE mulrDl !mulrA.
Qed.

(** Turning the coefficients of the orders turns a field. *)
Theorem C60_coordinates m p l l' (F : fields6 'M[C]_(n, m)) (x y : 'I_p -> R) g xy g' xy' :
  in_plane_wavevector l' = turn q (in_plane_wavevector l) ->
  primitive_lattice_vectors l' = turn_lattice q (primitive_lattice_vectors l) -> expansion l' = expansion l ->
  fields_on_coordinates F l x y = Val (g, xy) ->
  fields_on_coordinates (turn_fields (@comb_mx n m) q F) l' (fun i => (turn q (x i, y i)).1) (fun i => (turn q (x i, y i)).2) = Val (g', xy') ->
  g' = turn_fields (@comb_xy p m) q g /\ forall i, xy' i = turn q (xy i).
Proof.
move=> h1 h2 h3; case e : (reciprocal (primitive_lattice_vectors l)) => [rv|ex]; last first.
  by rewrite /fields_on_coordinates /transverse_wavevectors e.
have e' : reciprocal (primitive_lattice_vectors l') = Val (turn_lattice q rv) by rewrite h2 (reciprocal_turn hq) e.
rewrite (coordinatesE _ _ _ e) (coordinatesE _ _ _ e') => -[<- <-] [<- <-]; split; last by [].
rewrite h1 h3 /turn_fields /fields6_map /=.
have E (X : 'M[C]_(n, m)) pt j : plane_waves (turn q (in_plane_wavevector l)) (bragg_vector (turn_lattice q rv) (expansion l)) X
    ((turn q (x pt, y pt)).1, (turn q (x pt, y pt)).2) j =
    plane_waves (in_plane_wavevector l) (bragg_vector rv (expansion l)) X (x pt, y pt) j.
  by rewrite -[RHS]pw_turn.
by congr Fields; apply: functional_extensionality => pt; apply: functional_extensionality => j; rewrite E ?pw_comb.
Qed.

Lemma turn_reported m (k k' : layer n) (x : layer_amplitudes n m) z : tokp q k k' ->
  let x' := tamp_map q k k' x in
  reported_fields k'.1 k'.2 x'.1 x'.2 z = rmap (turn_fields (@comb_mx n m) q) (reported_fields k.1 k.2 x.1 x.2 z).
Proof. by move=> [t r [g] [g'] v] x' /=; rewrite /x' /= t (tn_reported hq r g g' v). Qed.
Lemma amp_turned m (k k' : layer n) (x : layer_amplitudes n m) : tokp q k k' ->
  turned_field q k x k' (tamp_map q k k' x).
Proof.
move=> ok p X Y z; rewrite /fields_at (turn_reported x z ok).
have [t rel [g] [g'] _] := ok.
case: reported_fields => //= F.
have [rv hr] : exists rv, reciprocal (primitive_lattice_vectors k.1) = Val rv.
  by have := fl_k g; rewrite /transverse_wavevectors; case: reciprocal => // rv _; exists rv.
have hr' : reciprocal (primitive_lattice_vectors k'.1) = Val (turn_lattice q rv).
  by rewrite (t_plv rel) (reciprocal_turn hq) hr.
have [E _] := C60_coordinates (t_k0 rel) (t_plv rel) (t_exp rel) (coordinatesE F X Y hr)
  (coordinatesE (turn_fields (@comb_mx n m) q F) (fun i => (turn q (X i, Y i)).1) (fun i => (turn q (X i, Y i)).2) hr').
by rewrite (coordinatesE F X Y hr) (coordinatesE _ _ _ hr') /= E.
Qed.

(** Any field in a layer is, turned, a field in the turned layer. *)
Theorem C60_layer eig eig' m l l' (a b : 'M[C]_(n + n, m)) : eig_spec eig -> eig_spec eig' ->
  turned_solve eig eig' q l l' -> finite_fields [:: l; l'] -> independent_modes [:: l'] ->
  exists a' b', forall t,
    (forall z, reported_fields l' t a' b' z = rmap (turn_fields (@comb_mx n m) q) (reported_fields l t a b z)) /\
    turned_field q (l, t) (a, b) (l', t) (a', b').
Proof.
move=> he he' h hf hi.
have [M /fin_layerP [g]] := hf l (or_introl erefl).
have [M' /fin_layerP [g']] := hf l' (or_intror (or_introl erefl)).
have v : eigenvectors l' \in unitmx by apply: hi; left.
have ok t : tokp q (l, t) (l', t) by split=> //; exact: (turned_layers hq he he' h).
exists (turn_map q l l' *m a), (turn_map q l l' *m b) => t; split=> [z|].
  exact: (@turn_reported m (l, t) (l', t) (a, b) z (ok t)).
exact: (@amp_turned m (l, t) (l', t) (a, b) (ok t)).
Qed.

(** ** Stacks *)
Variables (eig eig' : eig_fn).
Hypothesis (he : eig_spec eig) (he' : eig_spec eig').
Notation tsolve := (@turned_solve eig eig' n q).
Lemma turned_tokp ls ls' (ts : seq R) : List.Forall2 tsolve ls ls' -> size ls = size ts ->
  finite_fields ls -> finite_fields ls' -> independent_modes ls' ->
  List.Forall2 (tokp q) (zip ls ts) (zip ls' ts).
Proof.
move=> H; elim: H ts => [|l l' ks ks' h hs IH] [|t ts] //= [sz] hf hf' hi; constructor.
  have [M /fin_layerP fM] := hf l (or_introl erefl); have [M' /fin_layerP fM'] := hf' l' (or_introl erefl).
  split=> //=; [exact: (turned_layers hq he he' h)|by apply: hi; left].
apply: IH => //.
- by move=> k hk; apply: hf; right.
- by move=> k hk; apply: hf'; right.
- by move=> k hk; apply: hi; right.
Qed.
Lemma turned_wl wl ls ls' : List.Forall2 tsolve ls ls' -> same_wavelength wl ls -> same_wavelength wl ls'.
Proof.
move=> H; elim: H => [|l l' ks ks' h hs IH] hw k //= [<-|hk].
  by rewrite (t_wl (turned_layers hq he he' h)); apply: hw; left.
by apply: IH => // j hj; apply: hw; right.
Qed.

(** Any field in a stack is, turned, a field in the turned stack. *)
Theorem C60_stack m ls ls' (ts : seq R) (xs : seq (layer_amplitudes n m)) :
  List.Forall2 tsolve ls ls' -> size ls = size ts ->
  finite_fields ls -> finite_fields ls' -> independent_modes ls' ->
  stack_solution (zip ls ts) xs ->
  exists xs', stack_solution (zip ls' ts) xs' /\
    forall d x i, (i < size ls)%N ->
      turned_field q (nth d (zip ls ts) i) (nth x xs i) (nth d (zip ls' ts) i) (nth x xs' i).
Proof.
move=> H sz hf hf' hi S; have ok := turned_tokp H sz hf hf' hi.
have [S' sz'] := tn_solution hq ok S; exists (tamps_map q (zip ls ts) (zip ls' ts) xs); split; first exact: S'.
move=> d x i hi'; have s1 := solution_size S; have s2 := forall2_sz ok.
have hz : (i < size (zip ls ts))%N by rewrite size_zip -sz minnn.
rewrite (@nth_tamps_map n m q d x _ _ _ _ s2 s1 hz).
exact: amp_turned (forall2_nth ok d d hz).
Qed.

(** ** Scattering matrices *)
Lemma turn_amplitudesE m (a : 'M[C]_(n + n, m)) : turn_amplitudes q a = Um q n *m a.
Proof.
rewrite /turn_amplitudes (det_xx hq) (det_xy hq) (det_yx hq) (det_yy hq) /comb_mx.
by rewrite -[RHS]vsubmxK /Um bl_u bl_d.
Qed.
Lemma uniform_turn l l' : uniform_layer l -> uniform_layer l' -> turn_map q l l' = Um q n.
Proof.
move=> /uniform_vectors u /uniform_vectors u'; rewrite /turn_map -lock u u' mulmx1.
by rewrite invmx1 mul1mx.
Qed.
(** Between uniform layers, turned incident waves are scattered to turned waves. *)
Theorem C60_scattering wl l0 l0' (ls ls' : seq (layer_solve_result n)) lN lN' (ts : seq R) s s' :
  List.Forall2 tsolve (l0 :: rcons ls lN) (l0' :: rcons ls' lN') ->
  [/\ uniform_layer l0, uniform_layer l0', uniform_layer lN & uniform_layer lN'] ->
  same_wavelength wl (l0 :: rcons ls lN) ->
  finite_fields (l0 :: rcons ls lN) -> finite_fields (l0' :: rcons ls' lN') ->
  independent_modes (l0' :: rcons ls' lN') ->
  stack_s_matrix (l0 :: rcons ls lN) ts = Val s -> stack_s_matrix (l0' :: rcons ls' lN') ts = Val s' ->
  forall m (a : 'M[C]_(n + n, m)),
  [/\ s11 s' *m turn_amplitudes q a = turn_amplitudes q (s11 s *m a),
      s12 s' *m turn_amplitudes q a = turn_amplitudes q (s12 s *m a),
      s21 s' *m turn_amplitudes q a = turn_amplitudes q (s21 s *m a) &
      s22 s' *m turn_amplitudes q a = turn_amplitudes q (s22 s *m a)].
Proof.
move=> H [u0 u0' uN uN'] hw hf hf' hi hs hs' m a.
have [sz ends _ _] := C01_stack_s_matrix_is_field_continuity hs hw hf.
have [sz' ends' _ _] := C01_stack_s_matrix_is_field_continuity hs' (turned_wl H hw) hf'.
have ok := turned_tokp H sz hf hf' hi.
case: ts sz sz' ends ends' ok {hs hs'} => [|t ts] //= [sz] [sz'] ends ends' ok.
have [] := @scatters_uniq n s s' (Um q n) (Um q n).
  move=> m0 a0 b0 aN bN /ends /(tn_ends hq ok) /=.
  by rewrite (last_zip_rcons _ _ sz) (last_zip_rcons _ _ sz') (uniform_turn u0 u0') (uniform_turn uN uN') => /ends'.
by move=> e1 e2 e3 e4; rewrite !turn_amplitudesE !mulmxA e1 e2 e3 e4.
Qed.
(** Turning preserves the sum of the squared magnitudes of the two components of each order. *)
Lemma turn_power m (a : 'M[C]_(n + n, m)) i j :
  (abs2 (usubmx (turn_amplitudes q a) i j) + abs2 (dsubmx (turn_amplitudes q a) i j) =
   abs2 (usubmx a i j) + abs2 (dsubmx a i j))%coqR.
Proof.
rewrite /turn_amplitudes col_mxKu col_mxKd (det_xx hq) (det_xy hq) (det_yx hq) (det_yy hq) /comb_mx.
have [c1 c2 c3] := hq; have E (r t : R) (X Y : 'M[C]_(n, m)) : (RtoC r *: X + RtoC t *: Y) i j = RtoC r * X i j + RtoC t * Y i j.
  by rewrite !mxE.
rewrite !E.
move: (usubmx a i j) (dsubmx a i j) => x y; rewrite /abs2 !reimE.
transitivity ((q_xx q * q_xx q + q_yx q * q_yx q) * (re y * re y + im y * im y)
  + (q_xy q * q_xy q + q_yy q * q_yy q) * (re x * re x + im x * im x)
  - 2 * (q_xx q * q_xy q + q_yx q * q_yy q) * (re x * re y + im x * im y))%coqR; first by ring.
by rewrite c1 c2 c3; ring.
Qed.
Theorem C60_power wl l0 l0' (ls ls' : seq (layer_solve_result n)) lN lN' (ts : seq R) s s' :
  List.Forall2 tsolve (l0 :: rcons ls lN) (l0' :: rcons ls' lN') ->
  [/\ uniform_layer l0, uniform_layer l0', uniform_layer lN & uniform_layer lN'] ->
  same_wavelength wl (l0 :: rcons ls lN) ->
  finite_fields (l0 :: rcons ls lN) -> finite_fields (l0' :: rcons ls' lN') ->
  independent_modes (l0' :: rcons ls' lN') ->
  stack_s_matrix (l0 :: rcons ls lN) ts = Val s -> stack_s_matrix (l0' :: rcons ls' lN') ts = Val s' ->
  forall m (a : 'M[C]_(n + n, m)) i j,
  let size2 (b : 'M[C]_(n + n, m)) := (abs2 (usubmx b i j) + abs2 (dsubmx b i j))%coqR in
  size2 (s11 s' *m turn_amplitudes q a) = size2 (s11 s *m a) /\
  size2 (s21 s' *m turn_amplitudes q a) = size2 (s21 s *m a).
Proof.
move=> H u hw hf hf' hi hs hs' m a i j size2.
by have [-> _ -> _] := C60_scattering H u hw hf hf' hi hs hs' a; rewrite /size2 !turn_power.
Qed.

(** The amplitudes the library computes inside the stack, for the turned incident waves, are the
    turned fields. *)
Theorem C60_interior m wl l0 l0' (ls ls' : seq (layer_solve_result n)) lN lN' (ts : seq R) ss ss'
    (a_0 b_N : 'M[C]_(n + n, m)) xs xs' :
  List.Forall2 tsolve (l0 :: rcons ls lN) (l0' :: rcons ls' lN') ->
  [/\ uniform_layer l0, uniform_layer l0', uniform_layer lN & uniform_layer lN'] ->
  same_wavelength wl (l0 :: rcons ls lN) ->
  finite_fields (l0 :: rcons ls lN) -> finite_fields (l0' :: rcons ls' lN') ->
  independent_modes (l0' :: rcons ls' lN') ->
  stack_s_matrices_interior (l0 :: rcons ls lN) ts = Val ss ->
  stack_amplitudes_interior ss a_0 b_N = Val xs ->
  stack_s_matrices_interior (l0' :: rcons ls' lN') ts = Val ss' ->
  stack_amplitudes_interior ss' (turn_amplitudes q a_0) (turn_amplitudes q b_N) = Val xs' ->
  forall d x i, (i < size (l0 :: rcons ls lN))%N ->
    turned_field q (nth d (zip (l0 :: rcons ls lN) ts) i) (nth x xs i)
                   (nth d (zip (l0' :: rcons ls' lN') ts) i) (nth x xs' i).
Proof.
move=> H [u0 u0' uN uN'] hw hf hf' hi h1 h2 h1' h2' d x i hi'.
rewrite !turn_amplitudesE in h2'.
have [S [y0 [ys [ey ea eb]]]] := proj1 (C08_interior_amplitudes h1 h2 hw hf xs) erefl.
have [S' _] := proj1 (C08_interior_amplitudes h1' h2' (turned_wl H hw) hf' xs') erefl.
have sz : size (l0 :: rcons ls lN) = size ts.
  by move: h1; rewrite /stack_s_matrices_interior /stack_s_matrices; case: eqP.
have sz' : size (l0' :: rcons ls' lN') = size ts by rewrite -sz (forall2_sz H).
have ok := turned_tokp H sz hf hf' hi.
have [M sM] := tn_solution hq ok S.
have s1 := solution_size S; have s2 := forall2_sz ok.
have e : tamps_map q (zip (l0 :: rcons ls lN) ts) (zip (l0' :: rcons ls' lN') ts) xs = xs'.
  apply/(C08_interior_amplitudes h1' h2' (turned_wl H hw) hf'); split; first exact: M.
  rewrite {}ey in s1 *; clear -hq ok u0 u0' uN uN' sz sz' s1 s2 ea eb.
  case: ts sz sz' s1 s2 ok => [|t ts] sz sz' s1 s2 ok; first by [].
  have {}sz : size (rcons ls lN) = size ts by case: sz.
  have {}sz' : size (rcons ls' lN') = size ts by case: sz'.
  have {}s1 : size ys = size (zip (rcons ls lN) ts) by case: s1.
  have {}s2 : size (zip (rcons ls lN) ts) = size (zip (rcons ls' lN') ts) by case: s2.
  exists (tamp_map q (l0, t) (l0', t) y0), (tamps_map q (zip (rcons ls lN) ts) (zip (rcons ls' lN') ts) ys).
  split; first by [].
    by rewrite /= (uniform_turn u0 u0') ea.
  rewrite (@last_tamps_map n m _ _ _ _ _ _ _ s2 s1) /tamp_map (last_zip_rcons _ _ sz) (last_zip_rcons _ _ sz') (uniform_turn uN uN') /=.
  by rewrite eb.
have hz : (i < size (zip (l0 :: rcons ls lN) ts))%N by rewrite size_zip -sz minnn.
rewrite -e (@nth_tamps_map n m q d x _ _ _ _ s2 s1 hz).
exact: amp_turned (forall2_nth ok d d hz).
Qed.
End Turned.
Print Assumptions C60_coordinates.
Print Assumptions C60_layer.
Print Assumptions C60_stack.
Print Assumptions C60_scattering.
Print Assumptions C60_power.
Print Assumptions C60_interior.

(** ** Non-vacuity *)
(** A rotation and a mirror image. *)
Definition rotation345 := Axes (3 / 5) (- (4 / 5)) (4 / 5) (3 / 5).
Definition mirror_x := Axes (-1) 0 0 1.
Example C60_axes_witness : [/\ orthogonal rotation345, det rotation345 = 1%coqR, orthogonal mirror_x & det mirror_x = (- 1)%coqR].
Proof. by split; [split| |split|]; rewrite /det /=; field. Qed.
(** A field along the first lattice vector turns with the lattice. *)
Example C60_callable_witness nx ny n q plv (expn : n.-tuple (Z * Z)) :
  turns_along q plv expn (Vector (fun (p : 'M[C]_(nx, ny)) _ l => Val (const_mx (RtoC (lat_u l).1), const_mx (RtoC (lat_u l).2)))).
Proof.
by move=> p t t' [<-] [<-]; split; apply/matrixP=> i j; rewrite !mxE /turn_lattice /turn /=; Creim; ring.
Qed.
(** A tensor that changes: the turned version of [diag(2, 1)] has off-diagonal components. *)
Example C60_tensor_witness : let t := Tensor (const_mx (RtoC 2%coqR)) (const_mx 0) (const_mx 0) (const_mx 1) (const_mx 1) : tensor 'M[C]_(1, 1) in
  t_xy (turn_tensor rotation345 t) 0 0 = RtoC (12 / 25)%coqR.
Proof. by rewrite /= !mxE; Creim; field. Qed.

(** The stack air, glass, air in turned coordinates. *)
Definition turn_layer n (q : axes) (l : layer_solve_result n) : layer_solve_result n :=
  {| wavelength := wavelength l; in_plane_wavevector := turn q (in_plane_wavevector l);
     primitive_lattice_vectors := turn_lattice q (primitive_lattice_vectors l); expansion := expansion l;
     eigenvalues := eigenvalues l; eigenvectors := eigenvectors l;
     z_permittivity_matrix := z_permittivity_matrix l; inverse_z_permittivity_matrix := inverse_z_permittivity_matrix l;
     z_permeability_matrix := z_permeability_matrix l; inverse_z_permeability_matrix := inverse_z_permeability_matrix l;
     transverse_permeability_matrix := transverse_permeability_matrix l; tangent_vector_field := tangent_vector_field l |}.
Section Witness.
Variables (q : axes) (hq : orthogonal q).
Lemma tex_k : transverse_wavevectors (turn q (0, 0)%coqR) (turn_lattice q sq_lattice) ex_expn = Val (0, 0).
Proof.
rewrite (wavevectors_turn hq ex_k); congr (Val (_, _)); apply/rowP=> i; rewrite !mxE.
  by rewrite !R0E; ring.
by rewrite !R0E; ring.
Qed.
Lemma tex_solve r : (0 < r)%coqR ->
  eigensolve_uniform_isotropic_media ex_wl (turn q (0, 0)%coqR) (turn_lattice q sq_lattice) (RtoC (r * r)%coqR) ex_expn =
  Val (turn_layer q (ex_layer r)).
Proof.
move=> r0; have := ex_solve r0; rewrite /eigensolve_uniform_isotropic_media tex_k ex_k /= ex_w /=.
rewrite /recipC ifT; last by apply: RtoC_neq0; nra.
by rewrite /= => -[h]; congr Val; rewrite /turn_layer /=; congr LSR; exact: h.
Qed.
Lemma tex_omega r : omega_script_k_matrix (turn_layer q (ex_layer r)) = omega_script_k_matrix (ex_layer r).
Proof. by rewrite /omega_script_k_matrix /= tex_k ex_k. Qed.
Lemma tex_conv r : field_conversion_matrix (turn_layer q (ex_layer r)) = field_conversion_matrix (ex_layer r).
Proof. by rewrite /field_conversion_matrix tex_omega. Qed.
Definition tex_stack := map (turn_layer q) ex_stack.
Lemma tex_stackE : exists s, stack_s_matrix tex_stack ex_thickness = Val s.
Proof.
have := ex_stackE; rewrite /stack_s_matrix /stack_s_matrices /= !pair_extend /append_layer.
have I r r' : interface_matrices (turn_layer q (ex_layer r)) (turn_layer q (ex_layer r')) = interface_matrices (ex_layer r) (ex_layer r').
  by rewrite /interface_matrices !tex_omega.
have E b r r' t t' : extend_s_matrix b (turn_layer q (ex_layer r)) t (turn_layer q (ex_layer r')) t' = extend_s_matrix b (ex_layer r) t (ex_layer r') t'.
  by rewrite /extend_s_matrix I.
rewrite !E; case: extend_s_matrix => [[[[a b] c] d]|] //=; rewrite !E.
by case: extend_s_matrix => [[[[a' b'] c'] d']|] //= _; eexists.
Qed.
Lemma tex_solves r : (0 < r)%coqR -> turned_solve diag_eig diag_eig q (ex_layer r) (turn_layer q (ex_layer r)).
Proof.
move=> r0; apply: (@turned_isotropic _ _ _ _ 1 1 ex_wl (0, 0)%coqR sq_lattice (const_mx (RtoC (r * r)%coqR)) ex_expn FFT) => //.
  by rewrite -(ex_solve r0) /eigensolve_isotropic_media eqxx /squeeze11 (mxgetE _ (isT : (0 < 1)%N) (isT : (0 < 1)%N)) mxE.
by rewrite -(tex_solve r0) /eigensolve_isotropic_media eqxx /squeeze11 (mxgetE _ (isT : (0 < 1)%N) (isT : (0 < 1)%N)) mxE.
Qed.
Lemma tex_uniform : uniform_layer (ex_layer 1) /\ uniform_layer (turn_layer q (ex_layer 1)).
Proof.
have r1 : (0 < 1)%coqR by lra. split.
  exists diag_eig, ex_wl, (0, 0)%coqR, sq_lattice, (const_mx (RtoC (1 * 1)%coqR)), ex_expn, FFT.
  by rewrite -(ex_solve r1) /eigensolve_isotropic_media eqxx /squeeze11 (mxgetE _ (isT : (0 < 1)%N) (isT : (0 < 1)%N)) mxE.
exists diag_eig, ex_wl, (turn q (0, 0)%coqR), (turn_lattice q sq_lattice), (const_mx (RtoC (1 * 1)%coqR)), ex_expn, FFT.
by rewrite -(tex_solve r1) /eigensolve_isotropic_media eqxx /squeeze11 (mxgetE _ (isT : (0 < 1)%N) (isT : (0 < 1)%N)) mxE.
Qed.
Example C60_witness : exists s s',
  [/\ eig_spec diag_eig /\ List.Forall2 (turned_solve diag_eig diag_eig q) ex_stack tex_stack,
      uniform_layer (ex_layer 1) /\ uniform_layer (turn_layer q (ex_layer 1)),
      same_wavelength ex_wl ex_stack,
      [/\ finite_fields ex_stack, finite_fields tex_stack & independent_modes tex_stack] &
      stack_s_matrix ex_stack ex_thickness = Val s /\ stack_s_matrix tex_stack ex_thickness = Val s'].
Proof.
have [s' hs'] := tex_stackE; exists ex_smat, s'.
have r1 : (0 < 1)%coqR by lra. have r2 : (0 < 2)%coqR by lra.
have [h1 h2] := ex_hyps; split.
- split; first exact: diag_eig_spec.
  by constructor; [exact: tex_solves|constructor; [exact: tex_solves|constructor; [exact: tex_solves|constructor]]].
- exact: tex_uniform.
- exact: h1.
- split; first exact: h2.
    by move=> k [<-|[<-|[<-|[]]]]; rewrite tex_conv; exact: ex_finite.
  by move=> k [<-|[<-|[<-|[]]]]; exact: unitmx1.
- by split; first exact: ex_stackE.
Qed.
End Witness.

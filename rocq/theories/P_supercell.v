(** C62: describing a structure on a larger cell gives the same results. *)
From Coq Require Import Reals ZArith Lra Lia FunctionalExtensionality.
From mathcomp Require Import all_ssreflect all_algebra.
From Verif Require Import CField Err LinAlg Tac M_utils M_basis M_fft M_fmm_matrices M_fmm M_scattering M_fields S_stack S_maxwell S_fields S_fft S_modes S_shift S_relabel S_supercell.
From Verif Require Import L_scattering L_stack L_maxwell L_fft L_fmm L_fields L_modes L_supercell P_scattering P_maxwell P_fmm P_modes P_shift L_example.
Set Implicit Arguments. Unset Strict Implicit. Unset Printing Implicit Defensive.
Import GRing.Theory.
Local Open Scope ring_scope.

(** ** Wavevectors *)
Lemma cell_nz n n' (c : supercell n n') : (0 < sc_x c)%N -> (0 < sc_y c)%N ->
  INR (sc_x c) <> 0%coqR /\ INR (sc_y c) <> 0%coqR.
Proof. by move=> h1 h2; split; apply: not_0_INR; [case: (sc_x c) h1|case: (sc_y c) h2]. Qed.
Lemma reciprocal_cell n n' (c : supercell n n') l rv rv' : (0 < sc_x c)%N -> (0 < sc_y c)%N ->
  reciprocal l = Val rv -> reciprocal (cell_lattice c l) = Val rv' ->
  rv = Lattice (INR (sc_x c) * (lat_u rv').1, INR (sc_x c) * (lat_u rv').2)%coqR
               (INR (sc_y c) * (lat_v rv').1, INR (sc_y c) * (lat_v rv').2)%coqR.
Proof.
move=> h1 h2; have [nx ny] := cell_nz h1 h2; rewrite /reciprocal /recipR.
case: eqP => //= h [<-]; case: eqP => //= h' [<-] /=; rewrite !RinvE.
have e : cross_product (lat_u (cell_lattice c l)) (lat_v (cell_lattice c l)) =
  (INR (sc_x c) * (INR (sc_y c) * cross_product (lat_u l) (lat_v l)))%coqR by rewrite /cross_product /=; ring.
rewrite -[cross_product (INR _ * _, _)%coqR _]/(cross_product (lat_u (cell_lattice c l)) (lat_v (cell_lattice c l))) e.
by congr (Lattice (_, _) (_, _)); field.
Qed.
Lemma wavevectors_cell n n' (c : supercell n n') k0 plv expn expn' kx ky kx' ky' :
  cell_orders c expn expn' ->
  transverse_wavevectors k0 plv expn = Val (kx, ky) -> transverse_wavevectors k0 (cell_lattice c plv) expn' = Val (kx', ky') ->
  forall i, kx' ord0 (sc_pos c i) = kx ord0 i /\ ky' ord0 (sc_pos c i) = ky ord0 i.
Proof.
move=> [[px py] _ he _]; rewrite /transverse_wavevectors => H H'; binv H rv hr; binv H' rv' hr'; case: H => <- <-; case: H' => <- <- i.
rewrite (reciprocal_cell px py hr hr') !mxE he /cell_order /= !mult_IZR -!INR_IZR_INZ.
by split; ring.
Qed.
Lemma diag_cell n n' (c : supercell n n') (k : 'rV[R]_n) (k' : 'rV[R]_n') : (forall i, k' ord0 (sc_pos c i) = k ord0 i) ->
  diag (vC k') *m dmx c = dmx c *m diag (vC k).
Proof.
move=> h; apply/matrixP=> i j; rewrite mul_diag_mx mul_mx_diag !mxE.
by case: eqP => [->|_]; rewrite ?mulr0 ?mul0r // mulr1 mul1r -[k' _ _]/(k' ord0 (sc_pos c j)) h.
Qed.

(** ** Solvers *)
Section Solvers.
Variables (n n' : nat) (r : supercell n n').
Notation d := (dmx r).
Lemma numerical_cell eig eig' wl k0 plv (ez iez mz imz : 'M[C]_n) (ez' iez' mz' imz' : 'M[C]_n') et mt et' mt' expn expn' tvf tvf' l l' :
  eig_spec eig -> eig_spec eig' -> cell_orders r expn expn' ->
  cl_cj r ez ez' -> cl_cj r iez iez' -> cl_CJ r et et' ->
  cl_cj r mz mz' -> cl_cj r imz imz' -> cl_CJ r mt mt' ->
  numerical_eigensolve eig wl k0 plv ez iez et mz imz mt expn tvf = Val l ->
  numerical_eigensolve eig' wl k0 (cell_lattice r plv) ez' iez' et' mz' imz' mt' expn' tvf' = Val l' ->
  conjugated d l l'.
Proof.
move=> he he' hr c1 c2 c3 c4 c5 c6 H H'.
have [x [a1 [a2 [a3 a4]]] [a5 a6] [a7 a8] [a9 _]] := numerical_exact he H.
have [x' [b1 [b2 [b3 b4]]] [b5 b6] [b7 b8] [b9 _]] := numerical_exact he' H'.
split; rewrite ?a1 ?a2 ?a3 ?a4 ?a5 ?a6 ?a7 ?a8 ?a9 ?b1 ?b2 ?b3 ?b4 ?b5 ?b6 ?b7 ?b8 ?b9 //.
- by move=> kx ky kx' ky' h h'; split; apply: diag_cell => i; have [] := wavevectors_cell hr h h' i.
- by exists et, et'.
- exact: numerical_root H.
- exact: numerical_root H'.
Qed.
Lemma tile11 (x : 'M[C]_(1, 1)) : squeeze11 (tile 1 1 x) = squeeze11 x.
Proof.
rewrite /squeeze11 (mxgetE (tile 1 1 x) (isT : (0 < 1 * 1)%N) (isT : (0 < 1 * 1)%N)) (mxgetE x (isT : (0 < 1)%N) (isT : (0 < 1)%N)) mxE.
by congr (x _ _); apply: val_inj.
Qed.
Lemma cell11 p (nx ny : nat) : (0 < sc_x r)%N -> (0 < sc_y r)%N -> is_pattern p nx ny ->
  ((reps p (sc_x r) * nx, reps p (sc_y r) * ny)%N == (1, 1)%N) = ((nx, ny) == (1, 1)%N).
Proof.
move=> hx hy ->; case h : ((nx, ny) == (1, 1)%N); first by case/eqP: h => -> ->.
apply/negbTE; apply/negP => /eqP [] /eqP h1 /eqP h2; move/negbT/negP: h; apply.
by move: h1 h2; rewrite /= !muln_eq1 => /andP[_ /eqP ->] /andP[_ /eqP ->].
Qed.
Notation tl := (tile (sc_x r) (sc_y r)).
Lemma fourier_general_cell nx ny plv (eps mu : tensor 'M[C]_(nx, ny)) expn expn' form form' src q q' :
  cell_orders r expn expn' -> @tiled_tangents _ _ r true _ _ plv expn expn' form form' ->
  fourier_matrices_patterned_anisotropic_media plv eps mu expn form src = Val q ->
  fourier_matrices_patterned_anisotropic_media (cell_lattice r plv) (tensor_on_cell r true eps) (tensor_on_cell r true mu) expn' form' (tl src) = Val q' ->
  let '(iez, ez, et, imz, mz, mt, _) := q in let '(iez', ez', et', imz', mz', mt', _) := q' in
  [/\ cl_cj r ez ez', cl_cj r iez iez' & cl_CJ r et et'] /\
  [/\ cl_cj r mz mz', cl_cj r imz imz' & cl_CJ r mt mt'].
Proof.
move=> hexp hform.
have E (x : 'M[C]_(nx, ny)) : cl_mv (sc := r) x (tl x) by [].
rewrite /fourier_matrices_patterned_anisotropic_media => H H'.
binv H t ht; binv H a ha; binv H b hb; binv H c hc; binv H e he; binv H u hu; binv H v hv; binv H w hw; binv H y hy'; case: H => <-.
binv H' t' ht'; binv H' a' ha'; binv H' b' hb'; binv H' c' hc'; binv H' e' he'; binv H' u' hu'; binv H' v' hv'; binv H' w' hw'; binv H' y' hy''; case: H' => <-.
have cc := cl_conv_moved hexp (E _) hc hc'; have cb := cl_conv_moved hexp (cl_mv_recip (E _) ha ha') hb hb'.
have cw := cl_conv_moved hexp (E _) hw hw'; have cv := cl_conv_moved hexp (cl_mv_recip (E _) hu hu') hv hv'.
suff [ce cy] : cl_CJ r e e' /\ cl_CJ r y y' by [].
case: form form' hform ht ht' => [|g] [|g'] //= hform ht ht'.
  case: ht => et; case: ht' => et'; subst t t'.
  by split; [exact: (cl_fft_eps_mv hexp (t := eps) (t' := tensor_on_cell r true eps)) he he'|exact: (cl_fft_mu_mv hexp (t := mu) (t' := tensor_on_cell r true mu)) hy' hy''].
binv ht p hp; case: p hp ht => tx ty hp [et]; binv ht' p' hp'; case: p' hp' ht' => tx' ty' hp' [et']; subst t t'.
have [tm1 tm2] := hform _ _ _ hp hp'.
by split; [exact: (cl_vector_eps_mv hexp (t := eps) (t' := tensor_on_cell r true eps)) tm1 tm2 he he'|exact: (cl_vector_mu_mv hexp (t := mu) (t' := tensor_on_cell r true mu)) tm1 tm2 hy' hy''].
Qed.
Lemma general_cell p eig eig' nx ny wl k0 plv (eps mu : tensor 'M[C]_(nx, ny)) expn expn' form form' src l l' :
  eig_spec eig -> eig_spec eig' -> is_pattern p nx ny ->
  cell_orders r expn expn' -> @tiled_tangents _ _ r p _ _ plv expn expn' form form' ->
  eigensolve_general_anisotropic_media eig wl k0 plv eps mu expn form src = Val l ->
  eigensolve_general_anisotropic_media eig' wl k0 (cell_lattice r plv) (tensor_on_cell r p eps) (tensor_on_cell r p mu) expn' form'
    (omap (@on_cell _ _ r p nx ny) src) = Val l' ->
  conjugated d l l'.
Proof.
move=> he he' hp hr hform; have [[px py] _ _ _] := hr; rewrite /eigensolve_general_anisotropic_media (cell11 px py hp).
rewrite /is_pattern in hp; case: eqP hp => [[ex ey]|_] hp.
  subst nx ny p.
  have S (t : tensor 'M[C]_(1, 1)) : tensor_map (@squeeze11 _ _) (tensor_on_cell r false t) = tensor_map (@squeeze11 1 1) t.
    by rewrite /tensor_map /tensor_on_cell /=; congr Tensor; exact: tile11.
  rewrite !S /eigensolve_uniform_general_anisotropic_media => H H'; binv H q hq; binv H q' hq'; rewrite hq hq' /= in H'.
  by apply: (numerical_cell he he' hr _ _ _ _ _ _ H H'); try exact: cl_cj_scalar; apply: cl_cj_block; exact: cl_cj_scalar.
have {}hp : p = true by []. subst p.
rewrite /eigensolve_patterned_general_anisotropic_media => H H'.
binv H q hq; binv H' q' hq'.
have es : (match omap (@on_cell _ _ r true nx ny) src with Some s => s | None => map_mx (fun z : C => z / RtoC 2%coqR) (t_xx (tensor_on_cell r true eps) + t_yy (tensor_on_cell r true eps)) end)
   = tl (match src with Some s => s | None => map_mx (fun z : C => z / RtoC 2%coqR) (t_xx eps + t_yy eps) end).
  by case: (src) => [s|] //=; rewrite tile_map tile_add.
rewrite es in hq'.
have := fourier_general_cell hr hform hq hq'.
case: q hq H => [[[[[[a b] c] x] e] g] t] _ H; case: q' hq' H' => [[[[[[a' b'] c'] x'] e'] g'] t'] _ H'.
by case=> [[c1 c2 c3] [c4 c5 c6]]; exact: (numerical_cell he he' hr c1 c2 c3 c4 c5 c6 H H').
Qed.
Lemma isotropic_cell p eig eig' nx ny wl k0 plv (eps : 'M[C]_(nx, ny)) expn expn' form form' l l' :
  eig_spec eig -> eig_spec eig' -> is_pattern p nx ny ->
  cell_orders r expn expn' -> @tiled_tangents _ _ r p _ _ plv expn expn' form form' ->
  eigensolve_isotropic_media eig wl k0 plv eps expn form = Val l ->
  eigensolve_isotropic_media eig' wl k0 (cell_lattice r plv) (on_cell r p eps) expn' form' = Val l' ->
  conjugated d l l'.
Proof.
move=> he he' hp hr hform; have [[px py] _ _ _] := hr; rewrite /eigensolve_isotropic_media (cell11 px py hp).
rewrite /is_pattern in hp; case: eqP hp => [[ex ey]|_] hp.
  subst nx ny p; rewrite [squeeze11 (on_cell _ _ _)]tile11 => H H'.
  have [x [a1 [a2 [a3 a4]]] _ [a5 a6] [a7 a8 a9]] := uniform_exact H.
  have [x' [b1 [b2 [b3 b4]]] _ [b5 b6] [b7 b8 b9]] := uniform_exact H'.
  split; rewrite ?a1 ?a2 ?a3 ?a4 ?a5 ?a6 ?a7 ?a8 ?a9 ?b1 ?b2 ?b3 ?b4 ?b5 ?b6 ?b7 ?b8 ?b9 ?mul1mx ?mulmx1 //; try exact: cl_cj_scalar.
  - by move=> kx ky kx' ky' h h'; split; apply: diag_cell => i; have [] := wavevectors_cell hr h h' i.
  - exists (diag (const_mx (squeeze11 eps))), (diag (const_mx (squeeze11 eps))); split=> //.
    by rewrite !diag_const_mx mul_scalar_mx mul_mx_scalar.
  - exact: uniform_root H.
  - exact: uniform_root H'.
have {}hp : p = true by []. subst p.
rewrite /eigensolve_patterned_isotropic_media => H H'.
binv H q hq; binv H' q' hq'; case: q hq H => [[[a b] c] x] hq H; case: q' hq' H' => [[[a' b'] c'] x'] hq' H'.
suff [c1 c2 c3] : [/\ cl_cj r b b', cl_cj r a a' & cl_CJ r c c'].
  apply: (numerical_cell he he' hr c1 c2 c3 _ _ _ H H'); try exact: cl_cj_scalar.
  by apply: cl_cj_block; exact: cl_cj_scalar.
have E (y : 'M[C]_(nx, ny)) : cl_mv (sc := r) y (tl y) by [].
move: hq hq'; rewrite /fourier_matrices_patterned_isotropic_media => {}H {}H'.
binv H t ht; binv H i hi; binv H iz hiz; binv H z hz; binv H et het; case: H => <- <- <- _.
binv H' t' ht'; binv H' i' hi'; binv H' iz' hiz'; binv H' z' hz'; binv H' et' het'; case: H' => <- <- <- _.
have cz := cl_conv_moved hr (E _) hz hz'; have ci := cl_conv_moved hr (cl_mv_recip (E _) hi hi') hiz hiz'.
suff : cl_CJ r et et' by [].
case: form form' hform ht ht' => [|g] [|g'] //= hform ht ht'.
  by case: ht => e1; case: ht' => e2; subst t t'; exact: (cl_fft_mv hr (E _) het het').
binv ht p hp'; case: p hp' ht => tx ty hp' [e1]; binv ht' p' hp''; case: p' hp'' ht' => tx' ty' hp'' [e2]; subst t t'.
have [tm1 tm2] := hform _ _ _ hp' hp''.
exact: (cl_vector_mv hr (E _) tm1 tm2 het het').
Qed.
Lemma supercell_conjugated eig eig' l l' : eig_spec eig -> eig_spec eig' ->
  supercell_solve eig eig' r l l' -> conjugated d l l'.
Proof.
move=> he he'; case=> {l l'}.
- by move=> p nx ny wl k0 plv eps expn form expn' form' l l' hp hr hf H H'; exact: (isotropic_cell he he' hp hr hf H H').
- move=> p nx ny wl k0 plv eps expn form expn' form' l l' hp hr hf H H'; apply: (general_cell he he' hp hr hf H).
  by rewrite /tensor_on_cell /on_cell /= !tile_const; exact: H'.
- by move=> p nx ny wl k0 plv eps mu expn form src expn' form' l l' hp hr hf H H'; exact: (general_cell he he' hp hr hf H H').
Qed.
End Solvers.

(** ** Fields *)
Section Supercell.
Variables (n n' : nat) (c : supercell n n').
Notation d := (dmx c).
Notation pos := (sc_pos c).

Lemma spreadE m (X : 'M[C]_(n, m)) : spread c X = d *m X.
Proof.
apply/matrixP=> k j; rewrite !mxE big_mkcond; apply: eq_bigr => i _; rewrite mxE eq_sym.
by case: eqP; rewrite ?mul1r ?mul0r.
Qed.
Lemma coordinates_cell m p (l : layer_solve_result n) (l' : layer_solve_result n') (F : fields6 'M[C]_(n, m)) (x y : 'I_p -> R) kx ky kx' ky' :
  transverse_wavevectors (in_plane_wavevector l) (primitive_lattice_vectors l) (expansion l) = Val (kx, ky) ->
  transverse_wavevectors (in_plane_wavevector l') (primitive_lattice_vectors l') (expansion l') = Val (kx', ky') ->
  (forall i, kx' ord0 (pos i) = kx ord0 i) -> (forall i, ky' ord0 (pos i) = ky ord0 i) ->
  fields_on_coordinates (fields6_map (spread c) F) l' x y = fields_on_coordinates F l x y.
Proof.
move=> h h' hx hy; rewrite /fields_on_coordinates h h' /=; congr (Val (_, _)).
rewrite f6_comp; apply: f6_ext => X; apply: functional_extensionality => pt; apply: functional_extensionality => j.
under eq_bigr => k _ do rewrite mxE mulr_suml big_mkcond.
rewrite exchange_big /=; apply: eq_bigr => i _.
rewrite -big_mkcond (bigD1 (pos i)) //= big1 ?addr0 => [|k /andP[/eqP <-]]; last by rewrite eqxx.
by rewrite -[kx' 0 _]/(kx' ord0 (pos i)) -[ky' 0 _]/(ky' ord0 (pos i)) hx hy.
Qed.
(** Coefficients placed at the positions of the orders give the same field at every point. *)
Theorem C62_coordinates m p (l : layer_solve_result n) (l' : layer_solve_result n') (F : fields6 'M[C]_(n, m)) (x y : 'I_p -> R) g g' :
  cell_orders c (expansion l) (expansion l') -> in_plane_wavevector l' = in_plane_wavevector l ->
  primitive_lattice_vectors l' = cell_lattice c (primitive_lattice_vectors l) ->
  fields_on_coordinates F l x y = Val g ->
  fields_on_coordinates (fields6_map (spread c) F) l' x y = Val g' -> g' = g.
Proof.
move=> hr hk hl; case e : (transverse_wavevectors (in_plane_wavevector l) (primitive_lattice_vectors l) (expansion l)) => [[kx ky]|ex]; last first.
  by rewrite /fields_on_coordinates e.
case e' : (transverse_wavevectors (in_plane_wavevector l') (primitive_lattice_vectors l') (expansion l')) => [[kx' ky']|ex]; last first.
  by rewrite /fields_on_coordinates e'.
have e2 := e'; rewrite hk hl in e2.
rewrite (coordinates_cell F x y e e' (fun i => proj1 (wavevectors_cell hr e e2 i)) (fun i => proj2 (wavevectors_cell hr e e2 i))).
by move=> -> [].
Qed.
Lemma conj_k (k : 'rV[R]_n) (k' : 'rV[R]_n') i : diag (vC k') *m d = d *m diag (vC k) -> k' ord0 (pos i) = k ord0 i.
Proof.
move/matrixP/(_ (pos i) i); rewrite mul_diag_mx mul_mx_diag !mxE eqxx mulr1 mul1r => /(congr1 re).
by rewrite /=.
Qed.
Lemma cell_reported m (k : layer n) (k' : layer n') (x : layer_amplitudes n m) z : cokp d k k' ->
  let x' := camp_map d k k' x in
  reported_fields k'.1 k'.2 x'.1 x'.2 z = rmap (fields6_map (spread c)) (reported_fields k.1 k.2 x.1 x.2 z).
Proof.
move=> [t rel [g] [g'] v] x' /=; rewrite /x' /= t (cmap_reported rel g g' v).
by case: reported_fields => //= F; congr Val; apply: f6_ext => X; rewrite spreadE.
Qed.
Lemma amp_cell m (k : layer n) (k' : layer n') (x : layer_amplitudes n m) : cokp d k k' ->
  same_cell_field k x k' (camp_map d k k' x).
Proof.
move=> ok p X Y z; rewrite /fields_at (cell_reported x z ok).
have [t rel [g] [g'] _] := ok; have [hx hy] := c_k rel (fl_k g) (fl_k g').
case: reported_fields => //= F.
by rewrite (coordinates_cell F X Y (fl_k g) (fl_k g') (fun i => conj_k i hx) (fun i => conj_k i hy)).
Qed.

(** Any field in a layer is a field in the layer described on the larger cell. *)
Theorem C62_layer eig eig' m l l' (a b : 'M[C]_(n + n, m)) : eig_spec eig -> eig_spec eig' ->
  supercell_solve eig eig' c l l' -> finite_fields [:: l] -> finite_fields [:: l'] -> independent_modes [:: l'] ->
  exists a' b', forall t,
    (forall z, reported_fields l' t a' b' z = rmap (fields6_map (spread c)) (reported_fields l t a b z)) /\
    same_cell_field (l, t) (a, b) (l', t) (a', b').
Proof.
move=> he he' h hf hf' hi.
have [M /fin_layerP [g]] := hf l (or_introl erefl).
have [M' /fin_layerP [g']] := hf' l' (or_introl erefl).
have v : eigenvectors l' \in unitmx by apply: hi; left.
have ok t : cokp d (l, t) (l', t) by split=> //; exact: (supercell_conjugated he he' h).
exists (cmode_map d l l' *m a), (cmode_map d l l' *m b) => t; split=> [z|].
  exact: (@cell_reported m (l, t) (l', t) (a, b) z (ok t)).
exact: (@amp_cell m (l, t) (l', t) (a, b) (ok t)).
Qed.

(** ** Stacks *)
Variables (eig eig' : eig_fn).
Hypothesis (he : eig_spec eig) (he' : eig_spec eig').
Notation csolve := (@supercell_solve eig eig' n n' c).
Lemma supercell_okp ls ls' (ts : seq R) : List.Forall2 csolve ls ls' -> size ls = size ts ->
  finite_fields ls -> finite_fields ls' -> independent_modes ls' ->
  List.Forall2 (cokp d) (zip ls ts) (zip ls' ts).
Proof.
move=> H; elim: H ts => [|l l' ks ks' h hs IH] [|t ts] //= [sz] hf hf' hi; constructor.
  have [M /fin_layerP fM] := hf l (or_introl erefl); have [M' /fin_layerP fM'] := hf' l' (or_introl erefl).
  split=> //=; [exact: (supercell_conjugated he he' h)|by apply: hi; left].
apply: IH => //.
- by move=> k hk; apply: hf; right.
- by move=> k hk; apply: hf'; right.
- by move=> k hk; apply: hi; right.
Qed.
Lemma supercell_wl wl ls ls' : List.Forall2 csolve ls ls' -> same_wavelength wl ls -> same_wavelength wl ls'.
Proof.
move=> H; elim: H => [|l l' ks ks' h hs IH] hw k //= [<-|hk].
  by rewrite (c_wl (supercell_conjugated he he' h)); apply: hw; left.
by apply: IH => // j hj; apply: hw; right.
Qed.

(** Any field in a stack is a field in the stack described on the larger cell. *)
Theorem C62_stack m ls ls' (ts : seq R) (xs : seq (layer_amplitudes n m)) :
  List.Forall2 csolve ls ls' -> size ls = size ts ->
  finite_fields ls -> finite_fields ls' -> independent_modes ls' ->
  stack_solution (zip ls ts) xs ->
  exists xs', stack_solution (zip ls' ts) xs' /\
    forall k k' x x' i, (i < size ls)%N ->
      same_cell_field (nth k (zip ls ts) i) (nth x xs i) (nth k' (zip ls' ts) i) (nth x' xs' i).
Proof.
move=> H sz hf hf' hi S; have ok := supercell_okp H sz hf hf' hi.
have [S' sz'] := cmap_solution ok S; exists (camps_map d (zip ls ts) (zip ls' ts) xs); split; first exact: S'.
move=> k k' x x' i hi'; have s1 := solution_size S; have s2 := forall2_sz ok.
have hz : (i < size (zip ls ts))%N by rewrite size_zip -sz minnn.
rewrite (@cnth_amps_map n n' m d k k' x x' _ _ _ _ s2 s1 hz).
exact: amp_cell (forall2_nth ok k k' hz).
Qed.

(** ** Scattering matrices *)
Lemma spread_amplitudesE m (a : 'M[C]_(n + n, m)) : spread_amplitudes c a = dd d *m a.
Proof. by rewrite /spread_amplitudes !spreadE -{3}[a]vsubmxK /dd mul_block_col !mul0mx addr0 add0r. Qed.
Lemma spread_component m (a : 'M[C]_(n + n, m)) u k j :
  spread_amplitudes c a (component u k) j = \sum_(i | pos i == k) a (component u i) j.
Proof. by case: u => /=; rewrite /spread_amplitudes ?col_mxEu ?col_mxEd mxE; apply: eq_bigr => i _; rewrite mxE. Qed.
Lemma dd_component m (a : 'M[C]_(m, n' + n')) u i j : (a *m dd d) i (component u j) = a i (component u (pos j)).
Proof.
have E (A : 'M[C]_(m, n')) : (A *m d) i j = A i (pos j).
  rewrite mxE (bigD1 (pos j)) //= mxE eqxx mulr1 big1 ?addr0 // => k /negbTE h.
  by rewrite mxE h mulr0.
rewrite -{1}[a]hsubmxK /dd mul_row_block !mulmx0 addr0 add0r.
by case: u => /=; rewrite ?row_mxEl ?row_mxEr E mxE.
Qed.
Lemma uniform_cell (l : layer_solve_result n) (l' : layer_solve_result n') : uniform_layer l -> uniform_layer l' -> cmode_map d l l' = dd d.
Proof.
move=> /uniform_vectors u /uniform_vectors u'; rewrite /cmode_map -lock u u' mulmx1.
by rewrite invmx1 mul1mx.
Qed.
Lemma cell_scatters_uniq (s : scattering_matrix n) (s' : scattering_matrix n') (P : 'M[C]_(n' + n', n + n)) :
  (forall m (a0 b0 aN bN : 'M[C]_(n + n, m)), scatters s a0 b0 aN bN ->
     scatters s' (P *m a0) (P *m b0) (P *m aN) (P *m bN)) ->
  [/\ P *m s11 s = s11 s' *m P, P *m s12 s = s12 s' *m P, P *m s21 s = s21 s' *m P & P *m s22 s = s22 s' *m P].
Proof.
move=> h.
have [] := h _ 1%:M (s21 s) (s11 s) 0; first by split; rewrite ?mulmx0 ?addr0 ?mulmx1.
have [] := h _ 0 (s22 s) (s12 s) 1%:M; first by split; rewrite ?mulmx0 ?add0r ?mulmx1.
by rewrite !mulmx0 !mulmx1 !addr0 !add0r.
Qed.
Lemma cell_entriesP (A : 'M[C]_(n + n)) (A' : 'M[C]_(n' + n')) : injective pos -> dd d *m A = A' *m dd d -> cell_entries c A A'.
Proof.
move=> inj e u v j; split=> [i|k h]; rewrite -dd_component -e -spread_amplitudesE spread_component.
  by rewrite (bigD1 i) //= big1 ?addr0 // => k /andP[/eqP/inj -> /eqP].
by rewrite big1 // => i /eqP hi; case: (h i).
Qed.
Lemma solve_injective l l' : csolve l l' -> injective pos.
Proof. by move=> h; destruct h; match goal with H : cell_orders c _ _ |- _ => case: H end. Qed.
Theorem C62_scattering wl l0 l0' (ls : seq (layer_solve_result n)) (ls' : seq (layer_solve_result n')) lN lN' (ts : seq R) s s' :
  List.Forall2 csolve (l0 :: rcons ls lN) (l0' :: rcons ls' lN') ->
  [/\ uniform_layer l0, uniform_layer l0', uniform_layer lN & uniform_layer lN'] ->
  same_wavelength wl (l0 :: rcons ls lN) ->
  finite_fields (l0 :: rcons ls lN) -> finite_fields (l0' :: rcons ls' lN') ->
  independent_modes (l0' :: rcons ls' lN') ->
  stack_s_matrix (l0 :: rcons ls lN) ts = Val s -> stack_s_matrix (l0' :: rcons ls' lN') ts = Val s' ->
  [/\ cell_entries c (s11 s) (s11 s'), cell_entries c (s12 s) (s12 s'), cell_entries c (s21 s) (s21 s') & cell_entries c (s22 s) (s22 s')].
Proof.
move=> H [u0 u0' uN uN'] hw hf hf' hi hs hs'.
have [sz ends _ _] := C01_stack_s_matrix_is_field_continuity hs hw hf.
have [sz' ends' _ _] := C01_stack_s_matrix_is_field_continuity hs' (supercell_wl H hw) hf'.
have ok := supercell_okp H sz hf hf' hi.
have inj : injective pos by inversion H; subst; apply: solve_injective; eassumption.
case: ts sz sz' ends ends' ok {hs hs'} => [|t ts] //= [sz] [sz'] ends ends' ok.
have [] := @cell_scatters_uniq s s' (dd d).
  move=> m a0 b0 aN bN /ends /(cmap_ends ok) /=.
  by rewrite (last_zip_rcons _ _ sz) (last_zip_rcons _ _ sz') (uniform_cell u0 u0') (uniform_cell uN uN') => /ends'.
by move=> h1 h2 h3 h4; split; apply: cell_entriesP.
Qed.

(** The amplitudes the library computes inside the stack, for the same incident waves, give the
    same fields. *)
Theorem C62_interior m wl l0 l0' (ls : seq (layer_solve_result n)) (ls' : seq (layer_solve_result n')) lN lN' (ts : seq R) ss ss'
    (a_0 b_N : 'M[C]_(n + n, m)) xs xs' :
  List.Forall2 csolve (l0 :: rcons ls lN) (l0' :: rcons ls' lN') ->
  [/\ uniform_layer l0, uniform_layer l0', uniform_layer lN & uniform_layer lN'] ->
  same_wavelength wl (l0 :: rcons ls lN) ->
  finite_fields (l0 :: rcons ls lN) -> finite_fields (l0' :: rcons ls' lN') ->
  independent_modes (l0' :: rcons ls' lN') ->
  stack_s_matrices_interior (l0 :: rcons ls lN) ts = Val ss ->
  stack_amplitudes_interior ss a_0 b_N = Val xs ->
  stack_s_matrices_interior (l0' :: rcons ls' lN') ts = Val ss' ->
  stack_amplitudes_interior ss' (spread_amplitudes c a_0) (spread_amplitudes c b_N) = Val xs' ->
  forall k k' x x' i, (i < size (l0 :: rcons ls lN))%N ->
    same_cell_field (nth k (zip (l0 :: rcons ls lN) ts) i) (nth x xs i)
               (nth k' (zip (l0' :: rcons ls' lN') ts) i) (nth x' xs' i).
Proof.
move=> H [u0 u0' uN uN'] hw hf hf' hi h1 h2 h1' h2' k k' x x' i hi'.
rewrite !spread_amplitudesE in h2'.
have [S [y0 [ys [ey ea eb]]]] := proj1 (C08_interior_amplitudes h1 h2 hw hf xs) erefl.
have [S' _] := proj1 (C08_interior_amplitudes h1' h2' (supercell_wl H hw) hf' xs') erefl.
have sz : size (l0 :: rcons ls lN) = size ts.
  by move: h1; rewrite /stack_s_matrices_interior /stack_s_matrices; case: eqP.
have sz' : size (l0' :: rcons ls' lN') = size ts by rewrite -sz (forall2_sz H).
have ok := supercell_okp H sz hf hf' hi.
have [M _] := cmap_solution ok S.
have s1 := solution_size S; have s2 := forall2_sz ok.
have e : camps_map d (zip (l0 :: rcons ls lN) ts) (zip (l0' :: rcons ls' lN') ts) xs = xs'.
  apply/(C08_interior_amplitudes h1' h2' (supercell_wl H hw) hf'); split; first exact: M.
  rewrite {}ey in s1 *; clear -ok u0 u0' uN uN' sz sz' s1 s2 ea eb.
  case: ts sz sz' s1 s2 ok => [|t ts] sz sz' s1 s2 ok; first by [].
  have {}sz : size (rcons ls lN) = size ts by case: sz.
  have {}sz' : size (rcons ls' lN') = size ts by case: sz'.
  have {}s1 : size ys = size (zip (rcons ls lN) ts) by case: s1.
  have {}s2 : size (zip (rcons ls lN) ts) = size (zip (rcons ls' lN') ts) by case: s2.
  exists (camp_map d (l0, t) (l0', t) y0), (camps_map d (zip (rcons ls lN) ts) (zip (rcons ls' lN') ts) ys).
  split; first by [].
    by rewrite /= (uniform_cell u0 u0') ea.
  rewrite (@clast_amps_map n n' m d _ _ _ _ _ _ s2 s1) /camp_map (last_zip_rcons _ _ sz) (last_zip_rcons _ _ sz') (uniform_cell uN uN') /=.
  by rewrite eb.
have hz : (i < size (zip (l0 :: rcons ls lN) ts))%N by rewrite size_zip -sz minnn.
rewrite -e (@cnth_amps_map n n' m d k k' x x' _ _ _ _ s2 s1 hz).
exact: amp_cell (forall2_nth ok k k' hz).
Qed.
End Supercell.
Print Assumptions C62_coordinates.
Print Assumptions C62_layer.
Print Assumptions C62_stack.
Print Assumptions C62_scattering.
Print Assumptions C62_interior.

(** ** Non-vacuity *)
Lemma cell_recip n n' (c : supercell n n') : (0 < sc_x c)%N -> (0 < sc_y c)%N ->
  exists rv, reciprocal (cell_lattice c sq_lattice) = Val rv.
Proof.
move=> h1 h2; have [nx ny] := cell_nz h1 h2; have hp := PI_neq0.
have : cross_product (lat_u sq_lattice) (lat_v sq_lattice) <> 0%coqR.
  by move=> h; move: recip_sq; rewrite /reciprocal /recipR; case: eqP => // [[]]; rewrite R0E.
have e : cross_product (lat_u (cell_lattice c sq_lattice)) (lat_v (cell_lattice c sq_lattice)) =
  (INR (sc_x c) * (INR (sc_y c) * cross_product (lat_u sq_lattice) (lat_v sq_lattice)))%coqR by rewrite /cross_product /=; ring.
move=> h; rewrite /reciprocal /recipR e ifT; first by eexists.
by apply/eqP; rewrite R0E => /Rmult_integral [//|/Rmult_integral [//|//]].
Qed.
(** Every list of orders is one of a larger cell, and any such pair can be solved in air. *)
Definition cell_expansion n n' (c : supercell n n') (expn : n.-tuple (Z * Z)) : n.-tuple (Z * Z) :=
  [tuple cell_order c (tnth expn i) | i < n].
Example C62_orders_witness n (expn : n.-tuple (Z * Z)) Mx My : (0 < Mx)%N -> (0 < My)%N ->
  let c := Supercell Mx My id in cell_orders c expn (cell_expansion c expn).
Proof.
by move=> hx hy c; split=> [//||i|k o _]; [exact: inj_id|rewrite tnth_mktuple|exists k].
Qed.
Example C62_air_witness n n' (c : supercell n n') expn expn' : cell_orders c expn expn' ->
  exists l l', supercell_solve diag_eig diag_eig c l l' /\ expansion l = expn /\ expansion l' = expn'.
Proof.
move=> hc; have [[px py] _ _ _] := hc; have [rv hrv] := cell_recip px py.
have S1 : squeeze11 (const_mx 1 : 'M[C]_(1, 1)) != 0.
  by rewrite /squeeze11 (mxgetE _ (isT : (0 < 1)%N) (isT : (0 < 1)%N)) mxE oner_eq0.
have [l [h e]] : exists l : layer_solve_result n,
    eigensolve_isotropic_media diag_eig ex_wl (0, 0)%coqR sq_lattice (const_mx 1 : 'M[C]_(1, 1)) expn FFT = Val l /\ expansion l = expn.
  rewrite /eigensolve_isotropic_media eqxx /eigensolve_uniform_isotropic_media /transverse_wavevectors recip_sq /= ex_w /= /recipC ifT //.
  by eexists.
have [l' [h' e']] : exists l' : layer_solve_result n',
    eigensolve_isotropic_media diag_eig ex_wl (0, 0)%coqR (cell_lattice c sq_lattice) (on_cell c false (const_mx 1 : 'M[C]_(1, 1))) expn' FFT = Val l' /\ expansion l' = expn'.
  rewrite /eigensolve_isotropic_media eqxx [squeeze11 _]tile11 /eigensolve_uniform_isotropic_media /transverse_wavevectors hrv /= ex_w /= /recipC ifT //.
  by eexists.
exists l, l'; split; last by [].
by apply: (@supercell_isotropic _ _ _ _ c false 1 1 _ _ _ _ expn FFT expn' FFT _ _ _ hc _ h h').
Qed.
(** One order of the unit cell, and two of a cell twice as long. *)
Definition two_cells : supercell 1 2 := Supercell 2 1 (fun _ => 0).
Example C62_more_orders_witness : cell_orders two_cells [tuple (0, 0)%coqZ] [tuple (0, 0)%coqZ; (1, 0)%coqZ].
Proof.
split=> // [i j _|i|k [a b]]; first by rewrite (ord1 i) (ord1 j).
  by rewrite (ord1 i) !(tnth_nth (0, 0)%coqZ).
case: k => [[|[|//]] hk]; rewrite (tnth_nth (0, 0)%coqZ) => H; first by exists 0; apply: val_inj.
by have h : (1 = 2 * a)%coqZ := congr1 fst H; exfalso; lia.
Qed.

(** The stack air, stripes, air on a cell twice as long, with four stripes. *)
Definition ex_cell : supercell 1 1 := Supercell 2 1 id.
Lemma ex_cell_orders : cell_orders ex_cell ex_expn ex_expn.
Proof.
split=> // [i|k o _]; last by exists k.
by rewrite !(tnth_nth (0, 0)%coqZ) (ord1 i).
Qed.
Definition cell_layer (l : layer_solve_result 1) : layer_solve_result 1 :=
  {| wavelength := wavelength l; in_plane_wavevector := in_plane_wavevector l;
     primitive_lattice_vectors := cell_lattice ex_cell sq_lattice; expansion := expansion l;
     eigenvalues := eigenvalues l; eigenvectors := eigenvectors l;
     z_permittivity_matrix := z_permittivity_matrix l; inverse_z_permittivity_matrix := inverse_z_permittivity_matrix l;
     z_permeability_matrix := z_permeability_matrix l; inverse_z_permeability_matrix := inverse_z_permeability_matrix l;
     transverse_permeability_matrix := transverse_permeability_matrix l; tangent_vector_field := tangent_vector_field l |}.
Lemma cex_k : transverse_wavevectors (0, 0)%coqR (cell_lattice ex_cell sq_lattice) ex_expn = Val (0, 0).
Proof.
case e : transverse_wavevectors => [[kx ky]|]; last first.
  have [rv h] := @cell_recip _ _ ex_cell isT isT.
  by move: e; rewrite /transverse_wavevectors h.
have h := wavevectors_cell ex_cell_orders ex_k e.
congr (Val (_, _)); apply/rowP=> i; have [hx hy] := h i.
  by rewrite -[kx _ _]/(kx ord0 (sc_pos ex_cell i)) hx.
by rewrite -[ky _ _]/(ky ord0 (sc_pos ex_cell i)) hy.
Qed.
Lemma cex_air : eigensolve_isotropic_media diag_eig ex_wl (0, 0)%coqR (cell_lattice ex_cell sq_lattice)
  (on_cell ex_cell false (const_mx 1 : 'M[C]_(1, 1))) ex_expn FFT = Val (cell_layer (ex_layer 1)).
Proof.
have := ex_air; rewrite /eigensolve_isotropic_media !eqxx [squeeze11 (on_cell _ _ _)]tile11.
rewrite /eigensolve_uniform_isotropic_media cex_k ex_k /= ex_w /=.
by case: recipC => //= y h; exact: (congr1 (rmap cell_layer) h).
Qed.
Lemma cex_stripes a b : (0 < a)%coqR -> (0 < b)%coqR -> ((a + b) / 2 = 4)%coqR ->
  exists X, eigensolve_isotropic_media diag_eig ex_wl (0, 0)%coqR sq_lattice (stripes a b) ex_expn FFT = Val (ex_patterned X) /\
    eigensolve_isotropic_media diag_eig ex_wl (0, 0)%coqR (cell_lattice ex_cell sq_lattice) (on_cell ex_cell true (stripes a b)) ex_expn FFT
      = Val (cell_layer (ex_patterned X)).
Proof.
move=> ha hb hab; have [X hX] := stripes_solve ha hb hab; exists X; split=> //; move: hX.
have nz i j : stripes a b i j != 0 by rewrite mxE; case: ifP => _; apply: RtoC_neq0; lra.
have nz' i j : tile 2 1 (stripes a b) i j != 0 by rewrite mxE.
rewrite /eigensolve_isotropic_media /eigensolve_patterned_isotropic_media fft_matrices //; last exact: ex_resolves.
rewrite /on_cell /= fft_matrices //; last exact: ex_resolves.
have cE (x : 'M[C]_(2, 1)) : convm ex_expn (tile 2 1 x) = convm ex_expn x.
  apply/matrixP=> i j; rewrite !mxE -(@fc_tile 2 1 _ _ x _ isT isT); congr fourier_coefficient.
  by rewrite /standard_toeplitz_index !(tnth_nth (0, 0)%coqZ) (ord1 i) (ord1 j).
rewrite -tile_map !cE /bind /numerical_eigensolve cex_k ex_k /=.
case: k_matrix_patterned => //= K; case: omega_script_k_matrix_patterned => //= O.
by case: diag_eig => //= -[v V] h; exact: (congr1 (rmap cell_layer) h).
Qed.
Lemma cex_stack X : exists s, stack_s_matrix [:: cell_layer (ex_layer 1); cell_layer (ex_patterned X); cell_layer (ex_layer 1)] ex_thickness = Val s.
Proof.
have w l : in_plane_wavevector l = (0, 0)%coqR -> primitive_lattice_vectors l = sq_lattice -> expansion l = ex_expn ->
    omega_script_k_matrix (cell_layer l) = omega_script_k_matrix l.
  by move=> h1 h2 h3; rewrite /omega_script_k_matrix [in LHS]/cell_layer /= h1 h2 h3 cex_k ex_k.
have I k l : omega_script_k_matrix (cell_layer k) = omega_script_k_matrix k -> omega_script_k_matrix (cell_layer l) = omega_script_k_matrix l ->
    interface_matrices (cell_layer k) (cell_layer l) = interface_matrices k l.
  by move=> h1 h2; rewrite /interface_matrices h1 h2.
have := ex_patterned_stack X; rewrite /stack_s_matrix /stack_s_matrices /= !pair_extend /append_layer.
have E1 s t t' : extend_s_matrix s (cell_layer (ex_layer 1)) t (cell_layer (ex_patterned X)) t' = extend_s_matrix s (ex_layer 1) t (ex_patterned X) t'.
  by rewrite /extend_s_matrix I // w.
have E2 s t t' : extend_s_matrix s (cell_layer (ex_patterned X)) t (cell_layer (ex_layer 1)) t' = extend_s_matrix s (ex_patterned X) t (ex_layer 1) t'.
  by rewrite /extend_s_matrix I // w.
rewrite !E1; case: extend_s_matrix => [[[[a b] c] d]|] //=; rewrite !E2.
by case: extend_s_matrix => [[[[a' b'] c'] d']|] //= _; eexists.
Qed.
Lemma cell_conversion l : in_plane_wavevector l = (0, 0)%coqR -> primitive_lattice_vectors l = sq_lattice -> expansion l = ex_expn ->
  field_conversion_matrix (cell_layer l) = field_conversion_matrix l.
Proof. by move=> h1 h2 h3; rewrite /field_conversion_matrix /omega_script_k_matrix /= h1 h2 h3 cex_k ex_k. Qed.
Example C62_witness : exists X s s', let ls := [:: ex_layer 1; ex_patterned X; ex_layer 1] in let ls' := map cell_layer ls in
  [/\ eig_spec diag_eig /\ List.Forall2 (supercell_solve diag_eig diag_eig ex_cell) ls ls',
      uniform_layer (ex_layer 1) /\ uniform_layer (cell_layer (ex_layer 1)),
      same_wavelength ex_wl ls,
      [/\ finite_fields ls, finite_fields ls' & independent_modes ls'] &
      stack_s_matrix ls ex_thickness = Val s /\ stack_s_matrix ls' ex_thickness = Val s'].
Proof.
have [X [hX hX']] := @cex_stripes 3 5 ltac:(lra) ltac:(lra) ltac:(lra).
have [s' hs'] := cex_stack X; exists X, ex_smat, s' => ls ls'.
have m1 : supercell_solve diag_eig diag_eig ex_cell (ex_layer 1) (cell_layer (ex_layer 1)).
  by apply: (@supercell_isotropic _ _ _ _ ex_cell false 1 1 _ _ _ _ ex_expn FFT ex_expn FFT _ _ _ ex_cell_orders _ ex_air cex_air).
have m2 : supercell_solve diag_eig diag_eig ex_cell (ex_patterned X) (cell_layer (ex_patterned X)).
  by apply: (@supercell_isotropic _ _ _ _ ex_cell true 2 1 _ _ _ _ ex_expn FFT ex_expn FFT _ _ _ ex_cell_orders _ hX hX').
split.
- split; first exact: diag_eig_spec.
  by constructor; [|constructor; [|constructor; [|constructor]]].
- split; first by exists diag_eig, ex_wl, (0, 0)%coqR, sq_lattice, (const_mx 1), ex_expn, FFT; exact: ex_air.
  by do 7 eexists; exact: cex_air.
- by move=> k [<-|[<-|[<-|[]]]].
- split; first exact: ex_patterned_finite.
    have h := @ex_patterned_finite X.
    move=> k [<-|[<-|[<-|[]]]]; rewrite cell_conversion //; apply: h; [by left|by right; left|by left].
  by move=> k [<-|[<-|[<-|[]]]]; exact: unitmx1.
- by split; [exact: ex_patterned_stack|exact: hs'].
Qed.

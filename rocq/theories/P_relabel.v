(** C61: results do not depend on how the orders and lattice vectors are labelled. *)
From Coq Require Import Reals ZArith Lra FunctionalExtensionality.
From mathcomp Require Import all_ssreflect all_algebra.
From mathcomp Require Import perm fingroup.
From Verif Require Import CField Err LinAlg Tac M_utils M_basis M_fft M_fmm_matrices M_fmm M_scattering M_fields S_stack S_maxwell S_fields S_fft S_modes S_shift S_relabel.
From Verif Require Import L_scattering L_stack L_maxwell L_fft L_fmm L_fields L_modes L_relabel P_scattering P_maxwell P_fmm P_modes P_shift L_example.
Set Implicit Arguments. Unset Strict Implicit. Unset Printing Implicit Defensive.
Import GRing.Theory.
Local Open Scope ring_scope.

(** ** Wavevectors *)
Lemma reciprocal_exchange sw l : reciprocal (exchange_lattice sw l) = rmap (exchange_lattice sw) (reciprocal l).
Proof.
case: sw; last by case: reciprocal.
rewrite /reciprocal /= /recipR.
have -> : cross_product (lat_v l) (lat_u l) = (- cross_product (lat_u l) (lat_v l))%coqR by rewrite /cross_product; ring.
case: eqP => h; case: eqP => h' //=.
- by case: h'; move: h; rewrite !R0E => h; lra.
- by case: h; rewrite h' !R0E Ropp_0.
congr (Val (Lattice (_, _) (_, _))); rewrite !RinvE Rinv_opp; ring.
Qed.
Lemma wavevectors_relabel n (r : relabelling n) k0 plv expn k0' plv' expn' kx ky kx' ky' :
  relabelled r k0 plv expn k0' plv' expn' ->
  transverse_wavevectors k0 plv expn = Val (kx, ky) -> transverse_wavevectors k0' plv' expn' = Val (kx', ky') ->
  (forall i, kx' ord0 i = kx ord0 (r_perm r i)) /\ (forall i, ky' ord0 i = ky ord0 (r_perm r i)).
Proof.
move=> [-> hk he]; rewrite /transverse_wavevectors reciprocal_exchange => H; binv H rv hr; rewrite hr /=; case: H => <- <- [<- <-].
rewrite (hk _ hr); split=> i; rewrite !mxE !he; case: (r_order r) => a b; case: (tnth expn (r_perm r i)) => x y.
  by case: (r_swap r) => /=; rewrite !minus_IZR; ring.
by case: (r_swap r) => /=; rewrite !minus_IZR; ring.
Qed.
Lemma diag_perm n (s : 'S_n) (k k' : 'rV[R]_n) : (forall i, k' ord0 i = k ord0 (s i)) ->
  diag (vC k') *m (perm_mx s : 'M[C]_n) = perm_mx s *m diag (vC k).
Proof.
move=> h; rewrite mulmx_perm -row_permE; apply/matrixP=> i j; rewrite !mxE -[k' _ _]/(k' ord0 i) h.
by rewrite -[k 0 _]/(k ord0 (s i)) (canF_eq (permK s)) eq_sym.
Qed.

(** ** Solvers *)
Section Solvers.
Variables (n : nat) (r : relabelling n).
Notation sw := (r_swap r).
Notation d := (perm_mx (r_perm r) : 'M[C]_n).
Lemma numerical_relabel eig eig' wl k0 plv k0' plv' (ez iez mz imz ez' iez' mz' imz' : 'M[C]_n) et mt et' mt' expn expn' tvf tvf' l l' :
  eig_spec eig -> eig_spec eig' -> relabelled r k0 plv expn k0' plv' expn' ->
  rl_cj r ez ez' -> rl_cj r iez iez' -> rl_CJ r et et' ->
  rl_cj r mz mz' -> rl_cj r imz imz' -> rl_CJ r mt mt' ->
  numerical_eigensolve eig wl k0 plv ez iez et mz imz mt expn tvf = Val l ->
  numerical_eigensolve eig' wl k0' plv' ez' iez' et' mz' imz' mt' expn' tvf' = Val l' ->
  conjugated d l l'.
Proof.
move=> he he' hr c1 c2 c3 c4 c5 c6 H H'.
have [x [a1 [a2 [a3 a4]]] [a5 a6] [a7 a8] [a9 _]] := numerical_exact he H.
have [x' [b1 [b2 [b3 b4]]] [b5 b6] [b7 b8] [b9 _]] := numerical_exact he' H'.
split; rewrite ?a1 ?a2 ?a3 ?a4 ?a5 ?a6 ?a7 ?a8 ?a9 ?b1 ?b2 ?b3 ?b4 ?b5 ?b6 ?b7 ?b8 ?b9 //.
- by move=> kx ky kx' ky' h h'; have [hx hy] := wavevectors_relabel hr h h'; split; exact: diag_perm.
- by exists et, et'.
- exact: numerical_root H.
- exact: numerical_root H'.
Qed.
Lemma regrid11 s (x : 'M[C]_(1, 1)) : squeeze11 (regrid s x) = squeeze11 x.
Proof.
case: s => //=; rewrite /squeeze11.
by rewrite !(mxgetE _ (isT : (0 < 1)%N) (isT : (0 < 1)%N)) mxE.
Qed.
Lemma swap11 s (nx ny : nat) : ((if s then ny else nx, if s then nx else ny) == (1, 1)%N) = ((nx, ny) == (1, 1)%N).
Proof. by case: s => //; rewrite !xpair_eqE andbC. Qed.
Lemma fourier_general_relabel nx ny k0 plv k0' plv' (eps mu : tensor 'M[C]_(nx, ny)) expn expn' form form' src q q' :
  relabelled r k0 plv expn k0' plv' expn' -> @same_tangents sw _ _ _ plv plv' expn expn' form form' ->
  fourier_matrices_patterned_anisotropic_media plv eps mu expn form src = Val q ->
  fourier_matrices_patterned_anisotropic_media plv' (regrid_tensor sw eps) (regrid_tensor sw mu) expn' form' (regrid sw src) = Val q' ->
  let '(iez, ez, et, imz, mz, mt, _) := q in let '(iez', ez', et', imz', mz', mt', _) := q' in
  [/\ rl_cj r ez ez', rl_cj r iez iez' & rl_CJ r et et'] /\
  [/\ rl_cj r mz mz', rl_cj r imz imz' & rl_CJ r mt mt'].
Proof.
move=> [_ _ hexp] hform.
have E (x : 'M[C]_(nx, ny)) : rl_mv (rel := r) x (regrid sw x) by [].
rewrite /fourier_matrices_patterned_anisotropic_media => H H'.
binv H t ht; binv H a ha; binv H b hb; binv H c hc; binv H e he; binv H u hu; binv H v hv; binv H w hw; binv H y hy'; case: H => <-.
binv H' t' ht'; binv H' a' ha'; binv H' b' hb'; binv H' c' hc'; binv H' e' he'; binv H' u' hu'; binv H' v' hv'; binv H' w' hw'; binv H' y' hy''; case: H' => <-.
have cc := rl_conv_moved hexp (E _) hc hc'; have cb := rl_conv_moved hexp (rl_mv_recip (E _) ha ha') hb hb'.
have cw := rl_conv_moved hexp (E _) hw hw'; have cv := rl_conv_moved hexp (rl_mv_recip (E _) hu hu') hv hv'.
suff [ce cy] : rl_CJ r e e' /\ rl_CJ r y y' by [].
case: form form' hform ht ht' => [|g] [|g'] //= hform ht ht'.
  case: ht => et; case: ht' => et'; subst t t'.
  by split; [exact: (rl_fft_eps_mv hexp (t := eps) (t' := regrid_tensor sw eps)) he he'|exact: (rl_fft_mu_mv hexp (t := mu) (t' := regrid_tensor sw mu)) hy' hy''].
binv ht p hp; case: p hp ht => tx ty hp [et]; binv ht' p' hp'; case: p' hp' ht' => tx' ty' hp' [et']; subst t t'.
have [tm1 tm2] := hform _ _ _ hp hp'.
by split; [exact: (rl_vector_eps_mv hexp (t := eps) (t' := regrid_tensor sw eps)) tm1 tm2 he he'|exact: (rl_vector_mu_mv hexp (t := mu) (t' := regrid_tensor sw mu)) tm1 tm2 hy' hy''].
Qed.
Lemma general_relabel eig eig' nx ny wl k0 plv k0' plv' (eps mu : tensor 'M[C]_(nx, ny)) expn expn' form form' src l l' :
  eig_spec eig -> eig_spec eig' ->
  relabelled r k0 plv expn k0' plv' expn' -> @same_tangents sw _ _ _ plv plv' expn expn' form form' ->
  eigensolve_general_anisotropic_media eig wl k0 plv eps mu expn form src = Val l ->
  eigensolve_general_anisotropic_media eig' wl k0' plv' (regrid_tensor sw eps) (regrid_tensor sw mu) expn' form' (regrid_source sw src) = Val l' ->
  conjugated d l l'.
Proof.
move=> he he' hr hform; rewrite /eigensolve_general_anisotropic_media swap11; case: eqP => [[ex ey]|_].
  subst nx ny.
  have S (t : tensor 'M[C]_(1, 1)) : tensor_map (@squeeze11 _ _) (regrid_tensor sw t) = tensor_map (@squeeze11 1 1) t.
    by rewrite /tensor_map /regrid_tensor /=; congr Tensor; exact: regrid11.
  rewrite !S /eigensolve_uniform_general_anisotropic_media => H H'; binv H q hq; binv H q' hq'; rewrite hq hq' /= in H'.
  by apply: (numerical_relabel he he' hr _ _ _ _ _ _ H H'); try exact: rl_cj_scalar; apply: rl_cj_block; exact: rl_cj_scalar.
rewrite /eigensolve_patterned_general_anisotropic_media => H H'.
binv H q hq; binv H' q' hq'.
have es : (match regrid_source sw src with Some s => s | None => map_mx (fun z : C => z / RtoC 2%coqR) (t_xx (regrid_tensor sw eps) + t_yy (regrid_tensor sw eps)) end)
   = regrid sw (match src with Some s => s | None => map_mx (fun z : C => z / RtoC 2%coqR) (t_xx eps + t_yy eps) end).
  by case: (src) => [s|] //=; rewrite regrid_map regrid_add.
rewrite es in hq'.
have := fourier_general_relabel hr hform hq hq'.
case: q hq H => [[[[[[a b] c] x] e] g] t] _ H; case: q' hq' H' => [[[[[[a' b'] c'] x'] e'] g'] t'] _ H'.
by case=> [[c1 c2 c3] [c4 c5 c6]]; exact: (numerical_relabel he he' hr c1 c2 c3 c4 c5 c6 H H').
Qed.
Lemma isotropic_relabel eig eig' nx ny wl k0 plv k0' plv' (eps : 'M[C]_(nx, ny)) expn expn' form form' l l' :
  eig_spec eig -> eig_spec eig' ->
  relabelled r k0 plv expn k0' plv' expn' -> @same_tangents sw _ _ _ plv plv' expn expn' form form' ->
  eigensolve_isotropic_media eig wl k0 plv eps expn form = Val l ->
  eigensolve_isotropic_media eig' wl k0' plv' (regrid sw eps) expn' form' = Val l' ->
  conjugated d l l'.
Proof.
move=> he he' hr hform; rewrite /eigensolve_isotropic_media swap11; case: eqP => [[ex ey]|_].
  subst nx ny; rewrite regrid11 => H H'.
  have [x [a1 [a2 [a3 a4]]] _ [a5 a6] [a7 a8 a9]] := uniform_exact H.
  have [x' [b1 [b2 [b3 b4]]] _ [b5 b6] [b7 b8 b9]] := uniform_exact H'.
  split; rewrite ?a1 ?a2 ?a3 ?a4 ?a5 ?a6 ?a7 ?a8 ?a9 ?b1 ?b2 ?b3 ?b4 ?b5 ?b6 ?b7 ?b8 ?b9 ?mul1mx ?mulmx1 //; try exact: rl_cj_scalar.
  - by move=> kx ky kx' ky' h h'; have [hx hy] := wavevectors_relabel hr h h'; split; exact: diag_perm.
  - exists (diag (const_mx (squeeze11 eps))), (diag (const_mx (squeeze11 eps))); split=> //.
    by rewrite diag_const_mx mul_scalar_mx mul_mx_scalar.
  - exact: uniform_root H.
  - exact: uniform_root H'.
rewrite /eigensolve_patterned_isotropic_media => H H'.
binv H q hq; binv H' q' hq'; case: q hq H => [[[a b] c] x] hq H; case: q' hq' H' => [[[a' b'] c'] x'] hq' H'.
suff [c1 c2 c3] : [/\ rl_cj r b b', rl_cj r a a' & rl_CJ r c c'].
  apply: (numerical_relabel he he' hr c1 c2 c3 _ _ _ H H'); try exact: rl_cj_scalar.
  by apply: rl_cj_block; exact: rl_cj_scalar.
have [_ _ hexp] := hr.
have E (y : 'M[C]_(nx, ny)) : rl_mv (rel := r) y (regrid sw y) by [].
move: hq hq'; rewrite /fourier_matrices_patterned_isotropic_media => {}H {}H'.
binv H t ht; binv H i hi; binv H iz hiz; binv H z hz; binv H et het; case: H => <- <- <- _.
binv H' t' ht'; binv H' i' hi'; binv H' iz' hiz'; binv H' z' hz'; binv H' et' het'; case: H' => <- <- <- _.
have cz := rl_conv_moved hexp (E _) hz hz'; have ci := rl_conv_moved hexp (rl_mv_recip (E _) hi hi') hiz hiz'.
suff : rl_CJ r et et' by [].
case: form form' hform ht ht' => [|g] [|g'] //= hform ht ht'.
  by case: ht => e1; case: ht' => e2; subst t t'; exact: (rl_fft_mv hexp (E _) het het').
binv ht p hp; case: p hp ht => tx ty hp [e1]; binv ht' p' hp'; case: p' hp' ht' => tx' ty' hp' [e2]; subst t t'.
have [tm1 tm2] := hform _ _ _ hp hp'.
exact: (rl_vector_mv hexp (E _) tm1 tm2 het het').
Qed.
Lemma relabelled_conjugated eig eig' l l' : eig_spec eig -> eig_spec eig' ->
  relabelled_solve eig eig' r l l' -> conjugated d l l'.
Proof.
move=> he he'; case=> {l l'}.
- by move=> nx ny wl k0 plv eps expn form k0' plv' expn' form' l l' hr hf H H'; exact: (isotropic_relabel he he' hr hf H H').
- move=> nx ny wl k0 plv eps expn form k0' plv' expn' form' l l' hr hf H H'; apply: (general_relabel he he' hr hf H).
  by rewrite /regrid_tensor /= !regrid_const; exact: H'.
- by move=> nx ny wl k0 plv eps mu expn form src k0' plv' expn' form' l l' hr hf H H'; exact: (general_relabel he he' hr hf H H').
Qed.
End Solvers.

(** ** Fields *)
Section Relabelled.
Variables (n : nat) (r : relabelling n).
Notation sg := (r_perm r).
Notation d := (perm_mx sg : 'M[C]_n).
Implicit Types (l : layer_solve_result n) (ls : seq (layer_solve_result n)).

Lemma coordinates_perm m p l l' (F : fields6 'M[C]_(n, m)) (x y : 'I_p -> R) kx ky kx' ky' :
  transverse_wavevectors (in_plane_wavevector l) (primitive_lattice_vectors l) (expansion l) = Val (kx, ky) ->
  transverse_wavevectors (in_plane_wavevector l') (primitive_lattice_vectors l') (expansion l') = Val (kx', ky') ->
  (forall i, kx' ord0 i = kx ord0 (sg i)) -> (forall i, ky' ord0 i = ky ord0 (sg i)) ->
  fields_on_coordinates (fields6_map (row_perm sg) F) l' x y = fields_on_coordinates F l x y.
Proof.
move=> h h' hx hy; rewrite /fields_on_coordinates h h' /=; congr (Val (_, _)).
rewrite f6_comp; apply: f6_ext => X; apply: functional_extensionality => pt; apply: functional_extensionality => j.
rewrite [RHS](reindex_inj (@perm_inj _ sg)); apply: eq_bigr => i _; rewrite mxE.
by rewrite -[kx' 0 i]/(kx' ord0 i) -[ky' 0 i]/(ky' ord0 i) hx hy.
Qed.
(** Coefficients listed in the new order give the same field at every point. *)
Theorem C61_coordinates m p l l' (F : fields6 'M[C]_(n, m)) (x y : 'I_p -> R) g g' :
  relabelled r (in_plane_wavevector l) (primitive_lattice_vectors l) (expansion l)
    (in_plane_wavevector l') (primitive_lattice_vectors l') (expansion l') ->
  fields_on_coordinates F l x y = Val g ->
  fields_on_coordinates (fields6_map (row_perm sg) F) l' x y = Val g' -> g' = g.
Proof.
move=> hr; case e : (transverse_wavevectors (in_plane_wavevector l) (primitive_lattice_vectors l) (expansion l)) => [[kx ky]|ex]; last first.
  by rewrite /fields_on_coordinates e.
case e' : (transverse_wavevectors (in_plane_wavevector l') (primitive_lattice_vectors l') (expansion l')) => [[kx' ky']|ex]; last first.
  by rewrite /fields_on_coordinates e'.
have [hx hy] := wavevectors_relabel hr e e'.
by rewrite (coordinates_perm F x y e e' hx hy) => -> [].
Qed.
Lemma conj_k (k k' : 'rV[R]_n) i : diag (vC k') *m d = d *m diag (vC k) -> k' ord0 i = k ord0 (sg i).
Proof.
rewrite mulmx_perm -row_permE => /matrixP/(_ i (sg i)); rewrite !mxE permK !eqxx !mulr1n => /(congr1 re).
by rewrite /=.
Qed.
Lemma relabel_reported m (k k' : layer n) (x : layer_amplitudes n m) z : cokp d k k' ->
  let x' := camp_map d k k' x in
  reported_fields k'.1 k'.2 x'.1 x'.2 z = rmap (fields6_map (row_perm sg)) (reported_fields k.1 k.2 x.1 x.2 z).
Proof.
move=> [t rel [g] [g'] v] x' /=; rewrite /x' /= t (cmap_reported rel g g' v).
by case: reported_fields => //= F; congr Val; apply: f6_ext => X; rewrite row_permE.
Qed.
Lemma amp_relabel m (k k' : layer n) (x : layer_amplitudes n m) : cokp d k k' ->
  same_field k x k' (camp_map d k k' x).
Proof.
move=> ok p X Y z; rewrite /fields_at (relabel_reported x z ok).
have [t rel [g] [g'] _] := ok; have [hx hy] := c_k rel (fl_k g) (fl_k g').
case: reported_fields => //= F.
by rewrite (coordinates_perm F X Y (fl_k g) (fl_k g') (fun i => conj_k i hx) (fun i => conj_k i hy)).
Qed.

(** Any field in a layer is a field in the relabelled layer. *)
Theorem C61_layer eig eig' m l l' (a b : 'M[C]_(n + n, m)) : eig_spec eig -> eig_spec eig' ->
  relabelled_solve eig eig' r l l' -> finite_fields [:: l; l'] -> independent_modes [:: l'] ->
  exists a' b', forall t,
    (forall z, reported_fields l' t a' b' z = rmap (fields6_map (row_perm sg)) (reported_fields l t a b z)) /\
    same_field (l, t) (a, b) (l', t) (a', b').
Proof.
move=> he he' h hf hi.
have [M /fin_layerP [g]] := hf l (or_introl erefl).
have [M' /fin_layerP [g']] := hf l' (or_intror (or_introl erefl)).
have v : eigenvectors l' \in unitmx by apply: hi; left.
have ok t : cokp d (l, t) (l', t) by split=> //; exact: (relabelled_conjugated he he' h).
exists (cmode_map d l l' *m a), (cmode_map d l l' *m b) => t; split=> [z|].
  exact: (@relabel_reported m (l, t) (l', t) (a, b) z (ok t)).
exact: (@amp_relabel m (l, t) (l', t) (a, b) (ok t)).
Qed.

(** ** Stacks *)
Variables (eig eig' : eig_fn).
Hypothesis (he : eig_spec eig) (he' : eig_spec eig').
Notation rsolve := (@relabelled_solve eig eig' n r).
Lemma relabelled_okp ls ls' (ts : seq R) : List.Forall2 rsolve ls ls' -> size ls = size ts ->
  finite_fields ls -> finite_fields ls' -> independent_modes ls' ->
  List.Forall2 (cokp d) (zip ls ts) (zip ls' ts).
Proof.
move=> H; elim: H ts => [|l l' ks ks' h hs IH] [|t ts] //= [sz] hf hf' hi; constructor.
  have [M /fin_layerP fM] := hf l (or_introl erefl); have [M' /fin_layerP fM'] := hf' l' (or_introl erefl).
  split=> //=; [exact: (relabelled_conjugated he he' h)|by apply: hi; left].
apply: IH => //.
- by move=> k hk; apply: hf; right.
- by move=> k hk; apply: hf'; right.
- by move=> k hk; apply: hi; right.
Qed.
Lemma relabelled_wl wl ls ls' : List.Forall2 rsolve ls ls' -> same_wavelength wl ls -> same_wavelength wl ls'.
Proof.
move=> H; elim: H => [|l l' ks ks' h hs IH] hw k //= [<-|hk].
  by rewrite (c_wl (relabelled_conjugated he he' h)); apply: hw; left.
by apply: IH => // j hj; apply: hw; right.
Qed.

(** Any field in a stack is a field in the relabelled stack. *)
Theorem C61_stack m ls ls' (ts : seq R) (xs : seq (layer_amplitudes n m)) :
  List.Forall2 rsolve ls ls' -> size ls = size ts ->
  finite_fields ls -> finite_fields ls' -> independent_modes ls' ->
  stack_solution (zip ls ts) xs ->
  exists xs', stack_solution (zip ls' ts) xs' /\
    forall d x i, (i < size ls)%N ->
      same_field (nth d (zip ls ts) i) (nth x xs i) (nth d (zip ls' ts) i) (nth x xs' i).
Proof.
move=> H sz hf hf' hi S; have ok := relabelled_okp H sz hf hf' hi.
have [S' sz'] := cmap_solution ok S; exists (camps_map d (zip ls ts) (zip ls' ts) xs); split; first exact: S'.
move=> k x i hi'; have s1 := solution_size S; have s2 := forall2_sz ok.
have hz : (i < size (zip ls ts))%N by rewrite size_zip -sz minnn.
rewrite (@cnth_amps_map n m d k x _ _ _ _ s2 s1 hz).
exact: amp_relabel (forall2_nth ok k k hz).
Qed.

(** ** Scattering matrices *)
Lemma reorderE m (a : 'M[C]_(n + n, m)) : reorder sg a = dd d *m a.
Proof. by rewrite /reorder !row_permE -{3}[a]vsubmxK /dd mul_block_col !mul0mx addr0 add0r. Qed.
Lemma reorder_component m (a : 'M[C]_(n + n, m)) u i j : reorder sg a (component u i) j = a (component u (sg i)) j.
Proof. by case: u => /=; rewrite /reorder ?col_mxEu ?col_mxEd !mxE. Qed.
Lemma dd_component m (a : 'M[C]_(m, n + n)) u i j : (a *m dd d) i (component u (sg j)) = a i (component u j).
Proof.
rewrite -{1}[a]hsubmxK /dd mul_row_block !mulmx0 addr0 add0r !mulmx_perm.
by case: u => /=; rewrite ?row_mxEl ?row_mxEr !mxE permK.
Qed.
Lemma uniform_relabel l l' : uniform_layer l -> uniform_layer l' -> cmode_map d l l' = dd d.
Proof.
move=> /uniform_vectors u /uniform_vectors u'; rewrite /cmode_map -lock u u' mulmx1.
by rewrite invmx1 mul1mx.
Qed.
(** Between uniform layers: the same entries, at the new positions of the orders. *)
Theorem C61_scattering wl l0 l0' (ls ls' : seq (layer_solve_result n)) lN lN' (ts : seq R) s s' :
  List.Forall2 rsolve (l0 :: rcons ls lN) (l0' :: rcons ls' lN') ->
  [/\ uniform_layer l0, uniform_layer l0', uniform_layer lN & uniform_layer lN'] ->
  same_wavelength wl (l0 :: rcons ls lN) ->
  finite_fields (l0 :: rcons ls lN) -> finite_fields (l0' :: rcons ls' lN') ->
  independent_modes (l0' :: rcons ls' lN') ->
  stack_s_matrix (l0 :: rcons ls lN) ts = Val s -> stack_s_matrix (l0' :: rcons ls' lN') ts = Val s' ->
  forall u v i j,
  [/\ s11 s' (component u i) (component v j) = s11 s (component u (sg i)) (component v (sg j)),
      s12 s' (component u i) (component v j) = s12 s (component u (sg i)) (component v (sg j)),
      s21 s' (component u i) (component v j) = s21 s (component u (sg i)) (component v (sg j)) &
      s22 s' (component u i) (component v j) = s22 s (component u (sg i)) (component v (sg j))].
Proof.
move=> H [u0 u0' uN uN'] hw hf hf' hi hs hs' u v i j.
have [sz ends _ _] := C01_stack_s_matrix_is_field_continuity hs hw hf.
have [sz' ends' _ _] := C01_stack_s_matrix_is_field_continuity hs' (relabelled_wl H hw) hf'.
have ok := relabelled_okp H sz hf hf' hi.
case: ts sz sz' ends ends' ok {hs hs'} => [|t ts] //= [sz] [sz'] ends ends' ok.
have [] := @scatters_uniq n s s' (dd d) (dd d).
  move=> m a0 b0 aN bN /ends /(cmap_ends ok) /=.
  by rewrite (last_zip_rcons _ _ sz) (last_zip_rcons _ _ sz') (uniform_relabel u0 u0') (uniform_relabel uN uN') => /ends'.
have key (A A' : 'M[C]_(n + n)) : dd d *m A = A' *m dd d ->
    A' (component u i) (component v j) = A (component u (sg i)) (component v (sg j)).
  by move=> e; rewrite -dd_component -e -reorderE reorder_component.
by move=> /key -> /key -> /key -> /key ->.
Qed.

(** The amplitudes the library computes inside the stack, for the same incident waves, give the
    same fields. *)
Theorem C61_interior m wl l0 l0' (ls ls' : seq (layer_solve_result n)) lN lN' (ts : seq R) ss ss'
    (a_0 b_N : 'M[C]_(n + n, m)) xs xs' :
  List.Forall2 rsolve (l0 :: rcons ls lN) (l0' :: rcons ls' lN') ->
  [/\ uniform_layer l0, uniform_layer l0', uniform_layer lN & uniform_layer lN'] ->
  same_wavelength wl (l0 :: rcons ls lN) ->
  finite_fields (l0 :: rcons ls lN) -> finite_fields (l0' :: rcons ls' lN') ->
  independent_modes (l0' :: rcons ls' lN') ->
  stack_s_matrices_interior (l0 :: rcons ls lN) ts = Val ss ->
  stack_amplitudes_interior ss a_0 b_N = Val xs ->
  stack_s_matrices_interior (l0' :: rcons ls' lN') ts = Val ss' ->
  stack_amplitudes_interior ss' (reorder sg a_0) (reorder sg b_N) = Val xs' ->
  forall d x i, (i < size (l0 :: rcons ls lN))%N ->
    same_field (nth d (zip (l0 :: rcons ls lN) ts) i) (nth x xs i)
               (nth d (zip (l0' :: rcons ls' lN') ts) i) (nth x xs' i).
Proof.
move=> H [u0 u0' uN uN'] hw hf hf' hi h1 h2 h1' h2' k x i hi'.
rewrite !reorderE in h2'.
have [S [y0 [ys [ey ea eb]]]] := proj1 (C08_interior_amplitudes h1 h2 hw hf xs) erefl.
have [S' _] := proj1 (C08_interior_amplitudes h1' h2' (relabelled_wl H hw) hf' xs') erefl.
have sz : size (l0 :: rcons ls lN) = size ts.
  by move: h1; rewrite /stack_s_matrices_interior /stack_s_matrices; case: eqP.
have sz' : size (l0' :: rcons ls' lN') = size ts by rewrite -sz (forall2_sz H).
have ok := relabelled_okp H sz hf hf' hi.
have [M _] := cmap_solution ok S.
have s1 := solution_size S; have s2 := forall2_sz ok.
have e : camps_map d (zip (l0 :: rcons ls lN) ts) (zip (l0' :: rcons ls' lN') ts) xs = xs'.
  apply/(C08_interior_amplitudes h1' h2' (relabelled_wl H hw) hf'); split; first exact: M.
  rewrite {}ey in s1 *; clear -ok u0 u0' uN uN' sz sz' s1 s2 ea eb.
  case: ts sz sz' s1 s2 ok => [|t ts] sz sz' s1 s2 ok; first by [].
  have {}sz : size (rcons ls lN) = size ts by case: sz.
  have {}sz' : size (rcons ls' lN') = size ts by case: sz'.
  have {}s1 : size ys = size (zip (rcons ls lN) ts) by case: s1.
  have {}s2 : size (zip (rcons ls lN) ts) = size (zip (rcons ls' lN') ts) by case: s2.
  exists (camp_map d (l0, t) (l0', t) y0), (camps_map d (zip (rcons ls lN) ts) (zip (rcons ls' lN') ts) ys).
  split; first by [].
    by rewrite /= (uniform_relabel u0 u0') ea.
  rewrite (@clast_amps_map n m d _ _ _ _ _ _ s2 s1) /camp_map (last_zip_rcons _ _ sz) (last_zip_rcons _ _ sz') (uniform_relabel uN uN') /=.
  by rewrite eb.
have hz : (i < size (zip (l0 :: rcons ls lN) ts))%N by rewrite size_zip -sz minnn.
rewrite -e (@cnth_amps_map n m d k x _ _ _ _ s2 s1 hz).
exact: amp_relabel (forall2_nth ok k k hz).
Qed.
End Relabelled.
Print Assumptions C61_coordinates.
Print Assumptions C61_layer.
Print Assumptions C61_stack.
Print Assumptions C61_scattering.
Print Assumptions C61_interior.

(** ** Non-vacuity *)
(** Every list of orders can be relabelled in every way, and air solved with both. *)
Definition relabel_expansion n (r : relabelling n) (expn : n.-tuple (Z * Z)) : n.-tuple (Z * Z) :=
  [tuple let o := tnth expn (r_perm r i) in exchange (r_swap r) (o.1 - (r_order r).1, o.2 - (r_order r).2)%coqZ | i < n].
Definition sq_wavevector n (r : relabelling n) : R * R := (2 * PI * IZR (r_order r).1, 2 * PI * IZR (r_order r).2)%coqR.
Lemma sq_relabelled n (r : relabelling n) expn :
  relabelled r (0, 0)%coqR sq_lattice expn (sq_wavevector r) (exchange_lattice (r_swap r) sq_lattice) (relabel_expansion r expn).
Proof.
split=> [//|rv|i o]; last by rewrite tnth_mktuple.
by rewrite recip_sq => -[<-] /=; congr (_, _); ring.
Qed.
Example C61_orders_witness n (r : relabelling n) (expn : n.-tuple (Z * Z)) :
  exists l l', relabelled_solve diag_eig diag_eig r l l' /\ expansion l = expn /\ expansion l' = relabel_expansion r expn.
Proof.
have S k0 sw (e : n.-tuple (Z * Z)) : exists l : layer_solve_result n,
    eigensolve_isotropic_media diag_eig ex_wl k0 (exchange_lattice sw sq_lattice) (regrid sw (const_mx 1 : 'M[C]_(1, 1))) e FFT = Val l /\ expansion l = e.
  rewrite /eigensolve_isotropic_media swap11 eqxx regrid11 /eigensolve_uniform_isotropic_media /transverse_wavevectors.
  rewrite reciprocal_exchange recip_sq /= ex_w /= /recipC ifT; first by eexists.
  by rewrite /squeeze11 (mxgetE _ (isT : (0 < 1)%N) (isT : (0 < 1)%N)) mxE oner_eq0.
have [l [h e]] := S (0, 0)%coqR false expn; have [l' [h' e']] := S (sq_wavevector r) (r_swap r) (relabel_expansion r expn).
exists l, l'; split; last by [].
exact: (relabelled_isotropic (sq_relabelled r expn) _ h h').
Qed.
(** Two orders listed the other way around. *)
Example C61_permutation_witness :
  relabel_expansion (Relabelling false (0, 0)%coqZ (tperm 0 1)) [tuple (0, 0)%coqZ; (1, 0)%coqZ] = [tuple (1, 0)%coqZ; (0, 0)%coqZ] :> 2.-tuple (Z * Z).
Proof.
apply: eq_from_tnth => i; rewrite tnth_mktuple /=; case: i => [[|[|//]] hi] /=.
  by rewrite (_ : Ordinal hi = 0) ?tpermL //; apply: val_inj.
by rewrite (_ : Ordinal hi = 1) ?tpermR //; apply: val_inj.
Qed.

(** The stack air, glass, air at normal incidence, described with exchanged lattice vectors, at
    the wavevector [(2 pi, 0)] and with the order [(0, -1)]. *)
Definition ex_relabelling : relabelling 1 := Relabelling true (1, 0)%coqZ 1%g.
Definition relabel_layer (l : layer_solve_result 1) : layer_solve_result 1 :=
  {| wavelength := wavelength l; in_plane_wavevector := sq_wavevector ex_relabelling;
     primitive_lattice_vectors := exchange_lattice true sq_lattice; expansion := relabel_expansion ex_relabelling ex_expn;
     eigenvalues := eigenvalues l; eigenvectors := eigenvectors l;
     z_permittivity_matrix := z_permittivity_matrix l; inverse_z_permittivity_matrix := inverse_z_permittivity_matrix l;
     z_permeability_matrix := z_permeability_matrix l; inverse_z_permeability_matrix := inverse_z_permeability_matrix l;
     transverse_permeability_matrix := transverse_permeability_matrix l; tangent_vector_field := tangent_vector_field l |}.
Lemma rex_k : transverse_wavevectors (sq_wavevector ex_relabelling) (exchange_lattice true sq_lattice) (relabel_expansion ex_relabelling ex_expn) = Val (0, 0).
Proof.
case e : transverse_wavevectors => [[kx ky]|]; last first.
  by move: e; rewrite /transverse_wavevectors reciprocal_exchange recip_sq.
have [hx hy] := wavevectors_relabel (sq_relabelled ex_relabelling ex_expn) ex_k e.
by congr (Val (_, _)); apply/rowP=> i; rewrite -?[kx _ _]/(kx ord0 i) -?[ky _ _]/(ky ord0 i) ?hx ?hy !mxE.
Qed.
Lemma rex_solve a : (0 < a)%coqR ->
  eigensolve_uniform_isotropic_media ex_wl (sq_wavevector ex_relabelling) (exchange_lattice true sq_lattice) (RtoC (a * a)%coqR) (relabel_expansion ex_relabelling ex_expn) =
  Val (relabel_layer (ex_layer a)).
Proof.
move=> a0; have := ex_solve a0; rewrite /eigensolve_uniform_isotropic_media rex_k ex_k /= ex_w /=.
rewrite /recipC ifT; last by apply: RtoC_neq0; nra.
by rewrite /= => -[h]; congr Val; rewrite /relabel_layer /=; congr LSR; exact: h.
Qed.
Lemma rex_omega a : omega_script_k_matrix (relabel_layer (ex_layer a)) = omega_script_k_matrix (ex_layer a).
Proof. by rewrite /omega_script_k_matrix [in LHS]/relabel_layer /= rex_k ex_k. Qed.
Definition rex_stack := map relabel_layer ex_stack.
Lemma rex_stackE : exists s, stack_s_matrix rex_stack ex_thickness = Val s.
Proof.
have := ex_stackE; rewrite /stack_s_matrix /stack_s_matrices /= !pair_extend /append_layer.
have I a b : interface_matrices (relabel_layer (ex_layer a)) (relabel_layer (ex_layer b)) = interface_matrices (ex_layer a) (ex_layer b).
  by rewrite /interface_matrices !rex_omega.
have E s a b t t' : extend_s_matrix s (relabel_layer (ex_layer a)) t (relabel_layer (ex_layer b)) t' = extend_s_matrix s (ex_layer a) t (ex_layer b) t'.
  by rewrite /extend_s_matrix I.
rewrite !E; case: extend_s_matrix => [[[[a b] c] d]|] //=; rewrite !E.
by case: extend_s_matrix => [[[[a' b'] c'] d']|] //= _; eexists.
Qed.
Lemma ex_const a : (0 < a)%coqR -> eigensolve_isotropic_media diag_eig ex_wl (0, 0)%coqR sq_lattice (const_mx (RtoC (a * a)%coqR) : 'M[C]_(1, 1)) ex_expn FFT = Val (ex_layer a).
Proof. by move=> h; rewrite -(ex_solve h) /eigensolve_isotropic_media eqxx /squeeze11 (mxgetE _ (isT : (0 < 1)%N) (isT : (0 < 1)%N)) mxE. Qed.
Lemma rex_const a : (0 < a)%coqR -> eigensolve_isotropic_media diag_eig ex_wl (sq_wavevector ex_relabelling) (exchange_lattice true sq_lattice)
  (regrid true (const_mx (RtoC (a * a)%coqR) : 'M[C]_(1, 1))) (relabel_expansion ex_relabelling ex_expn) FFT = Val (relabel_layer (ex_layer a)).
Proof.
move=> h; rewrite -(rex_solve h) /eigensolve_isotropic_media eqxx /squeeze11.
by rewrite (mxgetE _ (isT : (0 < 1)%N) (isT : (0 < 1)%N)) /regrid !mxE.
Qed.
Lemma rex_solves a : (0 < a)%coqR -> relabelled_solve diag_eig diag_eig ex_relabelling (ex_layer a) (relabel_layer (ex_layer a)).
Proof. by move=> a0; exact: (relabelled_isotropic (sq_relabelled ex_relabelling ex_expn) _ (ex_const a0) (rex_const a0)). Qed.
Example C61_witness : exists s s',
  [/\ eig_spec diag_eig /\ List.Forall2 (relabelled_solve diag_eig diag_eig ex_relabelling) ex_stack rex_stack,
      uniform_layer (ex_layer 1) /\ uniform_layer (relabel_layer (ex_layer 1)),
      same_wavelength ex_wl ex_stack,
      [/\ finite_fields ex_stack, finite_fields rex_stack & independent_modes rex_stack] &
      stack_s_matrix ex_stack ex_thickness = Val s /\ stack_s_matrix rex_stack ex_thickness = Val s'].
Proof.
have [s' hs'] := rex_stackE; exists ex_smat, s'.
have r1 : (0 < 1)%coqR by lra. have r2 : (0 < 2)%coqR by lra.
have [h1 h2] := ex_hyps; split.
- split; first exact: diag_eig_spec.
  by constructor; [exact: rex_solves|constructor; [exact: rex_solves|constructor; [exact: rex_solves|constructor]]].
- split; [exists diag_eig, ex_wl, (0, 0)%coqR, sq_lattice, (const_mx (RtoC (1 * 1)%coqR)), ex_expn, FFT; exact: ex_const|].
  by do 7 eexists; exact: (rex_const r1).
- exact: h1.
- have C a : field_conversion_matrix (relabel_layer (ex_layer a)) = field_conversion_matrix (ex_layer a).
    by rewrite /field_conversion_matrix rex_omega.
  split; first exact: h2.
    by move=> k [<-|[<-|[<-|[]]]]; rewrite C; exact: ex_finite.
  by move=> k [<-|[<-|[<-|[]]]]; exact: unitmx1.
- by split; first exact: ex_stackE.
Qed.

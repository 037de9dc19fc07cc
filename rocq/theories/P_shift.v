(** C58: moving a structure within the unit cell only changes phases. *)
From Coq Require Import Reals ZArith Lra FunctionalExtensionality.
From mathcomp Require Import all_ssreflect all_algebra.
From Verif Require Import CField Err LinAlg Tac M_utils M_basis M_fft M_fmm_matrices M_fmm M_scattering M_fields S_stack S_maxwell S_fields S_fft S_modes S_shift.
From Verif Require Import L_scattering L_stack L_maxwell L_fft L_fmm L_fields L_modes L_shift P_scattering P_maxwell P_fmm P_modes L_example.
Set Implicit Arguments. Unset Strict Implicit. Unset Printing Implicit Defensive.
Import GRing.Theory.
Local Open Scope ring_scope.

(** ** Moved solves give conjugated media *)
Lemma numerical_moved eig eig' n f wl k0 plv (ez iez mz imz ez' iez' mz' imz' : 'M[C]_n) et mt et' mt' expn tvf tvf' l l' :
  eig_spec eig -> eig_spec eig' ->
  cj f expn ez ez' -> cj f expn iez iez' -> cjD f expn et et' ->
  cj f expn mz mz' -> cj f expn imz imz' -> cjD f expn mt mt' ->
  numerical_eigensolve eig wl k0 plv ez iez et mz imz mt expn tvf = Val l ->
  numerical_eigensolve eig' wl k0 plv ez' iez' et' mz' imz' mt' expn tvf' = Val l' ->
  related (dl f expn) l l' /\ expansion l = expn.
Proof.
move=> he he' c1 c2 c3 c4 c5 c6 H H'.
have [x [a1 [a2 [a3 a4]]] [a5 a6] [a7 a8] [a9 _]] := numerical_exact he H.
have [x' [b1 [b2 [b3 b4]]] [b5 b6] [b7 b8] [b9 _]] := numerical_exact he' H'.
split=> //; split; rewrite ?a1 ?a2 ?a3 ?a4 ?a5 ?a6 ?a7 ?a8 ?a9 ?b1 ?b2 ?b3 ?b4 ?b5 ?b6 ?b7 ?b8 ?b9 //.
- by exists et, et'.
- exact: numerical_root H.
- exact: numerical_root H'.
Qed.
Lemma shift11 s (i : 'I_1) : shift_index s i = i.
Proof. by rewrite !ord1. Qed.
Lemma moved11 f (x x' : 'M[C]_(1, 1)) : moved f x x' -> x' = x.
Proof. by move=> [sx [sy [_ _ h]]]; apply/matrixP=> i j; rewrite -h !shift11. Qed.
Lemma fourier_general_moved n f nx ny plv (eps eps' mu mu' : tensor 'M[C]_(nx, ny)) (expn : n.-tuple (Z * Z)) form src src' r r' :
  moved_tensor f eps eps' -> moved_tensor f mu mu' -> moved f src src' -> moves_along f plv expn form ->
  fourier_matrices_patterned_anisotropic_media plv eps mu expn form src = Val r ->
  fourier_matrices_patterned_anisotropic_media plv eps' mu' expn form src' = Val r' ->
  let '(iez, ez, et, imz, mz, mt, _) := r in let '(iez', ez', et', imz', mz', mt', _) := r' in
  [/\ cj f expn ez ez', cj f expn iez iez' & cjD f expn et et'] /\
  [/\ cj f expn mz mz', cj f expn imz imz' & cjD f expn mt mt'].
Proof.
move=> [e1 e2 e3 e4 e5] [m1 m2 m3 m4 m5] hs hform.
have [sx [sy [hx hy hs']]] := hs.
have E1 := moved_mv hx hy e1; have E2 := moved_mv hx hy e2; have E3 := moved_mv hx hy e3.
have E4 := moved_mv hx hy e4; have E5 := moved_mv hx hy e5.
have M1 := moved_mv hx hy m1; have M2 := moved_mv hx hy m2; have M3 := moved_mv hx hy m3.
have M4 := moved_mv hx hy m4; have M5 := moved_mv hx hy m5.
rewrite /fourier_matrices_patterned_anisotropic_media => H H'.
binv H t ht; binv H a ha; binv H b hb; binv H c hc; binv H e he; binv H u hu; binv H v hv; binv H w hw; binv H y hy'; case: H => <-.
binv H' t' ht'; binv H' a' ha'; binv H' b' hb'; binv H' c' hc'; binv H' e' he'; binv H' u' hu'; binv H' v' hv'; binv H' w' hw'; binv H' y' hy''; case: H' => <-.
have cc := conv_moved hx hy E5 hc hc'; have cb := conv_moved hx hy (mv_recip E5 ha ha') hb hb'.
have cw := conv_moved hx hy M5 hw hw'; have cv := conv_moved hx hy (mv_recip M5 hu hu') hv hv'.
suff [ce cy] : cjD f expn e e' /\ cjD f expn y y' by [].
case: form hform ht ht' => [|g] hform ht ht'.
  case: ht => et; case: ht' => et'; subst t t'.
  by split; [exact: fft_eps_mv E1 E2 E3 E4 he he'|exact: fft_mu_mv M1 M2 M3 M4 hy' hy''].
binv ht p hp; case: p hp ht => tx ty hp [et]; binv ht' p' hp'; case: p' hp' ht' => tx' ty' hp' [et']; subst t t'.
have [tm1 tm2] := hform _ _ _ _ hs hp hp'.
have T1 := moved_mv hx hy tm1; have T2 := moved_mv hx hy tm2.
by split; [exact: vector_eps_mv E1 E2 E3 E4 T1 T2 he he'|exact: vector_mu_mv M1 M2 M3 M4 T1 T2 hy' hy''].
Qed.
Lemma general_moved eig eig' n f nx ny wl k0 plv (eps eps' mu mu' : tensor 'M[C]_(nx, ny)) (expn : n.-tuple (Z * Z)) form src src' l l' :
  eig_spec eig -> eig_spec eig' ->
  moved_tensor f eps eps' -> moved_tensor f mu mu' -> moved_source f src src' -> moves_along f plv expn form ->
  eigensolve_general_anisotropic_media eig wl k0 plv eps mu expn form src = Val l ->
  eigensolve_general_anisotropic_media eig' wl k0 plv eps' mu' expn form src' = Val l' ->
  related (dl f expn) l l' /\ expansion l = expn.
Proof.
move=> he he' hE hM hsrc hform; rewrite /eigensolve_general_anisotropic_media; case: eqP => [[ex ey]|_].
  subst nx ny; move: hE hM => [/moved11 e1 /moved11 e2 /moved11 e3 /moved11 e4 /moved11 e5] [/moved11 m1 /moved11 m2 /moved11 m3 /moved11 m4 /moved11 m5].
  have -> : tensor_map (@squeeze11 1 1) eps' = tensor_map (@squeeze11 1 1) eps by rewrite /tensor_map e1 e2 e3 e4 e5.
  have -> : tensor_map (@squeeze11 1 1) mu' = tensor_map (@squeeze11 1 1) mu by rewrite /tensor_map m1 m2 m3 m4 m5.
  rewrite /eigensolve_uniform_general_anisotropic_media => H H'; binv H r hr; binv H r' hr'; rewrite hr hr' /= in H'.
  by apply: (numerical_moved he he' _ _ _ _ _ _ H H'); try exact: cj_scalar; apply: cj_block; exact: cj_scalar.
rewrite /eigensolve_patterned_general_anisotropic_media => H H'.
binv H r hr; binv H' r' hr'.
have hs : moved f (match src with Some s => s | None => map_mx (fun z : C => z / RtoC 2%coqR) (t_xx eps + t_yy eps) end)
   (match src' with Some s => s | None => map_mx (fun z : C => z / RtoC 2%coqR) (t_xx eps' + t_yy eps') end).
  case: (src) (src') hsrc => [s|] [s'|] //= _; have [[sx [sy [hx hy h]]] _ _ h4 _] := hE.
  exists sx, sy; split=> // i j; rewrite !mxE h; congr ((_ + _) / _); exact: (moved_mv hx hy h4).
have := fourier_general_moved hE hM hs hform hr hr'.
case: r hr H => [[[[[[a b] c] d] e] g] t] _ H; case: r' hr' H' => [[[[[[a' b'] c'] d'] e'] g'] t'] _ H'.
by case=> [[c1 c2 c3] [c4 c5 c6]]; exact: numerical_moved H H'.
Qed.
Lemma moved_constant f nx ny (x x' : 'M[C]_(nx, ny)) c : moved f x x' -> moved f (const_mx c : 'M_(nx, ny)) (const_mx c).
Proof. by move=> [sx [sy [hx hy _]]]; exists sx, sy; split=> // i j; rewrite !mxE. Qed.
Lemma isotropic_moved eig eig' n f nx ny wl k0 plv (eps eps' : 'M[C]_(nx, ny)) (expn : n.-tuple (Z * Z)) form l l' :
  eig_spec eig -> eig_spec eig' -> moved f eps eps' -> moves_along f plv expn form ->
  eigensolve_isotropic_media eig wl k0 plv eps expn form = Val l ->
  eigensolve_isotropic_media eig' wl k0 plv eps' expn form = Val l' ->
  related (dl f expn) l l' /\ expansion l = expn.
Proof.
move=> he he' hm hform; rewrite /eigensolve_isotropic_media; case: eqP => [[ex ey]|_].
  subst nx ny; rewrite (moved11 hm) => H; rewrite H => -[<-].
  have [x [a1 [a2 [a3 a4]]] _ [a5 a6] [a7 a8 a9]] := uniform_exact H; split=> //.
  split; rewrite ?a5 ?a6 ?a7 ?a8 ?a9 ?mul1mx ?mulmx1 //; try exact: cj_scalar; try exact: uniform_root H.
  by exists (diag (const_mx (squeeze11 eps))), (diag (const_mx (squeeze11 eps))); split=> //; exact: diagC.
have [sx [sy [hx hy h]]] := hm.
rewrite /eigensolve_patterned_isotropic_media => H H'.
binv H r hr; binv H' r' hr'; case: r hr H => [[[a b] c] d] hr H; case: r' hr' H' => [[[a' b'] c'] d'] hr' H'.
suff [c1 c2 c3] : [/\ cj f expn b b', cj f expn a a' & cjD f expn c c'].
  by apply: (numerical_moved he he' c1 c2 c3 _ _ _ H H'); try exact: cj_scalar; apply: cj_block; exact: cj_scalar.
move: hr hr'; rewrite /fourier_matrices_patterned_isotropic_media => {}H {}H'.
binv H t ht; binv H i hi; binv H iz hiz; binv H z hz; binv H et het; case: H => <- <- <- _.
binv H' t' ht'; binv H' i' hi'; binv H' iz' hiz'; binv H' z' hz'; binv H' et' het'; case: H' => <- <- <- _.
have cz := conv_moved hx hy h hz hz'; have ci := conv_moved hx hy (mv_recip h hi hi') hiz hiz'.
suff : cjD f expn et et' by [].
case: form hform ht ht' => [|g] hform ht ht'.
  by case: ht => e1; case: ht' => e2; subst t t'; exact: fft_mv h het het'.
binv ht p hp; case: p hp ht => tx ty hp [e1]; binv ht' p' hp'; case: p' hp' ht' => tx' ty' hp' [e2]; subst t t'.
have [tm1 tm2] := hform _ _ _ _ hm hp hp'.
exact: vector_mv (moved_mv hx hy tm1) (moved_mv hx hy tm2) het het'.
Qed.
Lemma moved_related eig eig' n f (l l' : layer_solve_result n) : eig_spec eig -> eig_spec eig' ->
  moved_solve eig eig' f l l' -> related (dl f (expansion l)) l l'.
Proof.
move=> he he'; case=> {l l'}.
- move=> nx ny wl k0 plv eps eps' expn form l l' hm hf H H'.
  by have [r ->] := isotropic_moved he he' hm hf H H'.
- move=> nx ny wl k0 plv eps eps' expn form l l' hm hf H H'.
  suff [r ->] : related (dl f expn) l l' /\ expansion l = expn by [].
  have [h _ _ _ _] := hm.
  by apply: (general_moved he he' hm _ _ hf H H') => //; split; exact: moved_constant h.
- move=> nx ny wl k0 plv eps eps' mu mu' expn form src src' l l' hm hm' hs hf H H'.
  by have [r ->] := general_moved he he' hm hm' hs hf H H'.
Qed.

(** ** Fields *)
Section Moved.
Variables (n : nat) (f : R * R).
Implicit Types (l : layer_solve_result n) (ls : seq (layer_solve_result n)).
Lemma phase_shiftE m (expn : n.-tuple (Z * Z)) (F : 'M[C]_(n, m)) : phase_shift f expn F = diag (dl f expn) *m F.
Proof. by apply/matrixP=> i j; rewrite mul_diag_mx !mxE. Qed.

(** Multiplying the coefficients by the phases of the orders moves a field. *)
Theorem C58_phases_move m p l (F : fields6 'M[C]_(n, m)) (x y : 'I_p -> R) g xy g' xy' :
  let r := displacement (primitive_lattice_vectors l) f in
  fields_on_coordinates F l x y = Val (g, xy) ->
  fields_on_coordinates (fields6_map (phase_shift f (expansion l)) F) l
    (fun i => x i + r.1)%coqR (fun i => y i + r.2)%coqR = Val (g', xy') ->
  g' = fields6_map (times (cexp (Ci * RtoC (dot (in_plane_wavevector l) r)))) g.
Proof.
move=> r; case e : (reciprocal (primitive_lattice_vectors l)) => [rv|ex]; last first.
  by rewrite /fields_on_coordinates /transverse_wavevectors e.
rewrite !(coordinatesE _ _ _ e) => -[<- _] [<- _]; rewrite !f6_comp; apply: f6_ext => X.
apply: functional_extensionality => pt; apply: functional_extensionality => j; rewrite /times /plane_waves.
rewrite big_distrr; apply: eq_bigr => i _ /=; rewrite !mxE.
have [h1 h2] := bragg_vectorP (expansion l) i e.
rewrite [order_phase _ _ * _]mulrC [RHS]mulrCA -[LHS]mulrA; congr (_ * _).
rewrite /order_phase -!cexpD; congr cexp.
rewrite -mulrN -!mulrDr; congr (_ * _).
have -> : - RtoC (2 * PI * (IZR (tnth (expansion l) i).1 * f.1 + IZR (tnth (expansion l) i).2 * f.2))%coqR =
  RtoC (- (f.1 * (2 * PI * IZR (tnth (expansion l) i).1) + f.2 * (2 * PI * IZR (tnth (expansion l) i).2)))%coqR.
  by Creim; ring.
rewrite -h1 -h2 /r /displacement /dot /vadd /=; Creim; ring.
Qed.
Print Assumptions C58_phases_move.

Lemma moved_reported m (k k' : layer n) (x : layer_amplitudes n m) z : okp (dl f (expansion k.1)) k k' ->
  let x' := amp_map (dl f (expansion k.1)) k k' x in
  reported_fields k'.1 k'.2 x'.1 x'.2 z =
  rmap (fields6_map (phase_shift f (expansion k.1))) (reported_fields k.1 k.2 x.1 x.2 z).
Proof.
move=> [t r [g] [g'] v] x' /=; rewrite /x' /= t (map_reported r g g' v).
by case: reported_fields => //= F; congr Val; apply: f6_ext => X; rewrite phase_shiftE.
Qed.
Lemma amp_moved m (k k' : layer n) (x : layer_amplitudes n m) : okp (dl f (expansion k.1)) k k' ->
  moved_field f k x k' (amp_map (dl f (expansion k.1)) k k' x).
Proof.
move=> ok r p X Y z; rewrite /fields_at (moved_reported x z ok).
have [t rel [g] _ _] := ok.
case: reported_fields => //= F.
have hk F' X' Y' : @fields_on_coordinates n m p F' k'.1 X' Y' = fields_on_coordinates F' k.1 X' Y'.
  by rewrite /fields_on_coordinates (r_k rel).
rewrite hk.
have [rv hr] : exists rv, reciprocal (primitive_lattice_vectors k.1) = Val rv.
  by have := fl_k g; rewrite /transverse_wavevectors; case: reciprocal => // rv _; exists rv.
have H G X' Y' := @coordinatesE n m p G k.1 X' Y' rv hr.
by have := C58_phases_move (H F X Y) (H (fields6_map (phase_shift f (expansion k.1)) F) _ _) => E; rewrite !H /= E.
Qed.

(** Any field in a layer is, moved, a field in the moved layer. *)
Theorem C58_layer eig eig' m l l' (a b : 'M[C]_(n + n, m)) : eig_spec eig -> eig_spec eig' ->
  moved_solve eig eig' f l l' -> finite_fields [:: l; l'] -> independent_modes [:: l'] ->
  exists a' b', forall t,
    (forall z, reported_fields l' t a' b' z = rmap (fields6_map (phase_shift f (expansion l))) (reported_fields l t a b z)) /\
    moved_field f (l, t) (a, b) (l', t) (a', b').
Proof.
move=> he he' h hf hi.
have [M /fin_layerP [g]] := hf l (or_introl erefl).
have [M' /fin_layerP [g']] := hf l' (or_intror (or_introl erefl)).
have v : eigenvectors l' \in unitmx by apply: hi; left.
have ok t : okp (dl f (expansion l)) (l, t) (l', t) by split=> //; exact: moved_related he he' h.
exists (mode_map (dl f (expansion l)) l l' *m a), (mode_map (dl f (expansion l)) l l' *m b) => t; split=> [z|].
  exact: (@moved_reported m (l, t) (l', t) (a, b) z (ok t)).
exact: (@amp_moved m (l, t) (l', t) (a, b) (ok t)).
Qed.
Print Assumptions C58_layer.

(** ** Stacks *)
Variables (eig eig' : eig_fn).
Hypothesis (he : eig_spec eig) (he' : eig_spec eig').
Lemma moved_okp ls ls' (ts : seq R) expn : List.Forall2 (moved_solve eig eig' f) ls ls' -> size ls = size ts ->
  (forall l, List.In l ls -> expansion l = expn) ->
  finite_fields ls -> finite_fields ls' -> independent_modes ls' ->
  List.Forall2 (okp (dl f expn)) (zip ls ts) (zip ls' ts).
Proof.
move=> H; elim: H ts => [|l l' ks ks' h hs IH] [|t ts] //= [sz] hE hf hf' hi; constructor.
  have [M /fin_layerP fM] := hf l (or_introl erefl); have [M' /fin_layerP fM'] := hf' l' (or_introl erefl).
  split=> //=; [|by apply: hi; left]; rewrite -(hE l (or_introl erefl)); exact: moved_related h.
apply: IH => //; first by move=> k hk; apply: hE; right.
- by move=> k hk; apply: hf; right.
- by move=> k hk; apply: hf'; right.
- by move=> k hk; apply: hi; right.
Qed.
Lemma moved_wl wl ls ls' : List.Forall2 (moved_solve eig eig' f) ls ls' -> same_wavelength wl ls -> same_wavelength wl ls'.
Proof.
move=> H; elim: H => [|l l' ks ks' h hs IH] hw k //= [<-|hk].
  by rewrite (r_wl (moved_related he he' h)); apply: hw; left.
by apply: IH => // j hj; apply: hw; right.
Qed.
Lemma nth_zip_in (A B : Type) (d : A * B) (s : seq A) (t : seq B) i : size s = size t -> (i < size s)%N ->
  List.In (nth d (zip s t) i).1 s.
Proof.
elim: s t i => [|x s IH] [|y t] [|i] //= [e] h; [by left|right; exact: IH].
Qed.
Lemma forall2_nth (A B : Type) (P : A -> B -> Prop) s t : List.Forall2 P s t ->
  forall d d' i, (i < size s)%N -> P (nth d s i) (nth d' t i).
Proof. by elim=> [|x y s' t' h hs IH] d d' [|i] //= hi; exact: IH. Qed.

(** Any field in a stack is, moved, a field in the moved stack. *)
Theorem C58_stack m expn ls ls' (ts : seq R) (xs : seq (layer_amplitudes n m)) :
  List.Forall2 (moved_solve eig eig' f) ls ls' -> size ls = size ts ->
  (forall l, List.In l ls -> expansion l = expn) ->
  finite_fields ls -> finite_fields ls' -> independent_modes ls' ->
  stack_solution (zip ls ts) xs ->
  exists xs', stack_solution (zip ls' ts) xs' /\
    forall d x i, (i < size ls)%N ->
      moved_field f (nth d (zip ls ts) i) (nth x xs i) (nth d (zip ls' ts) i) (nth x xs' i).
Proof.
move=> H sz hE hf hf' hi S; have ok := moved_okp H sz hE hf hf' hi.
have [S' sz'] := map_solution ok S; exists (amps_map (dl f expn) (zip ls ts) (zip ls' ts) xs); split; first exact: S'.
move=> d x i hi'; have s1 := solution_size S; have s2 := forall2_sz ok.
have hz : (i < size (zip ls ts))%N by rewrite size_zip -sz minnn.
rewrite (@nth_amps_map n m (dl f expn) d x _ _ _ _ s2 s1 hz).
have e := hE _ (nth_zip_in d sz hi').
by move: (forall2_nth ok d d hz); rewrite -e; exact: amp_moved.
Qed.
Print Assumptions C58_stack.

(** ** Scattering matrices *)
Lemma uniform_vectors l : uniform_layer l -> eigenvectors l = 1%:M.
Proof.
move=> [g [wl [k0 [plv [eps [expn [form]]]]]]]; rewrite /eigensolve_isotropic_media eqxx /eigensolve_uniform_isotropic_media => H.
by binv H k hk; binv H w hw; binv H r hr; case: H => <-.
Qed.
Lemma uniform_map l l' expn : uniform_layer l -> uniform_layer l' ->
  mode_map (dl f expn) l l' = diag (row_mx (dl f expn) (dl f expn)).
Proof.
move=> /uniform_vectors u /uniform_vectors u'; rewrite /mode_map -lock u u' mulmx1.
by rewrite invmx1 mul1mx.
Qed.
Lemma component_dl (expn : n.-tuple (Z * Z)) i :
  row_mx (dl f expn) (dl f expn) 0 i = order_phase f (component_order expn i).
Proof. by rewrite mxE /component_order; case: (split i) => k; rewrite mxE. Qed.
Lemma order_phase_conj g : order_phase f g * Cconj (order_phase f g) = 1.
Proof.
rewrite /order_phase cexp_conj -cexpD.
have -> : forall t, - (Ci * RtoC t) + Cconj (- (Ci * RtoC t)) = 0 by move=> t; Creim; ring.
exact: cexp0.
Qed.
Lemma last_zip_rcons (l0 lN : layer_solve_result n) (t : R) ks ts : size (rcons ks lN) = size ts ->
  (last (l0, t) (zip (rcons ks lN) ts)).1 = lN.
Proof.
elim: ks l0 t ts => [|k ks IH] l0 t [|t1 us] //=; last by move=> [e]; exact: IH.
by case: us.
Qed.
(** Between uniform layers: every amplitude is multiplied by the phase of its order and divided
    by the phase of the order of the incident wave. *)
Theorem C58_scattering wl expn l0 l0' (ls ls' : seq (layer_solve_result n)) lN lN' (ts : seq R) s s' :
  List.Forall2 (moved_solve eig eig' f) (l0 :: rcons ls lN) (l0' :: rcons ls' lN') ->
  (forall l, List.In l (l0 :: rcons ls lN) -> expansion l = expn) ->
  [/\ uniform_layer l0, uniform_layer l0', uniform_layer lN & uniform_layer lN'] ->
  same_wavelength wl (l0 :: rcons ls lN) ->
  finite_fields (l0 :: rcons ls lN) -> finite_fields (l0' :: rcons ls' lN') ->
  independent_modes (l0' :: rcons ls' lN') ->
  stack_s_matrix (l0 :: rcons ls lN) ts = Val s -> stack_s_matrix (l0' :: rcons ls' lN') ts = Val s' ->
  forall i j, let c := order_phase f (component_order expn i) * Cconj (order_phase f (component_order expn j)) in
  [/\ s11 s' i j = c * s11 s i j, s12 s' i j = c * s12 s i j, s21 s' i j = c * s21 s i j & s22 s' i j = c * s22 s i j].
Proof.
move=> H hE [u0 u0' uN uN'] hw hf hf' hi hs hs' i j c.
have [sz ends _ _] := C01_stack_s_matrix_is_field_continuity hs hw hf.
have [sz' ends' _ _] := C01_stack_s_matrix_is_field_continuity hs' (moved_wl H hw) hf'.
have ok := moved_okp H sz hE hf hf' hi.
case: ts sz sz' ends ends' ok {hs hs'} => [|t ts] //= [sz] [sz'] ends ends' ok.
pose D : 'M[C]_(n + n) := diag (row_mx (dl f expn) (dl f expn)).
have [] := @scatters_uniq n s s' D D.
  move=> m a0 b0 aN bN /ends /(map_ends ok) /=.
  by rewrite (last_zip_rcons _ _ sz) (last_zip_rcons _ _ sz') (uniform_map _ u0 u0') (uniform_map _ uN uN') => /ends'.
have key (A A' : 'M[C]_(n + n)) : D *m A = A' *m D -> A' i j = c * A i j.
  move/matrixP/(_ i j).
  have -> : (D *m A) i j = order_phase f (component_order expn i) * A i j.
    by rewrite /D mul_diag_mx [LHS]mxE component_dl.
  have -> : (A' *m D) i j = A' i j * order_phase f (component_order expn j).
    by rewrite /D mul_mx_diag [LHS]mxE component_dl.
  by move=> e; rewrite /c mulrAC e -mulrA order_phase_conj mulr1.
by move=> /key -> /key -> /key -> /key ->.
Qed.
Print Assumptions C58_scattering.
Lemma order_phase_abs2 g : abs2 (order_phase f g) = 1%coqR.
Proof. by have := congr1 re (order_phase_conj g); rewrite /abs2 !reimE /Cconj /= => h; lra. Qed.
Lemma order_phase_abs2c g : abs2 (Cconj (order_phase f g)) = 1%coqR.
Proof. by rewrite -(order_phase_abs2 g) /abs2 /Cconj !reimE; ring. Qed.
(** The magnitudes, and so the powers, do not change. *)
Theorem C58_magnitudes wl expn l0 l0' (ls ls' : seq (layer_solve_result n)) lN lN' (ts : seq R) s s' :
  List.Forall2 (moved_solve eig eig' f) (l0 :: rcons ls lN) (l0' :: rcons ls' lN') ->
  (forall l, List.In l (l0 :: rcons ls lN) -> expansion l = expn) ->
  [/\ uniform_layer l0, uniform_layer l0', uniform_layer lN & uniform_layer lN'] ->
  same_wavelength wl (l0 :: rcons ls lN) ->
  finite_fields (l0 :: rcons ls lN) -> finite_fields (l0' :: rcons ls' lN') ->
  independent_modes (l0' :: rcons ls' lN') ->
  stack_s_matrix (l0 :: rcons ls lN) ts = Val s -> stack_s_matrix (l0' :: rcons ls' lN') ts = Val s' ->
  forall i j, [/\ Cmod (s11 s' i j) = Cmod (s11 s i j), Cmod (s12 s' i j) = Cmod (s12 s i j),
                  Cmod (s21 s' i j) = Cmod (s21 s i j) & Cmod (s22 s' i j) = Cmod (s22 s i j)].
Proof.
move=> H hE u hw hf hf' hi hs hs' i j.
have [-> -> -> ->] := C58_scattering H hE u hw hf hf' hi hs hs' i j.
by split; rewrite !CmodE !abs2M !order_phase_abs2 order_phase_abs2c !Rmult_1_l.
Qed.
Print Assumptions C58_magnitudes.

(** The amplitudes the library computes inside the stack, for the moved incident waves, are the
    moved fields. *)
Theorem C58_interior m wl expn l0 l0' (ls ls' : seq (layer_solve_result n)) lN lN' (ts : seq R) ss ss'
    (a_0 b_N : 'M[C]_(n + n, m)) xs xs' :
  List.Forall2 (moved_solve eig eig' f) (l0 :: rcons ls lN) (l0' :: rcons ls' lN') ->
  (forall l, List.In l (l0 :: rcons ls lN) -> expansion l = expn) ->
  [/\ uniform_layer l0, uniform_layer l0', uniform_layer lN & uniform_layer lN'] ->
  same_wavelength wl (l0 :: rcons ls lN) ->
  finite_fields (l0 :: rcons ls lN) -> finite_fields (l0' :: rcons ls' lN') ->
  independent_modes (l0' :: rcons ls' lN') ->
  stack_s_matrices_interior (l0 :: rcons ls lN) ts = Val ss ->
  stack_amplitudes_interior ss a_0 b_N = Val xs ->
  stack_s_matrices_interior (l0' :: rcons ls' lN') ts = Val ss' ->
  stack_amplitudes_interior ss' (phase_shift_amplitudes f expn a_0) (phase_shift_amplitudes f expn b_N) = Val xs' ->
  forall d x i, (i < size (l0 :: rcons ls lN))%N ->
    moved_field f (nth d (zip (l0 :: rcons ls lN) ts) i) (nth x xs i)
                  (nth d (zip (l0' :: rcons ls' lN') ts) i) (nth x xs' i).
Proof.
move=> H hE [u0 u0' uN uN'] hw hf hf' hi h1 h2 h1' h2' d x i hi'.
have sE (a : 'M[C]_(n + n, m)) : phase_shift_amplitudes f expn a = diag (row_mx (dl f expn) (dl f expn)) *m a.
  by apply/matrixP=> p q; rewrite mul_diag_mx [LHS]mxE [RHS]mxE component_dl.
rewrite !sE in h2'.
have [S [y0 [ys [ey ea eb]]]] := proj1 (C08_interior_amplitudes h1 h2 hw hf xs) erefl.
have [S' _] := proj1 (C08_interior_amplitudes h1' h2' (moved_wl H hw) hf' xs') erefl.
have sz : size (l0 :: rcons ls lN) = size ts.
  by move: h1; rewrite /stack_s_matrices_interior /stack_s_matrices; case: eqP.
have sz' : size (l0' :: rcons ls' lN') = size ts by rewrite -sz (forall2_sz H).
have ok := moved_okp H sz hE hf hf' hi.
have [M sM] := map_solution ok S.
have s1 := solution_size S; have s2 := forall2_sz ok.
have e : amps_map (dl f expn) (zip (l0 :: rcons ls lN) ts) (zip (l0' :: rcons ls' lN') ts) xs = xs'.
  apply/(C08_interior_amplitudes h1' h2' (moved_wl H hw) hf'); split; first exact: M.
  rewrite {}ey in s1 *; clear -ok u0 u0' uN uN' sz sz' s1 s2 ea eb.
  case: ts sz sz' s1 s2 ok => [|t ts] sz sz' s1 s2 ok; first by [].
  have {}sz : size (rcons ls lN) = size ts by case: sz.
  have {}sz' : size (rcons ls' lN') = size ts by case: sz'.
  have {}s1 : size ys = size (zip (rcons ls lN) ts) by case: s1.
  have {}s2 : size (zip (rcons ls lN) ts) = size (zip (rcons ls' lN') ts) by case: s2.
  exists (amp_map (dl f expn) (l0, t) (l0', t) y0), (amps_map (dl f expn) (zip (rcons ls lN) ts) (zip (rcons ls' lN') ts) ys).
  split; first by [].
    by rewrite /= (uniform_map _ u0 u0') ea.
  rewrite (@last_amps_map n m _ _ _ _ _ _ _ s2 s1) /amp_map (last_zip_rcons _ _ sz) (last_zip_rcons _ _ sz') (uniform_map _ uN uN') /=.
  by rewrite eb.
have hz : (i < size (zip (l0 :: rcons ls lN) ts))%N by rewrite size_zip -sz minnn.
rewrite -e (@nth_amps_map n m (dl f expn) d x _ _ _ _ s2 s1 hz).
have e' := hE _ (nth_zip_in d sz hi').
by move: (forall2_nth ok d d hz); rewrite -e'; exact: amp_moved.
Qed.
Print Assumptions C58_interior.
End Moved.

(** ** Non-vacuity: air, a grating of two stripes, air, and the same with the stripes exchanged *)
Definition stripes (a b : R) : 'M[C]_(2, 1) := \matrix_(i, j) (if i == 0 then RtoC a else RtoC b).
Definition ex_patterned (X : 'M[C]_1) : layer_solve_result 1 :=
  {| wavelength := ex_wl; in_plane_wavevector := (0, 0)%coqR; primitive_lattice_vectors := sq_lattice; expansion := ex_expn;
     eigenvalues := const_mx (RtoC 2%coqR); eigenvectors := 1%:M;
     z_permittivity_matrix := diag (const_mx (RtoC (2 * 2)%coqR));
     inverse_z_permittivity_matrix := X;
     z_permeability_matrix := diag (const_mx 1); inverse_z_permeability_matrix := diag (const_mx 1);
     transverse_permeability_matrix := diag (const_mx 1); tangent_vector_field := None |}.
Lemma stripes_solve a b : (0 < a)%coqR -> (0 < b)%coqR -> ((a + b) / 2 = 4)%coqR ->
  exists X, eigensolve_isotropic_media diag_eig ex_wl (0, 0)%coqR sq_lattice (stripes a b) ex_expn FFT = Val (ex_patterned X).
Proof.
move=> ha hb hab; exists (convm ex_expn (map_mx (fun z : C => z^-1) (stripes a b))).
have nz i j : stripes a b i j != 0 by rewrite mxE; case: ifP => _; apply: RtoC_neq0; lra.
have m4 : (stripes a b 0 0 + stripes a b 1 0) / RtoC 2%coqR = RtoC (2 * 2)%coqR.
  rewrite !mxE /= -rmorphD -fmorphV -rmorphM /=; congr RtoC.
  by rewrite RinvE RaddE RmulE ?R0E; lra.
have c0 : RtoC (2 * 2)%coqR != 0 by apply: RtoC_neq0; lra.
rewrite /eigensolve_isotropic_media /eigensolve_patterned_isotropic_media fft_matrices //; last exact: ex_resolves.
rewrite /bind !diag1 !diag0 (ex_mean (stripes a b)) !blockS m4.
rewrite /numerical_eigensolve ex_k /= /k_matrix_patterned /omega_script_k_matrix_patterned.
rewrite /script_k_matrix_patterned /= k0_diag !P_fmm.solve_scalar ?oner_eq0 //= ex_w /=.
rewrite !rowscale_0 ?scaler0 // block_mx0 mul0mx !subr0 mul_scalar_mx scalerA scalemx1.
rewrite /diag_eig; case: eqP => [_|[]]; last by apply/matrixP=> i j; rewrite !mxE eqxx.
rewrite /= /ex_patterned; congr Val; congr LSR; rewrite ?diag_scalar //.
apply/rowP=> i; rewrite !mxE eqxx mulr1n.
have -> : RtoC (2 * 2)%coqR * RtoC (1 * 1)%coqR = RtoC (2 * 2)%coqR by Creim; ring.
by rewrite csqrt_pos ?/select_eigenvalue_sign ?imRC; [case: Rlt_dec => // h; lra|lra].
Qed.
Lemma ex_moved a b : moved (1 / 2, 0)%coqR (stripes a b) (stripes b a).
Proof.
exists 1%N, 0%N; split; [by right => /=; lra|by left|].
move=> i j; rewrite !mxE; case: i => [[|[|//]] hi] //=.
Qed.
Lemma uniform_moved : moved (1 / 2, 0)%coqR (const_mx 1 : 'M[C]_(1, 1)) (const_mx 1).
Proof. by exists 0%N, 0%N; split; [left|left|move=> i j; rewrite !mxE]. Qed.
Lemma ex_air : eigensolve_isotropic_media diag_eig ex_wl (0, 0)%coqR sq_lattice (const_mx 1 : 'M[C]_(1, 1)) ex_expn FFT = Val (ex_layer 1).
Proof.
have r1 : (0 < 1)%coqR by lra.
rewrite /eigensolve_isotropic_media eqxx -(ex_solve r1) /squeeze11 (mxgetE _ (isT : (0 < 1)%N) (isT : (0 < 1)%N)) mxE.
by rewrite (_ : (1 : C) = RtoC (1 * 1)%coqR) //; Creim; ring.
Qed.
Lemma ex_patterned_stack X : stack_s_matrix [:: ex_layer 1; ex_patterned X; ex_layer 1] ex_thickness = Val ex_smat.
Proof.
have -> : stack_s_matrix [:: ex_layer 1; ex_patterned X; ex_layer 1] ex_thickness = stack_s_matrix ex_stack ex_thickness; last exact: ex_stackE.
rewrite /stack_s_matrix /stack_s_matrices /= !pair_extend /append_layer.
have -> b : extend_s_matrix b (ex_layer 1) PI (ex_patterned X) (PI / 4) = extend_s_matrix b (ex_layer 1) PI (ex_layer 2) (PI / 4) by [].
case: extend_s_matrix => [[[[a b] c] d]|] //=.
have -> e : extend_s_matrix e (ex_patterned X) (PI / 4) (ex_layer 1) PI = extend_s_matrix e (ex_layer 2) (PI / 4) (ex_layer 1) PI by [].
by case: extend_s_matrix => [[[[? ?] ?] ?]|].
Qed.
Lemma ex_patterned_finite X : finite_fields [:: ex_layer 1; ex_patterned X; ex_layer 1].
Proof.
have r1 : (0 < 1)%coqR by lra. have r2 : (0 < 2)%coqR by lra.
move=> k [<-|[<-|[<-|[]]]]; [exact: ex_finite| |exact: ex_finite].
exact: (ex_finite r2).
Qed.
Example C58_witness : exists X X' s, let f := (1 / 2, 0)%coqR in
  let ls := [:: ex_layer 1; ex_patterned X; ex_layer 1] in let ls' := [:: ex_layer 1; ex_patterned X'; ex_layer 1] in
  [/\ eig_spec diag_eig /\ List.Forall2 (moved_solve diag_eig diag_eig f) ls ls',
      moved_solve diag_eig diag_eig f (ex_patterned X) (ex_patterned X') /\ stripes 3 5 <> stripes 5 3,
      uniform_layer (ex_layer 1) /\ same_wavelength ex_wl ls,
      [/\ finite_fields ls, finite_fields ls', independent_modes ls' & forall l, List.In l ls -> expansion l = ex_expn] &
      stack_s_matrix ls ex_thickness = Val s /\ stack_s_matrix ls' ex_thickness = Val s].
Proof.
have [X hX] := @stripes_solve 3 5 ltac:(lra) ltac:(lra) ltac:(lra).
have [X' hX'] := @stripes_solve 5 3 ltac:(lra) ltac:(lra) ltac:(lra).
exists X, X', ex_smat => f ls ls'.
have m1 : moved_solve diag_eig diag_eig f (ex_layer 1) (ex_layer 1).
  exact: (moved_isotropic uniform_moved _ ex_air ex_air).
have m2 : moved_solve diag_eig diag_eig f (ex_patterned X) (ex_patterned X').
  exact: (moved_isotropic (ex_moved 3 5) _ hX hX').
split.
- split; first exact: diag_eig_spec.
  by constructor; [|constructor; [|constructor; [|constructor]]].
- split=> // /matrixP/(_ 0 0); rewrite !mxE /= => -[]; lra.
- split; first by exists diag_eig, ex_wl, (0, 0)%coqR, sq_lattice, (const_mx 1), ex_expn, FFT; exact: ex_air.
  by move=> k [<-|[<-|[<-|[]]]].
- split; [exact: ex_patterned_finite|exact: ex_patterned_finite| |by move=> k [<-|[<-|[<-|[]]]]].
  by move=> k [<-|[<-|[<-|[]]]]; exact: unitmx1.
- by split; exact: ex_patterned_stack.
Qed.
(** The phases are not all 1, and a callable that works point by point moves with the pattern. *)
Example C58_phase_witness : order_phase (1 / 2, 0)%coqR (1, 0)%coqZ = - 1.
Proof.
rewrite /order_phase -mulrN /= (_ : - RtoC _ = RtoC (- PI)%coqR); last by Creim; field.
by rewrite cexp_i cos_neg sin_neg cos_PI sin_PI; Creim; ring.
Qed.
Example C58_callable_witness nx ny n f plv (expn : n.-tuple (Z * Z)) (g h : C -> C) :
  moves_along f plv expn (Vector (fun (p : 'M[C]_(nx, ny)) _ _ => Val (map_mx g p, map_mx h p))).
Proof.
move=> p p' t t' [sx [sy [hx hy m]]] [<-] [<-]; split; exists sx, sy; split=> // i j; by rewrite !mxE m.
Qed.

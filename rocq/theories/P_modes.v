(** C57: results do not depend on the choice of modes. *)
From Coq Require Import Reals ZArith Lra.
From mathcomp Require Import all_ssreflect all_algebra.
From Verif Require Import CField Err LinAlg Tac M_utils M_basis M_fft M_fmm_matrices M_fmm M_scattering M_fields S_stack S_maxwell S_scale S_modes.
From Verif Require Import L_scattering L_stack L_maxwell L_scale L_fft L_modes S_fft P_scattering P_maxwell P_fmm P_scale L_example.
Set Implicit Arguments. Unset Strict Implicit. Unset Printing Implicit Defensive.
Import GRing.Theory.
Local Open Scope ring_scope.

Section Same.
Variable n : nat.
Implicit Types (l : layer_solve_result n) (ls : seq (layer_solve_result n)).
Let one : 'rV[C]_n := const_mx 1.
Lemma d1 : diag one = 1%:M. Proof. exact: diag1. Qed.
Lemma D1 : diag (row_mx one one) = 1%:M.
Proof. by rewrite DE d1 -scalar_mx_block. Qed.
Lemma same_related l l' : same_medium l l' -> related one l l'.
Proof.
case=> h1 h2 h3 h4 h5 h6 h7 h8 h9 [e [ex ex']] q q'.
by split; rewrite ?d1 ?D1 ?mul1mx ?mulmx1 ?h1 ?h2 ?h3 ?h4 //; exists e, e; rewrite mul1mx mulmx1.
Qed.
Lemma fields6_map1 m (x : fields6 'M[C]_(n, m)) : fields6_map (mulmx (diag one)) x = x.
Proof. by rewrite d1; case: x => *; rewrite /fields6_map /= !mul1mx. Qed.
Lemma rmap1 m (x : res (fields6 'M[C]_(n, m))) : rmap (fields6_map (mulmx (diag one))) x = x.
Proof. by case: x => //= x; rewrite fields6_map1. Qed.
Lemma map_self l : eigenvectors l \in unitmx -> mode_map one l l = 1%:M.
Proof. by move=> u; rewrite /mode_map -lock D1 mulmx1 mulVmx. Qed.

Lemma same_okp ls ls' (ts : seq R) : List.Forall2 (@same_medium n) ls ls' -> size ls = size ts ->
  finite_fields ls -> finite_fields ls' -> independent_modes ls' ->
  List.Forall2 (okp one) (zip ls ts) (zip ls' ts).
Proof.
move=> H; elim: H ts => [|l l' ks ks' h hs IH] [|t ts] //= [sz] hf hf' hi; constructor.
  have [M /fin_layerP fM] := hf l (or_introl erefl); have [M' /fin_layerP fM'] := hf' l' (or_introl erefl).
  by split=> //=; [exact: same_related|apply: hi; left].
apply: IH => //; first by move=> k hk; apply: hf; right.
  by move=> k hk; apply: hf'; right.
by move=> k hk; apply: hi; right.
Qed.
Lemma same_wl wl ls ls' : List.Forall2 (@same_medium n) ls ls' -> same_wavelength wl ls -> same_wavelength wl ls'.
Proof.
move=> H; elim: H => [|l l' ks ks' h hs IH] hw k //= [<-|hk].
  by rewrite (sm_wavelength h); apply: hw; left.
by apply: IH => // j hj; apply: hw; right.
Qed.
Lemma amp_same m (k k' : layer n) x : okp one k k' -> same_field k x k' (@amp_map n m one k k' x).
Proof.
by move=> [t r [f] [f'] v] z; rewrite /= t (map_reported r f f' v) rmap1.
Qed.

(** Any field in one layer is a field in the other. *)
Theorem C57_layer m l l' (a b : 'M[C]_(n + n, m)) :
  same_medium l l' -> finite_fields [:: l; l'] -> independent_modes [:: l'] ->
  exists a' b', forall t, same_field (l, t) (a, b) (l', t) (a', b').
Proof.
move=> h hf hi.
have [M /fin_layerP [f]] := hf l (or_introl erefl).
have [M' /fin_layerP [f']] := hf l' (or_intror (or_introl erefl)).
have v : eigenvectors l' \in unitmx by apply: hi; left.
exists (mode_map one l l' *m a), (mode_map one l l' *m b) => t.
by apply: (@amp_same m (l, t) (l', t) (a, b)); split=> //; apply: same_related.
Qed.
Print Assumptions C57_layer.

(** Any field in a stack is a field in the stack solved with other modes. *)
Theorem C57_stack m ls ls' (ts : seq R) (xs : seq (layer_amplitudes n m)) :
  List.Forall2 (@same_medium n) ls ls' -> size ls = size ts ->
  finite_fields ls -> finite_fields ls' -> independent_modes ls' ->
  stack_solution (zip ls ts) xs ->
  exists xs', stack_solution (zip ls' ts) xs' /\
    forall d x i, (i < size ls)%N ->
      same_field (nth d (zip ls ts) i) (nth x xs i) (nth d (zip ls' ts) i) (nth x xs' i).
Proof.
move=> H sz hf hf' hi S; have ok := same_okp H sz hf hf' hi.
have [S' sz'] := map_solution ok S; exists (amps_map one (zip ls ts) (zip ls' ts) xs); split; first exact: S'.
move=> d x i hi'.
have s1 := solution_size S; have s2 := forall2_sz ok.
have hz : (i < size (zip ls ts))%N by rewrite size_zip -sz minnn.
rewrite (@nth_amps_map n m one d x _ _ _ _ s2 s1 hz); apply: amp_same.
by clear -ok hz; elim: ok i hz => [|k k' ks ks' h hs IH] [|i] //= hi; exact: IH.
Qed.
Print Assumptions C57_stack.

(** The scattering matrix between layers with the same modes. *)
Theorem C57_scattering wl l0 (ls ls' : seq (layer_solve_result n)) lN (ts : seq R) s s' :
  List.Forall2 (@same_medium n) (l0 :: rcons ls lN) (l0 :: rcons ls' lN) ->
  same_wavelength wl (l0 :: rcons ls lN) ->
  finite_fields (l0 :: rcons ls lN) -> finite_fields (l0 :: rcons ls' lN) ->
  independent_modes (l0 :: rcons ls' lN) ->
  stack_s_matrix (l0 :: rcons ls lN) ts = Val s -> stack_s_matrix (l0 :: rcons ls' lN) ts = Val s' ->
  [/\ s11 s' = s11 s, s12 s' = s12 s, s21 s' = s21 s & s22 s' = s22 s].
Proof.
move=> H hw hf hf' hi hs hs'.
have [sz ends _ _] := C01_stack_s_matrix_is_field_continuity hs hw hf.
have [sz' ends' _ _] := C01_stack_s_matrix_is_field_continuity hs' (same_wl H hw) hf'.
have ok := same_okp H sz hf hf' hi.
case: ts sz sz' ends ends' ok {hs hs'} => [|t ts] //= [sz] [sz'] ends ends' ok.
have v0 : eigenvectors l0 \in unitmx by apply: hi; left.
have vN : eigenvectors lN \in unitmx.
  by apply: hi; right; elim: (ls') => [|k ks IH] /=; [left|right].
have eN (ks : seq (layer_solve_result n)) : size (rcons ks lN) = size ts -> (last (l0, t) (zip (rcons ks lN) ts)).1 = lN.
  elim: ks (l0) (t) ts {sz sz' ends ends' ok} => [|k ks IH] l0' t0 [|t1 us] //=; last by move=> [e]; exact: IH.
  by case: us.
have [] := @scatters_uniq n s s' 1%:M 1%:M; last by rewrite !mul1mx !mulmx1 => -> -> -> ->.
move=> m a0 b0 aN bN /ends /(map_ends ok) /=.
by rewrite (eN _ sz) (eN _ sz') (map_self v0) (map_self vN) !mul1mx => /ends'.
Qed.
Print Assumptions C57_scattering.

(** Whether the scattering matrix is finite does not depend on the modes. *)
Lemma same_sym l l' : same_medium l l' -> same_medium l' l.
Proof. by case=> h1 h2 h3 h4 h5 h6 h7 h8 h9 [e [ex ex']] q q'; split=> //; exists e. Qed.
Lemma same_syms ls ls' : List.Forall2 (@same_medium n) ls ls' -> List.Forall2 (@same_medium n) ls' ls.
Proof. by elim=> [|l l' ks ks' h _ IH]; constructor=> //; exact: same_sym. Qed.
Lemma same_take ls ls' k : List.Forall2 (@same_medium n) ls ls' -> List.Forall2 (@same_medium n) (take k ls) (take k ls').
Proof. by move=> H; elim: H k => [|l l' ks ks' h _ IH] [|k] /=; constructor. Qed.
Lemma in_take (A : Type) (s : seq A) k x : List.In x (take k s) -> List.In x s.
Proof. by elim: s k => [|y s IH] [|k] //= [<-|/IH]; [left|right]. Qed.
Theorem C57_finite wl ls ls' (ts : seq R) s :
  List.Forall2 (@same_medium n) ls ls' -> same_wavelength wl ls ->
  finite_fields ls -> finite_fields ls' -> independent_modes ls -> independent_modes ls' ->
  stack_s_matrix ls ts = Val s -> exists s', stack_s_matrix ls' ts = Val s'.
Proof.
move=> H hw hf hf' hi hi' hs.
have [sz _ _ _] := C01_stack_s_matrix_is_field_continuity hs hw hf.
have szl := forall2_sz H.
have sz' : size ls' = size ts by rewrite -szl.
apply: (@C01_stack_s_matrix_finite n wl ls' ts sz').
- by move=> e; move: hs; case: (ls) szl => [|? ?]; rewrite e // /stack_s_matrix /stack_s_matrices; case: (ts).
- exact: same_wl H hw.
- exact: hf'.
- move=> l hl M hM.
  have hex : exists e, exact_modes l e.
    clear -H hl; elim: H hl => [|k k' ks ks' h _ IH] //= [<-|/IH //].
    by have [e [_ x]] := sm_modes h; exists e.
  have [e x] := hex; exact: (exact_complete x (hi' l hl) (or_introl erefl) hM).
- move=> k /andP[k1 k2] aN b0; rewrite take_zip => E.
  case: k k1 k2 E => [|k] // k1 k2 E.
  have hk : (k < size ls)%N by rewrite szl.
  have [ss hss] : exists ss, stack_s_matrices ls ts = Val ss.
    by move: hs; rewrite /stack_s_matrix; case: (stack_s_matrices ls ts) => [ss|] //= _; exists ss.
  have hp := stack_prefix s hss hk.
  have [szp ends _ _] := C01_stack_s_matrix_is_field_continuity hp
    (fun l hl => hw l (in_take hl)) (fun l hl => hf l (in_take hl)).
  have ok := same_okp (same_take k.+1 (same_syms H)) (ts := take k.+1 ts).
  have {}ok := ok _ (fun l hl => hf' l (in_take hl)) (fun l hl => hf l (in_take hl)) (fun l hl => hi l (in_take hl)).
  have {}ok : List.Forall2 (okp one) (zip (take k.+1 ls') (take k.+1 ts)) (zip (take k.+1 ls) (take k.+1 ts)).
    by apply: ok; rewrite !size_take sz'.
  clear hp hss.
  case e1: (zip (take k.+1 ls') (take k.+1 ts)) ok E => [|q qs] ok E; first by case: E => [? [? []]].
  case e2: (zip (take k.+1 ls) (take k.+1 ts)) ok ends => [|p ps] ok ends; first by inversion ok.
  have := map_ends ok E; cbv zeta; rewrite !mulmx0 => /ends [h _].
  rewrite !mulmx0 addr0 in h.
  have u : mode_map one (last q qs).1 (last p ps).1 \in unitmx.
    have hl : List.In (last q qs).1 ls'.
      apply: (@in_take _ _ k.+1); have : List.In (last q qs) (zip (take k.+1 ls') (take k.+1 ts)).
        by rewrite e1; clear; elim: qs q => [|x s IH] q; [left|right; exact: IH].
      by clear; elim: (take k.+1 ls') (take k.+1 ts) => [|x s IH] [|y t] //= [<-|/IH]; [left|right].
    have hl2 : List.In (last p ps).1 ls.
      apply: (@in_take _ _ k.+1); have : List.In (last p ps) (zip (take k.+1 ls) (take k.+1 ts)).
        by rewrite e2; clear; elim: ps p => [|x s IH] q; [left|right; exact: IH].
      by clear; elim: (take k.+1 ls) (take k.+1 ts) => [|x s IH] [|y t] //= [<-|/IH]; [left|right].
    by rewrite /mode_map -lock D1 mulmx1 unitmx_mul unitmx_inv (hi _ hl2) (hi' _ hl).
  by apply: (can_inj (mulKmx u)); rewrite h mulmx0.
Qed.
Print Assumptions C57_finite.

(** The amplitudes the library computes inside the stack describe the same fields. *)
Theorem C57_interior m wl l0 (ls ls' : seq (layer_solve_result n)) lN (ts : seq R) ss ss'
    (a_0 b_N : 'M[C]_(n + n, m)) xs xs' :
  List.Forall2 (@same_medium n) (l0 :: rcons ls lN) (l0 :: rcons ls' lN) ->
  same_wavelength wl (l0 :: rcons ls lN) ->
  finite_fields (l0 :: rcons ls lN) -> finite_fields (l0 :: rcons ls' lN) ->
  independent_modes (l0 :: rcons ls' lN) ->
  stack_s_matrices_interior (l0 :: rcons ls lN) ts = Val ss ->
  stack_amplitudes_interior ss a_0 b_N = Val xs ->
  stack_s_matrices_interior (l0 :: rcons ls' lN) ts = Val ss' ->
  stack_amplitudes_interior ss' a_0 b_N = Val xs' ->
  forall d x i, (i < size (l0 :: rcons ls lN))%N ->
    same_field (nth d (zip (l0 :: rcons ls lN) ts) i) (nth x xs i)
               (nth d (zip (l0 :: rcons ls' lN) ts) i) (nth x xs' i).
Proof.
move=> H hw hf hf' hi h1 h2 h1' h2' d x i hi'.
have [S [y0 [ys [ey ea eb]]]] := proj1 (C08_interior_amplitudes h1 h2 hw hf xs) erefl.
have [S' _] := proj1 (C08_interior_amplitudes h1' h2' (same_wl H hw) hf' xs') erefl.
have v0 : eigenvectors l0 \in unitmx by apply: hi; left.
have vN : eigenvectors lN \in unitmx.
  by apply: hi; right; elim: (ls') => [|k ks IH] /=; [left|right].
have sz : size (l0 :: rcons ls lN) = size ts.
  by move: h1; rewrite /stack_s_matrices_interior /stack_s_matrices; case: eqP.
have sz' : size (l0 :: rcons ls' lN) = size ts by rewrite -sz (forall2_sz H).
have ok := same_okp H sz hf hf' hi.
have [M sM] := map_solution ok S.
have s1 := solution_size S; have s2 := forall2_sz ok.
have e : amps_map (const_mx 1) (zip (l0 :: rcons ls lN) ts) (zip (l0 :: rcons ls' lN) ts) xs = xs'.
  apply/(C08_interior_amplitudes h1' h2' (same_wl H hw) hf'); split; first exact: M.
  rewrite {}ey in s1 *; clear -ok v0 vN sz sz' s1 s2 ea eb.
  case: ts sz sz' s1 s2 ok => [|t ts] sz sz' s1 s2 ok; first by [].
  have {}sz : size (rcons ls lN) = size ts by case: sz.
  have {}sz' : size (rcons ls' lN) = size ts by case: sz'.
  have {}s1 : size ys = size (zip (rcons ls lN) ts) by case: s1.
  have {}s2 : size (zip (rcons ls lN) ts) = size (zip (rcons ls' lN) ts) by case: s2.
  have eN (ks : seq (layer_solve_result n)) : size (rcons ks lN) = size ts -> (last (l0, t) (zip (rcons ks lN) ts)).1 = lN.
    clear; elim: ks (l0) (t) ts => [|k ks IH] l0' t0 [|t1 us] //=; last by move=> [e]; exact: IH.
    by case: us.
  exists (amp_map (const_mx 1) (l0, t) (l0, t) y0), (amps_map (const_mx 1) (zip (rcons ls lN) ts) (zip (rcons ls' lN) ts) ys).
  split; first by [].
    by rewrite /= (map_self v0) mul1mx.
  rewrite (@last_amps_map n m _ _ _ _ _ _ _ s2 s1) /amp_map (eN _ sz) (eN _ sz') (map_self vN) /= mul1mx; exact: eb.
have hz : (i < size (zip (l0 :: rcons ls lN) ts))%N by rewrite size_zip -sz minnn.
rewrite -e (@nth_amps_map n m (const_mx 1) d x _ _ _ _ s2 s1 hz); apply: amp_same.
by clear -ok hz; elim: ok i hz => [|k k' ks ks' h hs IH] [|i] //= hi; exact: IH.
Qed.
Print Assumptions C57_interior.
End Same.

(** ** Solves that give one medium *)
Lemma numerical_root eig n wl k0 plv (ez iez : 'M[C]_n) et mz imz mt expn tvf l :
  numerical_eigensolve eig wl k0 plv ez iez et mz imz mt expn tvf = Val l ->
  forall i, forward_root (eigenvalues l 0 i).
Proof. by move=> H i; have [q2 ->] := numerical_q H; exact: forward_select. Qed.
Lemma uniform_root n wl k0 plv eps (expn : n.-tuple (Z * Z)) l :
  eigensolve_uniform_isotropic_media wl k0 plv eps expn = Val l ->
  forall i, forward_root (eigenvalues l 0 i).
Proof. by move=> H i; have [q2 ->] := uniform_q H; exact: forward_select. Qed.
Lemma numerical_same eig eig' n wl k0 plv (ez iez : 'M[C]_n) et mz imz mt expn tvf l l' :
  eig_spec eig -> eig_spec eig' ->
  numerical_eigensolve eig wl k0 plv ez iez et mz imz mt expn tvf = Val l ->
  numerical_eigensolve eig' wl k0 plv ez iez et mz imz mt expn tvf = Val l' -> same_medium l l'.
Proof.
move=> he he' H H'; have [x [a1 [a2 [a3 a4]]] [a5 a6] [a7 a8] [a9 _]] := numerical_exact he H.
have [x' [b1 [b2 [b3 b4]]] [b5 b6] [b7 b8] [b9 _]] := numerical_exact he' H'.
split; rewrite ?a1 ?a2 ?a3 ?a4 ?a5 ?a6 ?a7 ?a8 ?a9 //; [by exists et|exact: numerical_root H|exact: numerical_root H'].
Qed.
Lemma uniform_same n wl k0 plv eps (expn : n.-tuple (Z * Z)) l :
  eigensolve_uniform_isotropic_media wl k0 plv eps expn = Val l -> same_medium l l.
Proof. by move=> H; have [x _ _ _ _] := uniform_exact H; split=> //; [exists (diag (const_mx eps))|exact: uniform_root H|exact: uniform_root H]. Qed.
Lemma general_same eig eig' n nx ny wl k0 plv (eps mu : tensor 'M[C]_(nx, ny)) (expn : n.-tuple (Z * Z)) form src l l' :
  eig_spec eig -> eig_spec eig' ->
  eigensolve_general_anisotropic_media eig wl k0 plv eps mu expn form src = Val l ->
  eigensolve_general_anisotropic_media eig' wl k0 plv eps mu expn form src = Val l' -> same_medium l l'.
Proof.
move=> he he'; rewrite /eigensolve_general_anisotropic_media; case: ifP => _.
  rewrite /eigensolve_uniform_general_anisotropic_media => H H'.
  binv H r hr; binv H r' hr'; rewrite hr hr' /= in H'; exact: numerical_same H H'.
rewrite /eigensolve_patterned_general_anisotropic_media => H H'.
binv H r hr; rewrite hr /= in H'; case: r hr H H' => [[[[[[a b] c] d] e] f] g] _ H H'.
exact: numerical_same H H'.
Qed.
(** The same solver call, with two eigensolvers. *)
Theorem C57_eigensolvers eig eig' n (l l' : layer_solve_result n) :
  eig_spec eig -> eig_spec eig' -> same_solve eig eig' l l' -> same_medium l l'.
Proof.
move=> he he'; case=> {l l'}.
- move=> nx ny wl k0 plv p expn form l l'; rewrite /eigensolve_isotropic_media.
  case: ifP => _; first by move=> H; rewrite H => -[<-]; exact: uniform_same H.
  rewrite /eigensolve_patterned_isotropic_media => H H'; binv H r hr; rewrite hr /= in H'.
  by case: r hr H H' => [[[a b] c] d] _ H H'; exact: numerical_same H H'.
- move=> nx ny wl k0 plv eps expn form l l'; rewrite /eigensolve_anisotropic_media; exact: general_same.
- move=> nx ny wl k0 plv eps mu expn form src l l'; exact: general_same.
Qed.
Print Assumptions C57_eigensolvers.

(** The analytic solution of a uniform layer, and the numerical solution of a constant pattern
    with any formulation. *)
Theorem C57_constant_pattern eig nx ny n wl k0 plv (eps : C) (expn : n.-tuple (Z * Z)) form form' l l' :
  eig_spec eig -> distinct expn -> (nx, ny) <> (1, 1)%N ->
  eigensolve_isotropic_media eig wl k0 plv (const_mx eps : 'M_(1, 1)) expn form = Val l ->
  eigensolve_isotropic_media eig wl k0 plv (const_mx eps : 'M_(nx, ny)) expn form' = Val l' ->
  same_medium l l'.
Proof.
move=> he hd ne; rewrite /eigensolve_isotropic_media eqxx; case: eqP => // _.
have -> : squeeze11 (const_mx eps : 'M_(1, 1)) = eps.
  by rewrite /squeeze11 (mxgetE _ (isT : (0 < 1)%N) (isT : (0 < 1)%N)) mxE.
move=> hu H; have [[z1 z2] [z3 z4 z5] [x x'] _] := C14_patterned_agrees he hd hu H.
have [_ [u1 [u2 [u3 u4]]] _ _ _] := uniform_exact hu.
move: H; rewrite /eigensolve_patterned_isotropic_media => H; binv H r hr.
case: r hr H => [[[ie ez] et] tvf] hr H; have [_ [m1 [m2 [m3 m4]]] _ _ _] := numerical_exact he H.
split; rewrite ?u1 ?u2 ?u3 ?u4 //; [by exists (eps%:M)|exact: uniform_root hu|exact: numerical_root H].
Qed.
Print Assumptions C57_constant_pattern.

(** The analytic solution, and the numerical solution by the tensor path. *)
Theorem C57_isotropic_tensor eig n wl k0 plv (eps : C) (expn : n.-tuple (Z * Z)) form l l' :
  eig_spec eig ->
  eigensolve_isotropic_media eig wl k0 plv (const_mx eps : 'M_(1, 1)) expn form = Val l ->
  eigensolve_anisotropic_media eig wl k0 plv (Tensor (const_mx eps : 'M_(1, 1)) 0 0 (const_mx eps) (const_mx eps)) expn form = Val l' ->
  same_medium l l'.
Proof.
move=> he hu H; have [[z1 z2] [z3 z4 z5] [x x'] _] := C45_uniform_agrees he hu H.
move: hu H; rewrite /eigensolve_isotropic_media /eigensolve_anisotropic_media /eigensolve_general_anisotropic_media eqxx.
rewrite /eigensolve_uniform_general_anisotropic_media => hu H; binv H r1 h1; binv H r2 h2.
have [_ [u1 [u2 [u3 u4]]] _ _ _] := uniform_exact hu.
have [_ [m1 [m2 [m3 m4]]] _ _ _] := numerical_exact he H.
split; rewrite ?u1 ?u2 ?u3 ?u4 //; [by exists (eps%:M)|exact: uniform_root hu|exact: numerical_root H].
Qed.
Print Assumptions C57_isotropic_tensor.

(** ** Lengths multiplied by [s], with any eigensolver *)
Section Scaled.
Variables (s : R) (s0 : (0 < s)%coqR).
Lemma scale_root q : forward_root q -> forward_root (RtoC (/ s)%coqR * q).
Proof.
have p := Rinv_0_lt_compat _ s0; rewrite /forward_root !reimE.
by case=> [h|[h h']]; [left|right; split]; nra.
Qed.
Lemma numerical_scaled eig eig' n wl k0 plv (ez iez : 'M[C]_n) et mz imz mt expn tvf l l' :
  eig_spec eig -> eig_spec eig' ->
  numerical_eigensolve eig wl k0 plv ez iez et mz imz mt expn tvf = Val l ->
  numerical_eigensolve eig' (s * wl)%coqR (scale_wavevector s k0) (scale_lattice s plv) ez iez et mz imz mt expn tvf = Val l' ->
  same_medium (scale_layer s l) l'.
Proof.
move=> he he' H H'; have [x [a1 [a2 [a3 a4]]] [a5 a6] [a7 a8] [a9 _]] := numerical_exact he H.
have [x' [b1 [b2 [b3 b4]]] [b5 b6] [b7 b8] [b9 _]] := numerical_exact he' H'.
split; rewrite /= ?a1 ?a2 ?a3 ?a4 ?a5 ?a6 ?a7 ?a8 ?a9 //; last exact: numerical_root H'.
- by exists et; split=> //; apply/C46_eigen_equation.
- by move=> i; rewrite mxE; apply: scale_root; exact: numerical_root H i.
Qed.
Lemma scale_self n (l : layer_solve_result n) : same_medium l l -> same_medium (scale_layer s l) (scale_layer s l).
Proof.
case=> _ _ _ _ _ _ _ _ _ [e [x _]] q _; split=> //; first by exists e; split; apply/C46_eigen_equation.
- by move=> i; rewrite mxE; exact: scale_root (q i).
- by move=> i; rewrite mxE; exact: scale_root (q i).
Qed.
(** One isotropic layer solved at two scales: the scaled solution and the solution of the scaled
    problem are one medium. *)
Theorem C57_scaled_isotropic eig eig' n nx ny wl k0 plv (eps : 'M[C]_(nx, ny)) (expn : n.-tuple (Z * Z)) form l l' :
  eig_spec eig -> eig_spec eig' -> tangent_scale_free s plv expn form ->
  eigensolve_isotropic_media eig wl k0 plv eps expn form = Val l ->
  eigensolve_isotropic_media eig' (s * wl)%coqR (scale_wavevector s k0) (scale_lattice s plv) eps expn form = Val l' ->
  same_medium (scale_layer s l) l'.
Proof.
move=> he he' hf; rewrite /eigensolve_isotropic_media; case: eqP => [e|ne].
  by move=> H; rewrite uniform_scale // H => -[<-]; apply: scale_self; exact: uniform_same H.
rewrite /eigensolve_patterned_isotropic_media.
have -> : fourier_matrices_patterned_isotropic_media (scale_lattice s plv) eps expn form =
          fourier_matrices_patterned_isotropic_media plv eps expn form.
  by case: form hf => //= f hf; rewrite /fourier_matrices_patterned_isotropic_media hf.
move=> H H'; binv H r hr; rewrite hr /= in H'; case: r hr H H' => [[[a b] d] e] _ H H'.
exact: numerical_scaled H H'.
Qed.
Print Assumptions C57_scaled_isotropic.
Theorem C57_scaled_anisotropic eig eig' n nx ny wl k0 plv (eps mu : tensor 'M[C]_(nx, ny)) (expn : n.-tuple (Z * Z)) form src l l' :
  eig_spec eig -> eig_spec eig' -> tangent_scale_free s plv expn form ->
  eigensolve_general_anisotropic_media eig wl k0 plv eps mu expn form src = Val l ->
  eigensolve_general_anisotropic_media eig' (s * wl)%coqR (scale_wavevector s k0) (scale_lattice s plv) eps mu expn form src = Val l' ->
  same_medium (scale_layer s l) l'.
Proof.
move=> he he' hf; rewrite /eigensolve_general_anisotropic_media; case: eqP => [_|_].
  rewrite /eigensolve_uniform_general_anisotropic_media => H H'; binv H r hr; binv H r' hr'.
  rewrite hr hr' /= in H'; exact: numerical_scaled H H'.
rewrite /eigensolve_patterned_general_anisotropic_media.
have e x : fourier_matrices_patterned_anisotropic_media (scale_lattice s plv) eps mu expn form x =
          fourier_matrices_patterned_anisotropic_media plv eps mu expn form x.
  by case: form hf => //= f hf; rewrite /fourier_matrices_patterned_anisotropic_media hf.
rewrite e => H H'; binv H r hr; rewrite hr /= in H'.
case: r hr H H' => [[[[[[? ?] ?] ?] ?] ?] ?] _ H H'; exact: numerical_scaled H H'.
Qed.
Print Assumptions C57_scaled_anisotropic.

Lemma in_map_seq (A B : Type) (f : A -> B) (l : seq A) y : List.In y (map f l) -> exists x, f x = y /\ List.In x l.
Proof. by elim: l => [|x l IH] //= [<-|/IH [z [h1 h2]]]; [exists x; split; [|left]|exists z; split; [|right]]. Qed.
(** The scattering matrix of a stack does not change when every length is multiplied by [s],
    whatever the eigensolver returns; the end layers keep their modes (uniform layers do). *)
Theorem C57_scaled_scattering n wl l0 (ls ls' : seq (layer_solve_result n)) lN (ts : seq R) m m' :
  List.Forall2 (fun l l' => same_medium (scale_layer s l) l') (l0 :: rcons ls lN)
     (scale_layer s l0 :: rcons ls' (scale_layer s lN)) ->
  same_wavelength wl (l0 :: rcons ls lN) -> finite_fields (l0 :: rcons ls lN) ->
  finite_fields (scale_layer s l0 :: rcons ls' (scale_layer s lN)) ->
  independent_modes (scale_layer s l0 :: rcons ls' (scale_layer s lN)) ->
  stack_s_matrix (l0 :: rcons ls lN) ts = Val m ->
  stack_s_matrix (scale_layer s l0 :: rcons ls' (scale_layer s lN)) [seq (s * t)%coqR | t <- ts] = Val m' ->
  [/\ s11 m' = s11 m, s12 m' = s12 m, s21 m' = s21 m & s22 m' = s22 m].
Proof.
move=> H hw hf hf' hi hs hs'.
have e : map (@scale_layer s n) (l0 :: rcons ls lN) = scale_layer s l0 :: rcons (map (@scale_layer s n) ls) (scale_layer s lN).
  by rewrite /= map_rcons.
have := @stack_scale s s0 n (l0 :: rcons ls lN) ts; rewrite e hs => hS.
have H2 : List.Forall2 (@same_medium n) (map (@scale_layer s n) (l0 :: rcons ls lN)) (scale_layer s l0 :: rcons ls' (scale_layer s lN)).
  by clear -H; elim: H => [|k k' ks ks' h hs IH]; constructor.
have hw2 : same_wavelength (s * wl)%coqR (map (@scale_layer s n) (l0 :: rcons ls lN)).
  by move=> k hk; have [j [<- hj]] := in_map_seq hk; rewrite /= (hw j hj).
have hf2 : finite_fields (map (@scale_layer s n) (l0 :: rcons ls lN)).
  by move=> k hk; have [j [<- hj]] := in_map_seq hk; rewrite conversion_scale //; exact: hf.
rewrite e in H2 hw2 hf2; exact: (C57_scattering H2 hw2 hf2 hf' hi hS hs').
Qed.
Print Assumptions C57_scaled_scattering.
End Scaled.

(** ** Non-vacuity: an eigensolver with eigenvectors of another length *)
Definition doubling (eig : eig_fn) : eig_fn := fun m A => rmap (fun vV => (vV.1, RtoC 2%coqR *: vV.2)) (eig m A).
Definition double_modes n (l : layer_solve_result n) : layer_solve_result n :=
  {| wavelength := wavelength l; in_plane_wavevector := in_plane_wavevector l;
     primitive_lattice_vectors := primitive_lattice_vectors l; expansion := expansion l;
     eigenvalues := eigenvalues l; eigenvectors := RtoC 2%coqR *: eigenvectors l;
     z_permittivity_matrix := z_permittivity_matrix l;
     inverse_z_permittivity_matrix := inverse_z_permittivity_matrix l;
     z_permeability_matrix := z_permeability_matrix l;
     inverse_z_permeability_matrix := inverse_z_permeability_matrix l;
     transverse_permeability_matrix := transverse_permeability_matrix l;
     tangent_vector_field := tangent_vector_field l |}.
Lemma two0 : RtoC 2%coqR != 0. Proof. by apply: RtoC_neq0; lra. Qed.
Lemma doubling_spec eig : eig_spec eig -> eig_spec (doubling eig).
Proof.
move=> he m A v V; rewrite /doubling; case e: (eig m A) => [[v' V']|] //= [<- <-].
by rewrite -scalemxAr (he _ _ _ _ e) scalemxAl.
Qed.
Lemma double_solve eig n nx ny wl k0 plv (eps : 'M[C]_(nx, ny)) (expn : n.-tuple (Z * Z)) form :
  (nx, ny) <> (1, 1)%N ->
  eigensolve_isotropic_media (doubling eig) wl k0 plv eps expn form =
  rmap (@double_modes n) (eigensolve_isotropic_media eig wl k0 plv eps expn form).
Proof.
move=> ne; rewrite /eigensolve_isotropic_media; case: eqP => // _.
rewrite /eigensolve_patterned_isotropic_media; case: fourier_matrices_patterned_isotropic_media => [[[[a b] c] d]|] //=.
rewrite /numerical_eigensolve; case: transverse_wavevectors => [k|] //=; case: k_matrix_patterned => [K|] //=.
by case: omega_script_k_matrix_patterned => [O|] //=; rewrite /doubling; case: eig => [[v V]|].
Qed.
Lemma double_finite n (l : layer_solve_result n) : finite_fields [:: l] -> finite_fields [:: double_modes l].
Proof.
move=> h k [<-|[]]; have [M /fin_layerP [f]] := h l (or_introl erefl).
have f' : fin_layer (double_modes l) by case: f => O w kx ky h1 h2 h3 h4; exists O w kx ky.
by exists (block_mx (emat f') (- emat f') (eigenvectors (double_modes l)) (eigenvectors (double_modes l))); rewrite (field_conversionE f').
Qed.
Lemma double_same n (l : layer_solve_result n) : same_medium l l -> same_medium l (double_modes l).
Proof.
case=> _ _ _ _ _ _ _ _ _ [e [x _]] q _; split=> //; exists e; split=> //.
case: x => k [K [O [h1 h2 h3 h4]]]; exists k, K, O; split=> //=.
by rewrite -scalemxAr h4 scalemxAl.
Qed.
Example C57_witness : exists l : layer_solve_result 1,
  [/\ eig_spec diag_eig /\ eig_spec (doubling diag_eig), same_solve diag_eig (doubling diag_eig) l (double_modes l),
      double_modes l <> l & independent_modes [:: l; double_modes l]].
Proof.
have [l [hl he _ _ u]] := C12_patterned_witness; exists l.
have u2 : RtoC 2%coqR *: eigenvectors l \in unitmx by rewrite unitmxZ // unitfE two0.
split; [by split=> //; exact: doubling_spec| | |by move=> k [<-|[<-|[]]]].
- by apply: same_isotropic; [exact: hl|rewrite double_solve // hl].
- move/(congr1 (@eigenvectors 1)) => /= /(congr1 (fun X => X *m invmx (eigenvectors l))).
  rewrite -scalemxAl mulmxV // => /matrixP/(_ (lshift 1 0) (lshift 1 0)); rewrite !mxE eqxx mulr1n mulr1.
  by move/(congr1 re); rewrite /=; lra.
Qed.
(** Air, a layer of index 2 solved with modes of another length, air. *)
Example C57_stack_witness : let l := ex_layer 2 in
  let ls := [:: ex_layer 1; l; ex_layer 1] in let ls' := [:: ex_layer 1; double_modes l; ex_layer 1] in
  exists s s', [/\ List.Forall2 (@same_medium 1) ls ls', same_wavelength ex_wl ls,
    finite_fields ls /\ finite_fields ls', independent_modes ls /\ independent_modes ls' &
    stack_s_matrix ls ex_thickness = Val s /\ stack_s_matrix ls' ex_thickness = Val s'].
Proof.
move=> l ls ls'.
have r1 : (0 < 1)%coqR by lra. have r2 : (0 < 2)%coqR by lra.
have sm1 := uniform_same (ex_solve r1); have sm2 := uniform_same (ex_solve r2).
have H : List.Forall2 (@same_medium 1) ls ls'.
  by constructor=> //; constructor; [exact: double_same|constructor].
have [hw hf] := ex_hyps.
have hf' : finite_fields ls'.
  move=> k [<-|[<-|[<-|[]]]]; [exact: ex_finite| |exact: ex_finite].
  apply: (@double_finite 1 l); last by left.
  by move=> j [<-|[]]; exact: ex_finite.
have hi : independent_modes ls by move=> k [<-|[<-|[<-|[]]]]; exact: unitmx1.
have hi' : independent_modes ls'.
  move=> k [<-|[<-|[<-|[]]]]; [exact: unitmx1| |exact: unitmx1].
  by rewrite /= unitmxZ ?unitmx1 // unitfE two0.
have [s' hs'] := C57_finite H hw hf hf' hi hi' ex_stackE.
by exists ex_smat, s'; split=> //; split=> //; exact: ex_stackE.
Qed.

(** Proofs about star products, reversed stacks, interior amplitudes, thickness changes. *)
From Coq Require Import Reals ZArith Lra.
From mathcomp Require Import all_ssreflect all_algebra.
From Verif Require Import CField Err LinAlg M_utils M_basis M_fft M_fmm_matrices M_fmm M_scattering M_fields S_stack L_scattering.
Set Implicit Arguments. Unset Strict Implicit. Unset Printing Implicit Defensive.
Import GRing.Theory.
Local Open Scope ring_scope.

(** ** scan = loop *)
Lemma scan_append n (s : scattering_matrix n) ls :
  scan_layers s ls = (tl <- append_layers s ls;; Val (last s tl)).
Proof.
elim: ls s => [|[l t] ls IH] s //=.
by case: append_layer => [s'|] //=; rewrite IH; case: append_layers.
Qed.

Lemma scan_stack n (ls : seq (layer_solve_result n)) ts :
  stack_s_matrix_scan ls ts = stack_s_matrix ls ts.
Proof.
rewrite /stack_s_matrix_scan /stack_s_matrix /stack_s_matrices.
case: eqP => //= _; case: zip => [|[l0 t0] [|[l1 t1] rest]] //=.
rewrite -pair_extend; case: pair_s_matrix => [s|] //=.
by rewrite scan_append; case: append_layers.
Qed.

(** ** Redheffer star product *)
Section Redheffer.
Variable n : nat.
Implicit Types (ls : seq (layer n)) (s : scattering_matrix n).

(** The star product glues two scattering relations at a matched interface. *)
Lemma redheffer_rel m (a b s : scattering_matrix n)
    (fa : fin_layer (end_layer_solve_result a)) (fb : fin_layer (start_layer_solve_result b)) :
  wavelength (end_layer_solve_result a) = wavelength (start_layer_solve_result b) ->
  redheffer_star_product a b = Val s ->
  forall a0 b0 a2 b2 : 'M[C]_(n + n, m),
  scatters s a0 b0 a2 b2 <->
  exists aN bN a1 b1, [/\ scatters a a0 b0 aN bN,
    interface_matched (end_layer_solve_result a, end_layer_thickness a) (aN, bN)
                      (start_layer_solve_result b, start_layer_thickness b) (a1, b1) &
    scatters b a1 b1 a2 b2].
Proof.
move=> wl; rewrite /redheffer_star_product => H; binv H a' ha.
rewrite /append_layer in ha; binv ha N hN; case: N hN ha => [[[N11 N12] N21] N22] hN [ha].
binv H x11 h11; binv H x12 h12; binv H x21 h21; binv H x22 h22; case: H => <-.
rewrite !diag1 in h11 h12 h21 h22.
move/solveV: h11 => [u1 e11]; move/solveV: h12 => [_ e12].
move/solveV: h21 => [u2 e21]; move/solveV: h22 => [_ e22].
move=> a0 b0 a2 b2.
have E a1 b1 := @extendP n m _ _ _ _ fa fb _ _ wl hN a0 b0 a1 b1.
have -> : (exists aN bN a1 b1, [/\ scatters a a0 b0 aN bN,
    interface_matched (end_layer_solve_result a, end_layer_thickness a) (aN, bN)
                      (start_layer_solve_result b, start_layer_thickness b) (a1, b1) &
    scatters b a1 b1 a2 b2]) <->
    exists a1 b1, scatters a' a0 b0 a1 b1 /\ scatters b a1 b1 a2 b2.
  rewrite -ha; split.
    case=> aN [bN [a1 [b1 [k1 k2 k3]]]]; exists a1, b1; split; last exact: k3.
    by apply/E; exists aN, bN; split; [exact: k1|exact: k2].
  case=> a1 [b1 [/E [aN [bN [k1 k2]]] k3]].
  by exists aN, bN, a1, b1; split; [exact: k1|exact: k2|exact: k3].
rewrite /scatters /=.
move: (M_scattering.s11 a') (M_scattering.s12 a') (M_scattering.s21 a') (M_scattering.s22 a')
  (M_scattering.s11 b) (M_scattering.s12 b) (M_scattering.s21 b) (M_scattering.s22 b)
  u1 u2 e11 e12 e21 e22 => A11 A12 A21 A22 B11 B12 B21 B22 u1 u2 e11 e12 e21 e22.
split.
+ case=> h1 h2.
  exists (x11 *m a0 + x12 *m b2), (x21 *m a0 + x22 *m b2).
  have k1 : x11 *m a0 + x12 *m b2 = A11 *m a0 + A12 *m (x21 *m a0 + x22 *m b2).
    apply: (can_inj (mulKmx u1)); rewrite [LHS]mulmxDr [_ *m (x11 *m _)]mulmxA [_ *m (x12 *m _)]mulmxA e11 e12.
    rewrite [RHS]mulmxDr [_ *m (A12 *m _)]mulmxA.
    have -> : (1%:M - A12 *m B21) *m A12 = A12 *m (1%:M - B21 *m A12).
      by rewrite mulmxBl mulmxBr mul1mx mulmx1 mulmxA.
    rewrite -[A12 *m (1%:M - _) *m _]mulmxA [(1%:M - B21 *m A12) *m (_ + _)]mulmxDr.
    rewrite [(1%:M - B21 *m A12) *m (x21 *m a0)]mulmxA [(1%:M - B21 *m A12) *m (x22 *m b2)]mulmxA e21 e22.
    rewrite !(mulmxDr, mulmxBl, mul1mx, mulmxA); mxab.
  have k2 : x21 *m a0 + x22 *m b2 = B21 *m (x11 *m a0 + x12 *m b2) + B22 *m b2.
    apply: (can_inj (mulKmx u2)); rewrite [LHS]mulmxDr [_ *m (x21 *m _)]mulmxA [_ *m (x22 *m _)]mulmxA e21 e22.
    rewrite [RHS]mulmxDr [_ *m (B21 *m _)]mulmxA.
    have -> : (1%:M - B21 *m A12) *m B21 = B21 *m (1%:M - A12 *m B21).
      by rewrite mulmxBl mulmxBr mul1mx mulmx1 mulmxA.
    rewrite -[B21 *m (1%:M - _) *m _]mulmxA [(1%:M - A12 *m B21) *m (_ + _)]mulmxDr.
    rewrite [(1%:M - A12 *m B21) *m (x11 *m a0)]mulmxA [(1%:M - A12 *m B21) *m (x12 *m b2)]mulmxA e11 e12.
    rewrite !(mulmxDr, mulmxBl, mul1mx, mulmxA); mxab.
  split; split=> //.
  * by rewrite h2 !(mulmxDr, mulmxDl, mulmxA); mxab.
  * by rewrite h1 !(mulmxDr, mulmxDl, mulmxA); mxab.
+ case=> a1 [b1 [[h1 h2] [h3 h4]]].
  have k1 : a1 = x11 *m a0 + x12 *m b2.
    apply: (can_inj (mulKmx u1)); rewrite [RHS]mulmxDr [_ *m (x11 *m _)]mulmxA [_ *m (x12 *m _)]mulmxA e11 e12.
    rewrite mulmxBl mul1mx {1}h1 h4 !(mulmxDr, mulmxA); mxab.
  have k2 : b1 = x21 *m a0 + x22 *m b2.
    apply: (can_inj (mulKmx u2)); rewrite [RHS]mulmxDr [_ *m (x21 *m _)]mulmxA [_ *m (x22 *m _)]mulmxA e21 e22.
    rewrite mulmxBl mul1mx {1}h4 h1 !(mulmxDr, mulmxA); mxab.
  split; first by rewrite h3 k1 !(mulmxDr, mulmxDl, mulmxA); mxab.
  by rewrite h2 k2 !(mulmxDr, mulmxDl, mulmxA); mxab.
Qed.

Lemma redheffer_meta (a b s : scattering_matrix n) : redheffer_star_product a b = Val s ->
  [/\ start_layer_solve_result s = start_layer_solve_result a,
      start_layer_thickness s = start_layer_thickness a,
      end_layer_solve_result s = end_layer_solve_result b &
      end_layer_thickness s = end_layer_thickness b].
Proof.
rewrite /redheffer_star_product => H; binv H a' ha.
by binv H x11 h11; binv H x12 h12; binv H x21 h21; binv H x22 h22; case: H => <-.
Qed.

Lemma redheffer_represents wl ls1 ls2 a b s :
  allp (okl wl) ls1 -> allp (okl wl) ls2 ->
  represents ls1 a -> represents ls2 b ->
  redheffer_star_product a b = Val s -> represents (ls1 ++ ls2) s.
Proof.
case: ls2 => [|l' ls2] ok1 ok2 ra rb; first by case: rb.
case: ls1 ok1 ra => [|l1 ls1] ok1 ra; first by case: ra.
have [rela hsa hea _] := ra; have [relb hsb heb _] := rb.
have ea := hea l1; have eb := hsb l1; rewrite /= in ea eb.
have [wa [fa]] := allp_last ok1; have [[wb [fb]] _] := ok2.
rewrite -ea /= in wa fa; rewrite -eb /= in wb fb.
have wab : wavelength (end_layer_solve_result a) = wavelength (start_layer_solve_result b) by rewrite wa wb.
move=> H; have [m1 m2 m3 m4] := redheffer_meta H; split.
- move=> m a0 b0 a2 b2; rewrite (@redheffer_rel m _ _ _ fa fb wab H) stack_ends_cat -ea -eb.
  rewrite -eb in relb.
  split=> -[aN [bN [a1 [b1 [h1 h2 h3]]]]]; exists aN, bN, a1, b1.
    by split; [exact/rela|exact: h2|exact/relb].
  by split; [exact/rela|exact: h2|exact/relb].
- by move=> d; rewrite m1 m2 (hsa d).
- by move=> d; rewrite m3 m4 (heb d) last_cat.
- by [].
Qed.

Lemma redheffer_assoc_rel (a b c ab bc x y : scattering_matrix n)
    (fa : fin_layer (end_layer_solve_result a)) (fb : fin_layer (start_layer_solve_result b))
    (fb' : fin_layer (end_layer_solve_result b)) (fc : fin_layer (start_layer_solve_result c)) :
  wavelength (end_layer_solve_result a) = wavelength (start_layer_solve_result b) ->
  wavelength (end_layer_solve_result b) = wavelength (start_layer_solve_result c) ->
  redheffer_star_product a b = Val ab -> redheffer_star_product ab c = Val x ->
  redheffer_star_product b c = Val bc -> redheffer_star_product a bc = Val y -> x = y.
Proof.
move=> w1 w2 hab hx hbc hy.
have [ms1 ms2 me1 me2] := redheffer_meta hab.
have [mt1 mt2 mf1 mf2] := redheffer_meta hbc.
have [mx1 mx2 mx3 mx4] := redheffer_meta hx.
have [my1 my2 my3 my4] := redheffer_meta hy.
have fab : fin_layer (end_layer_solve_result ab) by rewrite me1.
have fbc : fin_layer (start_layer_solve_result bc) by rewrite mt1.
have w3 : wavelength (end_layer_solve_result ab) = wavelength (start_layer_solve_result c) by rewrite me1.
have w4 : wavelength (end_layer_solve_result a) = wavelength (start_layer_solve_result bc) by rewrite mt1.
have [|e1 e2 e3 e4] := @scatters_inj n x y.
  move=> m a0 b0 a3 b3.
  rewrite (@redheffer_rel m _ _ _ fab fc w3 hx) (@redheffer_rel m _ _ _ fa fbc w4 hy) me1 me2 mt1 mt2.
  split.
  - case=> aN [bN [a1 [b1 [/(@redheffer_rel m _ _ _ fa fb w1 hab) [p [q [r [s [k1 k2 k3]]]]] h2 h3]]]].
    exists p, q, r, s; split; [exact: k1|exact: k2|].
    apply/(@redheffer_rel m _ _ _ fb' fc w2 hbc); exists aN, bN, a1, b1.
    by split; [exact: k3|exact: h2|exact: h3].
  - case=> aN [bN [a1 [b1 [h1 h2 /(@redheffer_rel m _ _ _ fb' fc w2 hbc) [p [q [r [s [k1 k2 k3]]]]]]]]].
    exists p, q, r, s; split; [|exact: k2|exact: k3].
    apply/(@redheffer_rel m _ _ _ fa fb w1 hab); exists aN, bN, a1, b1.
    by split; [exact: h1|exact: h2|exact: k1].
case: x y mx1 mx2 mx3 mx4 my1 my2 my3 my4 e1 e2 e3 e4 {hx hy} => ? ? ? ? ? ? ? ? [? ? ? ? ? ? ? ?] /=.
by move=> -> -> -> -> -> -> -> -> -> -> -> ->; rewrite ms1 ms2 mf1 mf2.
Qed.
End Redheffer.

Lemma mapMP (T T' : Type) (f : T -> res T') s s' : mapM f s = Val s' ->
  size s' = size s /\ forall i d d', (i < size s)%N -> f (nth d s i) = Val (nth d' s' i).
Proof.
elim: s s' => [|x s IH] s' /= H; first by case: H => <-.
binv H y hy; binv H ys hys; case: H => <-.
have [sz h] := IH _ hys; split=> [/=|[|i] d d' //= hi]; first by rewrite sz.
exact: h.
Qed.

(** ** Reversed stacks *)
Section Reverse.
Variable n : nat.
Implicit Types (ls : seq (layer n)) (s : scattering_matrix n).
Definition swap m (x : layer_amplitudes n m) : layer_amplitudes n m := (x.2, x.1).

Lemma interface_matched_swap wl m l l' (x x' : layer_amplitudes n m) :
  okl wl l -> okl wl l' ->
  interface_matched l x l' x' <-> interface_matched l' (swap x') l (swap x).
Proof.
case: l l' x x' => [l t] [l' t'] [a b] [a' b'] [_ [f]] [_ [f']].
exact: interface_flip.
Qed.

Lemma stack_solution_rev wl m ls (xs : seq (layer_amplitudes n m)) :
  allp (okl wl) ls -> size xs = size ls ->
  stack_solution (rev ls) (rev (map (@swap m) xs)) <-> stack_solution ls xs.
Proof.
elim: ls xs => [|l ls IH] [|x xs] // [ok oks] [sz].
case: ls xs sz oks IH => [|l' ls] [|x' xs] //= [sz] oks IH.
have IH' := IH (x' :: xs) oks (congr1 S sz).
rewrite !rev_cons in IH' *.
have sz' : size (rev [seq swap i | i <- xs]) = size (rev ls) by rewrite !size_rev size_map.
case E: (rcons (rev ls) l') => [|k ks]; first by case: (rev ls) E.
case E' : (rcons (rev [seq swap i | i <- xs]) (swap x')) => [|y ys].
  by case: (rev [seq swap i | i <- xs]) E'.
have szk : size ys = size ks.
  by have := congr1 size E; have := congr1 size E'; rewrite !size_rcons sz' => -[->] [->].
rewrite (stack_solution_rcons _ _ _ _ szk).
rewrite E E' in IH'; rewrite IH'.
have -> : last k ks = l' by rewrite -[last k ks]/(last k (k :: ks)) -E last_rcons.
have -> : last y ys = swap x' by rewrite -[last y ys]/(last y (y :: ys)) -E' last_rcons.
by case: (oks) => ok' _; rewrite -(interface_matched_swap x x' ok ok'); split=> -[].
Qed.

Lemma stack_ends_rev wl m ls (a0 b0 aN bN : 'M[C]_(n + n, m)) : allp (okl wl) ls ->
  stack_ends ls a0 b0 aN bN <-> stack_ends (rev ls) bN aN b0 a0.
Proof.
have K ks (c0 d0 cN dN : 'M[C]_(n + n, m)) : allp (okl wl) ks ->
   stack_ends ks c0 d0 cN dN -> stack_ends (rev ks) dN cN d0 c0.
  move=> ok [x0 [xs [h e1 e2]]].
  have /= sz := stack_solution_size h.
  have h' := proj2 (@stack_solution_rev wl m ks (x0 :: xs) ok sz) h.
  move: h'; rewrite /= rev_cons.
  case/lastP: xs {h sz} e2 => [|xs y]; rewrite /= ?last_rcons => e2.
    by move=> h'; exists (swap x0), [::]; split=> //; rewrite ?e2 //= -e2 e1.
  rewrite map_rcons rev_rcons /= => h'.
  exists (swap y), (rcons (rev (map (@swap m) xs)) (swap x0)); split=> //; first by rewrite e2.
  by rewrite last_rcons e1.
move=> ok; split; first exact: K.
by move=> h; rewrite -[ls]revK; apply: K => //; rewrite allp_rev.
Qed.

Lemma reverse_represents wl ls s : allp (okl wl) ls ->
  represents ls s -> represents (rev ls) (reverse_s_matrix s).
Proof.
move=> ok [rel hs he ne]; split.
- move=> m a0 b0 aN bN; rewrite -(@stack_ends_rev wl) // -rel /scatters /=.
  by split=> -[-> ->]; split; rewrite addrC.
- by move=> d; rewrite /= (he d); case/lastP: ls {ok rel hs he ne} => // ls x; rewrite rev_rcons last_rcons.
- move=> d; rewrite /= (hs d); case: ls ne {ok rel hs he} => // x ls _; by rewrite rev_cons last_rcons.
- by case/lastP: ls ne {ok rel hs he} => // ls x _; rewrite rev_rcons.
Qed.

Lemma prependE s l t :
  prepend_layer s l t = rmap (@reverse_s_matrix n) (append_layer (reverse_s_matrix s) l t).
Proof.
rewrite /prepend_layer /append_layer /=.
by case: extend_s_matrix => [[[[a b] c] d]|].
Qed.

Lemma prepend_represents wl ls s l t s' :
  allp (okl wl) ls -> okl wl (l, t) ->
  represents ls s -> prepend_layer s l t = Val s' -> represents ((l, t) :: ls) s'.
Proof.
move=> oks ok r; rewrite prependE => H; inv1 H; rewrite -{}H.
have oks' : allp (okl wl) (rev ls) by rewrite allp_rev.
have r' := append_represents oks' ok (reverse_represents oks r) h.
rewrite -[_ :: _]revK rev_cons; apply: (reverse_represents (wl := wl)) => //.
by rewrite allp_rcons.
Qed.

Lemma interiorP wl (ls : seq (layer_solve_result n)) ts ss :
  stack_s_matrices_interior ls ts = Val ss -> allp (okl wl) (zip ls ts) ->
  [/\ size ls = size ts, (0 < size ls)%N, size ss = size ls &
   forall i d, (i < size ls)%N ->
     represents (take i.+1 (zip ls ts)) (nth d ss i).1 /\
     represents (drop i (zip ls ts)) (nth d ss i).2].
Proof.
rewrite /stack_s_matrices_interior => H ok; binv H bef hb; binv H r hr; case: H => <-.
have [sz pos szb hib] := stack_s_matricesP hb ok.
have ok' : allp (okl wl) (zip (rev ls) (rev ts)) by rewrite -rev_zip // allp_rev.
have [_ _ szr hir] := stack_s_matricesP hr ok'.
rewrite size_rev in szr hir.
have szz : size (zip ls ts) = size ls by rewrite size_zip sz minnn.
have szba : size bef = size [seq reverse_s_matrix i | i <- rev r].
  by rewrite size_map size_rev szb szr.
split=> //; first by rewrite size_zip -szba minnn.
move=> i [d1 d2] hi; rewrite nth_zip //=; split; first exact: hib.
rewrite (nth_map d2) ?size_rev ?szr // nth_rev ?szr //.
have hj : (size ls - i.+1 < size ls)%N by rewrite ltn_subrL pos.
have := hir _ d2 hj; rewrite -rev_zip // subnSK // take_rev szz subKn ?(ltnW hi) // => r'.
have := reverse_represents (wl := wl) _ r'; rewrite revK; apply.
by rewrite allp_rev; apply: allp_drop.
Qed.

(** ** Interior amplitudes *)
Lemma amplitudes_interiorP m (before after : scattering_matrix n) (a0 bN : 'M[C]_(n + n, m)) x :
  amplitudes_interior before after a0 bN = Val x ->
  forall a b, (x = (a, b)) <->
   (exists b0 aN, scatters before a0 b0 a b /\ scatters after a b aN bN).
Proof.
rewrite /amplitudes_interior => H; binv H ai h; case: H => <- a b.
case/solveV: h => u e.
split.
- case=> <- <-.
  set b' := s21 after *m ai + s22 after *m bN.
  exists (s21 before *m a0 + s22 before *m b'), (s11 after *m ai + s12 after *m bN).
  split; split=> //.
  move: e; rewrite mulmxBl mul1mx -!mulmxA => /eqP; rewrite subr_eq => /eqP ->.
  by rewrite /b' mulmxDr -addrA; congr (_ + _); rewrite addrC.
- case=> b0 [aN [[h1 _] [_ h2]]].
  suff -> : ai = a by rewrite h2.
  apply: (can_inj (mulKmx u)); rewrite e mulmxBl mul1mx {1}h1 h2 !mulmxDr !mulmxA; mxab.
Qed.

Lemma stack_ends_join m ls i (a0 b0 a b aN bN : 'M[C]_(n + n, m)) : (i < size ls)%N ->
  stack_ends (take i.+1 ls) a0 b0 a b -> stack_ends (drop i ls) a b aN bN ->
  exists x0 xs, [/\ stack_solution ls (x0 :: xs), x0 = (a0, b0), last x0 xs = (aN, bN) &
    forall d, nth d (x0 :: xs) i = (a, b)].
Proof.
elim: ls i a0 b0 => [|l ls IH] [|i] a0 b0 //= hi.
  rewrite take0 => /stack_ends1 [-> ->] [x0 [xs [h1 h2 h3]]].
  by exists x0, xs; split.
case: ls IH hi => [|l' ls] IH // hi h1 h2.
have {h1} [x1 [xs1 [h1 e1 e2]]] := h1.
have := stack_solution_size h1; rewrite /=; case: xs1 h1 e2 => [|x2 xs2] // h1 e2 _.
move: h1; rewrite take_cons /= => -[h1 h1'].
have [|y0 [ys [k1 k2 k3 k4]]] := IH i x2.1 x2.2 hi _ h2.
  by exists x2, xs2; split=> //; case: (x2).
have h1'' : interface_matched l x1 l' y0 by rewrite k2; case: (x2) h1.
exists x1, (y0 :: ys); split; [|exact: e1|exact: k3|exact: k4].
by apply/stack_solution_cons; split; [exact: h1''|exact: k1].
Qed.

Lemma stack_solution_cut m ls x0 xs i (d : layer_amplitudes n m) : (i < size ls)%N ->
  stack_solution ls (x0 :: xs) ->
  let x := nth d (x0 :: xs) i in
  stack_ends (take i.+1 ls) x0.1 x0.2 x.1 x.2 /\
  stack_ends (drop i ls) x.1 x.2 (last x0 xs).1 (last x0 xs).2.
Proof.
elim: ls x0 xs i => [|l ls IH] x0 xs [|i] // hi.
  move=> h /=; rewrite take0; split; first exact/stack_ends1.
  by exists x0, xs; split=> //; [case: (x0)|case: last].
case: ls xs IH hi => [|l' ls] [|x1 xs] // IH hi [h1 h2].
have [[y0 [ys [k1 k2 k3]]] K2] := IH x1 xs i hi h2; split=> //.
have h1'' : interface_matched l x0 l' y0 by rewrite k2; case: (x1) h1.
exists x0, (y0 :: ys); split; [|by case: (x0)|exact: k3].
by apply/stack_solution_cons; split; [exact: h1''|exact: k1].
Qed.

Lemma stack_amplitudesP wl m (ls : seq (layer_solve_result n)) ts ss (a0 bN : 'M[C]_(n + n, m)) xs :
  stack_s_matrices_interior ls ts = Val ss -> allp (okl wl) (zip ls ts) ->
  stack_amplitudes_interior ss a0 bN = Val xs ->
  forall ys, ys = xs <->
   (stack_solution (zip ls ts) ys /\ exists y0 ys', [/\ ys = y0 :: ys', y0.1 = a0 & (last y0 ys').2 = bN]).
Proof.
move=> hss ok hxs.
have [sz pos szs hi] := interiorP hss ok.
have [szx hx] := mapMP hxs.
have szz : size (zip ls ts) = size ls by rewrite size_zip sz minnn.
have [ds _] : {d : scattering_matrix n * scattering_matrix n | True}.
  by case: (ss) szs pos => [<-//|d ? _ _]; exists d.
pose dx : layer_amplitudes n m := (0, 0).
(* each entry of the result belongs to a solution *)
have key i : (i < size ls)%N -> forall a b, nth dx xs i = (a, b) <->
    (exists b0 aN, stack_ends (take i.+1 (zip ls ts)) a0 b0 a b /\
                   stack_ends (drop i (zip ls ts)) a b aN bN).
  move=> hlt a b; have := hx i ds dx; rewrite szs => /(_ hlt) hxi.
  have [[r1 _ _ _] [r2 _ _ _]] := hi i ds hlt.
  rewrite (amplitudes_interiorP hxi a b).
  by split=> -[b0 [aN [k1 k2]]]; exists b0, aN; split; try exact/r1; try exact/r2.
have uniq y0 ys' : stack_solution (zip ls ts) (y0 :: ys') -> y0.1 = a0 -> (last y0 ys').2 = bN ->
    y0 :: ys' = xs.
  move=> hs e1 e2; have szy := stack_solution_size hs.
  apply: (@eq_from_nth _ dx); first by rewrite szy szz szx szs.
  move=> i; rewrite szy szz => hlt; symmetry.
  have hlt' : (i < size (zip ls ts))%N by rewrite szz.
  have [K1 K2] := stack_solution_cut dx hlt' hs.
  case E: (nth dx (y0 :: ys') i) K1 K2 => [a b] K1 K2.
  by apply/key => //; exists y0.2, (last y0 ys').1; rewrite -e1 -e2; split.
have [a [b E]] : exists a b, nth dx xs 0 = (a, b) by case: nth => a b; exists a, b.
have := proj1 (key 0%N pos a b) E => -[b0 [aN [K1 K2]]].
have h0 : (0 < size (zip ls ts))%N by rewrite szz.
have [y0 [ys' [k1 k2 k3 k4]]] := stack_ends_join h0 K1 K2.
have exs : y0 :: ys' = xs by apply: uniq => //; [by rewrite k2|by rewrite k3].
move=> ys; split.
- move=> ->; rewrite -exs; split=> //; exists y0, ys'; split=> //; [by rewrite k2|by rewrite k3].
- by case=> hs [z0 [zs [e e1 e2]]]; rewrite e in hs *; apply: uniq.
Qed.
End Reverse.

(** ** Changing the thickness of the outer layers *)
Section Thickness.
Variable n : nat.
Implicit Types (s : scattering_matrix n).

Lemma solve_mulr p q r (A : 'M[C]_p) (B : 'M[C]_(p, q)) (D : 'M[C]_(q, r)) :
  rmap (fun X => X *m D) (solve A B) = solve A (B *m D).
Proof. by rewrite /solve; case: ifP => //= _; rewrite mulmxA. Qed.

Lemma append_set_end s l t t' :
  rmap (fun s' => set_end_layer_thickness s' t') (append_layer s l t) = append_layer s l t'.
Proof.
rewrite /append_layer /extend_s_matrix.
case: interface_matrices => [[i1 i2]|] //=.
case E1: solve => [N11|] //=.
rewrite !colscaleE.
set B := _ - i2; set D := diag (phase (eigenvalues l) t).
set D' := diag (phase (eigenvalues l) t').
have -> : B *m D' = B *m D *m diag (phase (eigenvalues l) (t' - t)%coqR).
  by rewrite -mulmxA phaseD; congr (_ *m diag (phase _ _)); lra.
rewrite -[solve _ (B *m D *m _)]solve_mulr; case: solve => [N12|] //=; congr Val.
rewrite /set_end_layer_thickness /= !colscaleE; congr SMat.
rewrite mulmxDl -!mulmxA; congr (_ + _); congr (_ *m (_ *m _)).
by rewrite phaseD; congr (diag (phase _ _)); lra.
Qed.

Lemma append_set_start s l t t' :
  rmap (fun s' => set_start_layer_thickness s' t') (append_layer s l t) =
  append_layer (set_start_layer_thickness s t') l t.
Proof.
rewrite /append_layer /extend_s_matrix /=.
case: interface_matrices => [[i1 i2]|] //=.
rewrite !rowscaleE !colscaleE [_ *m (s11 s *m _)]mulmxA -[solve _ (_ *m s11 s *m _)]solve_mulr.
case: solve => [N11|] //=; case: solve => [N12|] //=; congr Val.
by rewrite /set_start_layer_thickness /= !colscaleE mulmxDl !mulmxA.
Qed.

Lemma identity_set_start l0 t0 t0' l t :
  rmap (fun s' => set_start_layer_thickness s' t0') (append_layer (identity_s_matrix l0 t0) l t) =
  append_layer (identity_s_matrix l0 t0') l t.
Proof.
rewrite /append_layer /extend_s_matrix /=.
case: interface_matrices => [[i1 i2]|] //=.
rewrite !rowscaleE !diag1 !mulmx1 !mulmx0 !mul0mx.
set D := diag (phase _ t0); set D' := diag (phase _ t0').
have -> : D' = D *m diag (phase (eigenvalues l0) (t0' - t0)%coqR).
  by rewrite phaseD; congr (diag (phase _ _)); lra.
rewrite -[solve _ (D *m _)]solve_mulr.
case: solve => [N11|] //=; case: solve => [N12|] //=; congr Val.
by rewrite /set_start_layer_thickness /= !colscaleE mulmxDl mul0mx !mulmxA.
Qed.

Lemma scan_set_start s ls t' :
  rmap (fun s' => set_start_layer_thickness s' t') (scan_layers s ls) =
  scan_layers (set_start_layer_thickness s t') ls.
Proof.
elim: ls s => [|[l t] ls IH] s //=.
rewrite -append_set_start; case: append_layer => [s'|] //=; exact: IH.
Qed.

Lemma stack_set_start l0 l1 (ls : seq (layer_solve_result n)) t0 t0' ts :
  rmap (fun s' => set_start_layer_thickness s' t0') (stack_s_matrix (l0 :: l1 :: ls) (t0 :: ts)) =
  stack_s_matrix (l0 :: l1 :: ls) (t0' :: ts).
Proof.
rewrite -!scan_stack /stack_s_matrix_scan; case: eqP => [h|h].
  rewrite /check /=.
  case: ts h => [|t1 ts] //= _; rewrite -(identity_set_start l0 t0 t0').
  case: append_layer => [s|] //; exact: (scan_set_start s (zip ls ts) t0').
by [].
Qed.

Lemma scan_layers_cat s ls1 ls2 :
  scan_layers s (ls1 ++ ls2) = (s' <- scan_layers s ls1;; scan_layers s' ls2).
Proof. by elim: ls1 s => [|[l t] ls IH] s //=; case: append_layer => [s'|] //=. Qed.

Lemma stack_set_end l0 (ls : seq (layer_solve_result n)) lN ts tN tN' :
  rmap (fun s' => set_end_layer_thickness s' tN')
       (stack_s_matrix (rcons (l0 :: ls) lN) (rcons ts tN)) =
  stack_s_matrix (rcons (l0 :: ls) lN) (rcons ts tN').
Proof.
rewrite -!scan_stack /stack_s_matrix_scan !size_rcons; case: eqP => [[h]|] //.
rewrite /check; case: ts h => [|t0 ts] //= [h].
rewrite !zip_rcons // -!cats1 !scan_layers_cat.
case: scan_layers => [s|] //=.
rewrite -(append_set_end _ _ tN tN').
by case: append_layer.
Qed.

(** For a stack with a single layer the functions do not agree with [stack_s_matrix]. *)
Lemma set_end_single (l : layer_solve_result n) t t' :
  s22 (set_end_layer_thickness (identity_s_matrix l t) t') =
  diag (phase (eigenvalues l) (t' - t)%coqR).
Proof. by rewrite /= colscaleE diag1 mul1mx. Qed.
End Thickness.

(** ** Splitting a layer; layers without thickness *)
Section Split.
Variable n : nat.
Implicit Types (ls : seq (layer n)) (s : scattering_matrix n) (l : layer_solve_result n).
Notation F l d := (diag (phase (eigenvalues l) d)).

Lemma stack_ends_cons m (k k' : layer n) ls (a0 b0 aN bN : 'M[C]_(n + n, m)) :
  stack_ends (k :: k' :: ls) a0 b0 aN bN <->
  exists a1 b1, interface_matched k (a0, b0) k' (a1, b1) /\ stack_ends (k' :: ls) a1 b1 aN bN.
Proof.
rewrite (@stack_ends_cat n m k [::] k' ls); split.
  by case=> a [b [a1 [b1 [/stack_ends1 [-> ->] h1 h2]]]]; exists a1, b1.
by case=> a1 [b1 [h1 h2]]; exists a0, b0, a1, b1; split=> //; apply/stack_ends1.
Qed.

(** Invertible modes. *)
Definition invertible_modes l (f : fin_layer l) := fl_O f *m eigenvectors l \in unitmx.

Lemma emat_unit l (f : fin_layer l) : invertible_modes f ->
  emat f \in unitmx /\ eigenvectors l \in unitmx.
Proof.
rewrite /invertible_modes unitmx_mul => /andP[h1 h2]; split=> //.
rewrite /emat !unitmx_mul h1 h2 /= diag_unit; apply/forallP=> i.
by rewrite mxE invr_neq0 // mulf_neq0 ?fin_w0 ?fl_q.
Qed.

Lemma same_layer m l (f : fin_layer l) t1 t2 (a1 b1 a2 b2 : 'M[C]_(n + n, m)) :
  invertible_modes f ->
  interface_matched (l, t1) (a1, b1) (l, t2) (a2, b2) <-> a2 = F l t1 *m a1 /\ b1 = F l t2 *m b2.
Proof.
move=> /emat_unit [u1 u2].
rewrite (@interfaceE n m (l, t1) f (l, t2) f) /=.
split; last by case=> -> ->.
rewrite /Et /Ht => -[/(can_inj (mulKmx u1)) h1 /(can_inj (mulKmx u2)) h2].
have [e1 e2] := proj1 (sum_diff _ _ _ _) (conj h1 h2).
have [e3 e4] := proj1 (sum_diff a2 (F l t2 *m b2) _ _) (conj erefl erefl).
by split; [rewrite e1 -e3|rewrite e2 -e4].
Qed.

Lemma split_interfaces m wl (k k' : layer n) l (f : fin_layer l) t1 t2 (aK bK aK' bK' : 'M[C]_(n + n, m)) :
  okl wl k -> okl wl k' -> invertible_modes f ->
  (exists a1 b1 a2 b2, [/\ interface_matched k (aK, bK) (l, t1) (a1, b1),
     interface_matched (l, t1) (a1, b1) (l, t2) (a2, b2) &
     interface_matched (l, t2) (a2, b2) k' (aK', bK')]) <->
  (exists a b, interface_matched k (aK, bK) (l, t1 + t2)%coqR (a, b) /\
     interface_matched (l, t1 + t2)%coqR (a, b) k' (aK', bK')).
Proof.
move=> [_ [fk]] [_ [fk']] u.
have i1 t a b := @interfaceE n m k fk (l, t) f (aK, bK) (a, b).
have i2 t a b := @interfaceE n m (l, t) f k' fk' (a, b) (aK', bK').
have fd : F l (t1 + t2)%coqR = F l t1 *m F l t2 by rewrite phaseD.
have fd' : F l (t1 + t2)%coqR = F l t2 *m F l t1 by rewrite phaseD; congr (diag (phase _ _)); lra.
split.
- case=> a1 [b1 [a2 [b2 [/i1 h1 /(same_layer _ _ _ _ _ _ u) [e1 e2] /i2 h2]]]].
  rewrite /= e1 in h2; rewrite /= e2 in h1.
  exists a1, b2; split; first by apply/i1; rewrite /= fd -mulmxA.
  by apply/i2; rewrite /= fd' -mulmxA.
- case=> a [b [/i1 /= h1 /i2 /= h2]].
  exists a, (F l t2 *m b), (F l t1 *m a), b; split; first by apply/i1; rewrite /= mulmxA -fd.
    exact/(same_layer _ _ _ _ _ _ u).
  by apply/i2; rewrite /= mulmxA -fd'.
Qed.

Lemma split_ends m wl k ls1 l (f : fin_layer l) t1 t2 k' ls2 (a0 b0 aN bN : 'M[C]_(n + n, m)) :
  allp (okl wl) (k :: ls1) -> okl wl k' -> invertible_modes f ->
  stack_ends ((k :: ls1) ++ [:: (l, t1), (l, t2), k' & ls2]) a0 b0 aN bN <->
  stack_ends ((k :: ls1) ++ [:: (l, t1 + t2)%coqR, k' & ls2]) a0 b0 aN bN.
Proof.
move=> ok1 ok2 u; rewrite !stack_ends_cat.
have S aK bK aK' bK' := @split_interfaces m wl (last k ls1) k' l f t1 t2 aK bK aK' bK' (allp_last ok1) ok2 u.
split.
- case=> aK [bK [a1 [b1 [h1 h2 /stack_ends_cons [a2 [b2 [h3 /stack_ends_cons [a3 [b3 [h4 h5]]]]]]]]]].
  have [|a [b [g1 g2]]] := proj1 (S aK bK a3 b3); first by exists a1, b1, a2, b2; split; [exact: h2|exact: h3|exact: h4].
  exists aK, bK, a, b; split; [exact: h1|exact: g1|].
  by apply/stack_ends_cons; exists a3, b3; split; [exact: g2|exact: h5].
- case=> aK [bK [a1 [b1 [h1 h2 /stack_ends_cons [a3 [b3 [h4 h5]]]]]]].
  have [|a [b [a2 [b2 [g1 g2 g3]]]]] := proj2 (S aK bK a3 b3); first by exists a1, b1; split; [exact: h2|exact: h4].
  exists aK, bK, a, b; split; [exact: h1|exact: g1|].
  apply/stack_ends_cons; exists a2, b2; split; [exact: g2|].
  by apply/stack_ends_cons; exists a3, b3; split; [exact: g3|exact: h5].
Qed.

Lemma zero_interfaces m wl (k k' : layer n) l (f : fin_layer l) (aK bK aK' bK' : 'M[C]_(n + n, m)) :
  okl wl k -> okl wl k' -> invertible_modes f ->
  (exists a b, interface_matched k (aK, bK) (l, 0%coqR) (a, b) /\
     interface_matched (l, 0%coqR) (a, b) k' (aK', bK')) <->
  interface_matched k (aK, bK) k' (aK', bK').
Proof.
move=> [_ [fk]] [_ [fk']] /emat_unit [u1 u2].
rewrite (@interfaceE n m k fk k' fk').
have i1 a b := @interfaceE n m k fk (l, 0%coqR) f (aK, bK) (a, b).
have i2 a b := @interfaceE n m (l, 0%coqR) f k' fk' (a, b) (aK', bK').
split.
- by case=> a [b [/i1 /= [h1 h2] /i2 /=]]; rewrite h1 h2 !phase0 !mul1mx.
- move=> /= [h1 h2].
  pose X := invmx (emat f) *m Et fk (F k.1 k.2 *m aK) bK.
  pose Y := invmx (eigenvectors l) *m Ht k.1 (F k.1 k.2 *m aK) bK.
  have [e1 e2] := proj2 (sum_diff (half *: (X + Y)) (half *: (Y - X)) X Y) (conj erefl erefl).
  exists (half *: (X + Y)), (half *: (Y - X)).
  have g1 : Et f (half *: (X + Y)) (half *: (Y - X)) = Et fk (F k.1 k.2 *m aK) bK.
    by rewrite /Et e1 /X mulKVmx.
  have g2 : Ht l (half *: (X + Y)) (half *: (Y - X)) = Ht k.1 (F k.1 k.2 *m aK) bK.
    by rewrite /Ht e2 /Y mulKVmx.
  by split; [apply/i1|apply/i2]; rewrite /= !phase0 !mul1mx g1 g2.
Qed.

Lemma zero_ends m wl k ls1 l (f : fin_layer l) k' ls2 (a0 b0 aN bN : 'M[C]_(n + n, m)) :
  allp (okl wl) (k :: ls1) -> okl wl k' -> invertible_modes f ->
  stack_ends ((k :: ls1) ++ [:: (l, 0%coqR), k' & ls2]) a0 b0 aN bN <->
  stack_ends ((k :: ls1) ++ [:: k' & ls2]) a0 b0 aN bN.
Proof.
move=> ok1 ok2 u; rewrite !stack_ends_cat.
have S aK bK aK' bK' := @zero_interfaces m wl (last k ls1) k' l f aK bK aK' bK' (allp_last ok1) ok2 u.
split.
- case=> aK [bK [a1 [b1 [h1 h2 /stack_ends_cons [a2 [b2 [h3 h4]]]]]]].
  exists aK, bK, a2, b2; split; [exact: h1| |exact: h4].
  by apply/S; exists a1, b1; split; [exact: h2|exact: h3].
- case=> aK [bK [a1 [b1 [h1 /S [a [b [g1 g2]]] h3]]]].
  exists aK, bK, a, b; split; [exact: h1|exact: g1|].
  by apply/stack_ends_cons; exists a1, b1; split; [exact: g2|exact: h3].
Qed.

(** A stack whose scattering matrix is computed has invertible modes, except in its last layer. *)
Lemma scan_invertible s ls l t k' ls2 s' :
  scan_layers s (ls ++ [:: (l, t), k' & ls2]) = Val s' ->
  forall f : fin_layer l, invertible_modes f.
Proof.
move=> H f; rewrite scan_layers_cat in H; binv H s1 h1; rewrite /= in H.
binv H s2 h2.
case: k' H => l' t' H; binv H s3 h3.
rewrite /append_layer in h2; binv h2 N hN; case: N hN h2 => [[[? ?] ?] ?] hN [h2].
rewrite -h2 /append_layer /= in h3.
binv h3 N' hN'; rewrite /extend_s_matrix in hN'; binv hN' i12 hi.
rewrite /interface_matrices (fl_Oe f) in hi.
rewrite [bind (Val _) _]/= in hi; binv hi x hx; binv hi y hy; binv hi z hz.
by case/solveV: hz.
Qed.
End Split.

(** ** Splitting a layer, failures included *)
Section SplitExact.
Variable n : nat.
Implicit Types (ls : seq (layer n)) (s : scattering_matrix n) (l : layer_solve_result n).
Notation F l d := (diag (phase (eigenvalues l) d)).

Lemma bindA (A B D : Type) (m : res A) (g : A -> res B) (h : B -> res D) :
  bind (bind m g) h = bind m (fun x => bind (g x) h).
Proof. by case: m. Qed.

Lemma interface_self l (f : fin_layer l) : invertible_modes f -> interface_matrices l l = Val (1%:M, 0).
Proof.
move=> u; rewrite /interface_matrices (fl_Oe f) /= /recip ifT; last by apply/forallP=> i; exact: fl_q.
rewrite /invertible_modes in u; rewrite /= /solve u /= mulVmx // colscaleE mulmxA mulVmx // mul1mx.
rewrite rowscaleE diagM; have -> : (\row_i (eigenvalues l 0 i * (map_mx GRing.inv (eigenvalues l)) 0 i)) = const_mx 1.
  by apply/rowP=> i; rewrite !mxE mulfV // fl_q.
by rewrite diag1 addNr scaler0 scalerDr -scalerDl half2 scale1r.
Qed.

Lemma append_split s l (f : fin_layer l) t1 t2 s1 l' t' :
  invertible_modes f -> append_layer s l t1 = Val s1 ->
  (s2 <- append_layer s1 l t2;; append_layer s2 l' t') =
  (s2 <- append_layer s l (t1 + t2)%coqR;; append_layer s2 l' t').
Proof.
move=> u H; rewrite -(append_set_end s l t1 (t1 + t2)%coqR) H /=.
have e1 : end_layer_solve_result s1 = l /\ end_layer_thickness s1 = t1.
  by move: H; rewrite /append_layer; case: extend_s_matrix => //= -[[[? ?] ?] ?] [<-].
case: e1 => e1 e2; rewrite /append_layer {1}e1 /extend_s_matrix (interface_self u) /=.
rewrite !mulmx0 ?mul0mx !subr0 /solve unitmx1 /= invmx1 !mul1mx !mulmx1 ?mul0mx !add0r e1 e2.
case: interface_matrices => [[i1 i2]|] //=.
have -> : (t1 + t2 - t1)%coqR = t2 by lra.
have fd : F l (t1 + t2)%coqR = F l t2 *m F l t1 by rewrite phaseD; congr (diag (phase _ _)); lra.
by rewrite !rowscaleE !colscaleE !mulmxA fd !mulmxA; case: ifP.
Qed.

Lemma scan_split s l (f : fin_layer l) t1 t2 ls1 k' ls2 s' :
  scan_layers s (ls1 ++ [:: (l, t1), (l, t2), k' & ls2]) = Val s' <->
  scan_layers s (ls1 ++ [:: (l, t1 + t2)%coqR, k' & ls2]) = Val s'.
Proof.
have E : invertible_modes f -> scan_layers s (ls1 ++ [:: (l, t1), (l, t2), k' & ls2]) =
         scan_layers s (ls1 ++ [:: (l, t1 + t2)%coqR, k' & ls2]).
  move=> u; rewrite !scan_layers_cat; case: scan_layers => [s0|] //=.
  case E: (append_layer s0 l t1) => [s1|e].
    case: k' => l' t' /=; have := congr1 (fun m => bind m (fun x => scan_layers x ls2)) (append_split t2 l' t' u E).
    by rewrite !bindA.
  by rewrite -(append_set_end s0 l t1 (t1 + t2)%coqR) E.
by split=> H; have u := scan_invertible H f; move: H; rewrite (E u).
Qed.
End SplitExact.

(** ** When scattering matrices are finite *)
Lemma singular_kernel p (T : 'M[C]_p) : T \notin unitmx -> exists2 v : 'cV[C]_p, v != 0 & T *m v = 0.
Proof.
rewrite -unitmx_tr -row_free_unit -kermx_eq0 => /rowV0Pn [v /sub_kermxP e nz].
exists v^T; first by rewrite -trmx0 (inj_eq trmx_inj).
by apply: trmx_inj; rewrite trmx_mul trmxK trmx0.
Qed.

Section Total.
Variable n : nat.
Implicit Types (ls : seq (layer n)) (s : scattering_matrix n) (l : layer_solve_result n).
Notation blocks := ('M[C]_(n + n) * 'M[C]_(n + n) * 'M[C]_(n + n) * 'M[C]_(n + n))%type.

Lemma interface_total l l' (f : fin_layer l) (f' : fin_layer l') : invertible_modes f ->
  exists i12, interface_matrices l l' = Val i12.
Proof.
move=> u; rewrite /interface_matrices (fl_Oe f) /= (fl_Oe f') /= /recip ifT; last first.
  by apply/forallP=> i; exact: fl_q.
by rewrite /invertible_modes in u; rewrite /= /solve u /=; eexists.
Qed.

Lemma extend_total (S : blocks) l l' (f : fin_layer l) (f' : fin_layer l') t t' :
  wavelength l = wavelength l' -> invertible_modes f ->
  (forall b0 aN bN a : 'cV[C]_(n + n), srel S 0 b0 aN bN ->
     interface_matched (l, t) (aN, bN) (l', t') (a, 0) -> a = 0) ->
  exists N, extend_s_matrix S l t l' t' = Val N.
Proof.
move=> wl u hres; rewrite /extend_s_matrix.
have [[i1 i2] hi] := interface_total f' u; rewrite hi /=.
case: S hres => [[[S11 S12] S21] S22] hres.
rewrite /solve; case: ifPn => [_|/singular_kernel [v nz e]]; first by eexists.
exfalso; move/eqP: nz; apply.
have K aN bN := @interface_matricesP n 1 l l' f f' i1 i2 t t' (aN, bN) (v, 0) wl hi.
apply: (hres (S22 *m (i2 *m v)) (S12 *m (i2 *m v)) (i2 *m v)).
  by split; rewrite mulmx0 add0r.
apply/K; rewrite /= !mulmx0 !addr0; split=> //.
move: e; rewrite mulmxBl rowscaleE -!mulmxA => /eqP; rewrite subr_eq0 => /eqP ->.
by [].
Qed.

Definition okm (l : layer n) := forall f : fin_layer l.1, invertible_modes f.

Lemma scan_total wl ls0 s ls :
  allp (okl wl) (ls0 ++ ls) -> allp okm (ls0 ++ ls) -> represents ls0 s ->
  (forall k, (0 < k <= size ls)%N -> forall a b : 'cV[C]_(n + n),
     stack_ends (ls0 ++ take k ls) 0 b a 0 -> a = 0) ->
  exists s', scan_layers s ls = Val s'.
Proof.
elim: ls ls0 s => [|[l t] ls IH] ls0 s; first by eexists.
move=> ok okm' r hres.
have ok0 : allp (okl wl) ls0 by case/allp_cat: ok.
have okl1 : okl wl (l, t) by case/allp_cat: ok => _ [].
have [N hN] : exists s', append_layer s l t = Val s'.
  case: ls0 r ok0 ok okm' hres => [|k ks] r ok0 ok okm' hres; first by case: r.
  have [rel _ he _] := r; have e := he k; rewrite /= in e.
  have [w1 [f1]] := allp_last ok0; rewrite -e /= in w1 f1.
  have [w2 [f2]] := okl1; rewrite /= in w2 f2.
  have u1 : invertible_modes f1.
    have [h _] := proj1 (allp_cat _ _ _) okm'; have := allp_last h; rewrite -e => h'; exact: h'.
  have [||[[[N11 N12] N21] N22] hN] := @extend_total (s11 s, s12 s, s21 s, s22 s) _ _ f1 f2 (end_layer_thickness s) t _ u1.
  - by rewrite w1.
  - move=> b0 aN bN a h1 h2; apply: (hres 1%N isT a b0).
    rewrite /= take0 cats1 -rcons_cons stack_ends_rcons; exists aN, bN.
    by rewrite -e; split; [exact/rel|exact: h2].
  by rewrite /append_layer hN /=; eexists.
rewrite /= hN /=; apply: (IH (rcons ls0 (l, t))); rewrite ?cat_rcons //.
  exact: (append_represents ok0 okl1 r hN).
move=> k /andP[k0 hk] a b; rewrite cat_rcons => h; apply: (hres k.+1 _ a b) => //.
Qed.

Lemma stack_total wl (ls : seq (layer_solve_result n)) ts :
  size ls = size ts -> (0 < size ls)%N ->
  allp (okl wl) (zip ls ts) -> allp okm (zip ls ts) ->
  (forall k, (1 < k <= size ls)%N -> forall a b : 'cV[C]_(n + n),
     stack_ends (take k (zip ls ts)) 0 b a 0 -> a = 0) ->
  exists s, stack_s_matrix ls ts = Val s.
Proof.
move=> sz pos; rewrite -scan_stack /stack_s_matrix_scan sz eqxx /check.
case: ls ts sz pos => [|l0 ls] [|t0 ts] // [sz] _ ok okm' hres.
apply: (@scan_total wl [:: (l0, t0)]) => //; first exact: identity_represents.
move=> k /andP[k0 hk] a b h; apply: (hres k.+1 _ a b) => //.
by rewrite !ltnS k0; move: hk; rewrite size_zip sz minnn.
Qed.

(** Prefixes. *)
Lemma append_layers_scan s ls tl i d : append_layers s ls = Val tl -> (i <= size ls)%N ->
  scan_layers s (take i ls) = Val (nth d (s :: tl) i).
Proof.
elim: ls s tl i => [|[l t] ls IH] s tl [|i] //= H hi; binv H s' h; binv H tl' h'; case: H => <-.
by rewrite h /=; apply: (IH s' tl' i).
Qed.

Lemma take_zip (A B : Type) (s : seq A) (t : seq B) i : take i (zip s t) = zip (take i s) (take i t).
Proof. by elim: s t i => [|x s IH] [|y t] [|i] //=; rewrite ?IH //; case: take. Qed.
Lemma drop_zip (A B : Type) (s : seq A) (t : seq B) i : size s = size t ->
  drop i (zip s t) = zip (drop i s) (drop i t).
Proof. by elim: s t i => [|x s IH] [|y t] [|i] //= [/IH]. Qed.

Lemma stack_prefix (ls : seq (layer_solve_result n)) ts ss i d :
  stack_s_matrices ls ts = Val ss -> (i < size ls)%N ->
  stack_s_matrix (take i.+1 ls) (take i.+1 ts) = Val (nth d ss i).
Proof.
rewrite -scan_stack /stack_s_matrix_scan /stack_s_matrices => H hi; inv1 H.
move/eqP: h => sz; rewrite !size_take -sz eqxx /check -take_zip.
case: ls ts sz hi H => [|l0 ls] [|t0 ts] //= [sz] hi.
case: ls ts sz hi => [|l1 ls] [|t1 ts] //= sz hi.
  by case: i hi => // _ [<-].
rewrite pair_extend => H; binv H s1 h1; binv H tl htl; case: H => <-.
case: i hi => [|i] hi //=; rewrite h1 /=.
by apply: append_layers_scan htl _; case: sz => sz; rewrite size_zip -sz minnn; exact: hi.
Qed.
End Total.

Section Complete.
Variable n : nat.
Lemma complete_invertible (l : layer_solve_result n) (f : fin_layer l) M :
  field_conversion_matrix l = Val M -> M \in unitmx -> invertible_modes f.
Proof.
rewrite (field_conversionE f) => -[<-] u.
have uA : emat f \in unitmx.
  apply: contraT => /singular_kernel [v nz e].
  have : block_mx (emat f) (- emat f) (eigenvectors l) (eigenvectors l) *m col_mx v (- v) = 0.
    by rewrite mul_block_col mulNmx mulmxN opprK e addr0 mulmxN subrr col_mx0.
  move/(congr1 (mulmx (invmx (block_mx (emat f) (- emat f) (eigenvectors l) (eigenvectors l))))).
  by rewrite mulKmx // mulmx0 => /eqP; rewrite col_mx_eq0 (negbTE nz).
move: uA; rewrite /emat unitmx_mul => /andP[]; by [].
Qed.

Lemma completes (ls : seq (layer_solve_result n)) ts :
  finite_fields ls -> complete_modes ls -> allp (@okm n) (zip ls ts).
Proof.
rewrite /finite_fields /complete_modes; elim: ls ts => [|l ls IH] [|t ts] // h1 h2.
split; last by apply: IH => k hk; [apply: h1|apply: h2]; right.
move=> /= f; have [|M hM] := h1 l; first by left.
have u : M \in unitmx by apply: (h2 l) hM; left.
exact: (@complete_invertible l f M hM u).
Qed.
End Complete.

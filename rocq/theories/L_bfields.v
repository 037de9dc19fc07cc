(** Lemmas for amplitudes, flux and fields of batches. *)
From Coq Require Import Reals ZArith FunctionalExtensionality.
From mathcomp Require Import all_ssreflect all_algebra.
From Verif Require Import Tac CField Err LinAlg M_utils M_basis M_fft M_fmm_matrices M_nd M_fmm M_scattering M_fields M_batch M_bstack M_bvector M_bfmm M_bfields
  S_utils P_utils S_fft L_fft S_batch L_batch P_batch L_broadcast P_broadcast S_bstack L_bstack P_bstack S_bvector L_bvector S_bfmm L_bfmm S_bfields.
Set Implicit Arguments. Unset Strict Implicit. Unset Printing Implicit Defensive.
Import GRing.Theory.

Tactic Notation "ns" ident(z) ident(hz) ident(sz) ident(gz) := match goal with |- context [bind (nmap2 ?f ?x ?y) _] =>
  have [z [hz sz gz]] := @ns2 _ _ _ f x y _ ltac:(eassumption) ltac:(eassumption); rewrite hz; cbn [bind] end.

(** ** Shapes *)
Lemma validate_ok n m (xs : seq (batch 'M[C]_(n, m))) B : 0 < n -> 0 < m -> 0 \notin B -> 0 < size xs ->
  (forall x, List.In x xs -> bcto (nshape x) B) -> validate_amplitudes_b xs = Val tt.
Proof.
move=> n0 m0 B0; case: xs => // x xs _ h; rewrite /validate_amplitudes_b /validate_amplitudes_shape; cbv zeta.
have -> : (size (head [::] [seq nshape a ++ [:: n; m] | a <- x :: xs]) < 2) = false.
  by rewrite [head _ _]/= size_cat addn2.
have -> : nth 0 (head [::] [seq nshape a ++ [:: n; m] | a <- x :: xs]) (size (head [::] [seq nshape a ++ [:: n; m] | a <- x :: xs]) - 2) = n.
  by rewrite [head _ _]/= size_cat addnK nth_cat ltnn subnn.
rewrite eqxx; cbn [orb negb].
have hb s : s \in [seq nshape a ++ [:: n; m] | a <- x :: xs] -> bcto s (rcons (rcons B n) m).
  elim: (x :: xs) h => [|y ys ih] h //; rewrite inE => /orP [/eqP ->|/ih]; last by apply=> z hz; apply: h; right.
  rewrite -[[:: n; m]]/([:: n] ++ [:: m]) catA !cats1; apply: bcto_rcons; last by right.
  by apply: bcto_rcons; [apply: h; left|right].
have B0' : 0 \notin rcons (rcons B n) m by rewrite !mem_rcons !in_cons !mem_rcons !in_cons !negb_or; apply/and3P; split=> //; [case: (m) m0|case: (n) n0].
have [hT _] := @C27_broadcastable [seq nshape a ++ [:: n; m] | a <- x :: xs] isT (fun s hs => nonempty_bcto (hb s hs) B0').
have -> : batch_compatible_shapes [seq nshape a ++ [:: n; m] | a <- x :: xs] = Val true.
  apply/hT => s t i hs ht; have [_ /(_ i) h1] := hb _ hs; have [_ /(_ i) h2] := hb _ ht.
  by case: h1 => h1; [left|case: h2 => h2; [right; left|right; right; rewrite -[axis_size s i]/(ax s i) h1]].
by [].
Qed.
Lemma between_rcons S z B p : bcto (rcons S p) z -> bcto z (rcons B p) -> exists s, [/\ z = rcons s p, bcto S s & bcto s B].
Proof.
move=> [h1 h2] [h3 h4]; case: (lastP z) h1 h2 h3 h4 => [|s q] h1 h2 h3 h4; first by rewrite size_rcons in h1.
have eq_p : q = p.
  by move: (h2 0) (h4 0); rewrite !ax_rcons0 => -[e1|e1] [e2|e2] //; rewrite e1.
exists s; split; first by rewrite eq_p.
- by split; [rewrite !size_rcons ltnS in h1|move=> i; have := h2 i.+1; rewrite !ax_rconsS].
- by split; [rewrite !size_rcons ltnS in h3|move=> i; have := h4 i.+1; rewrite !ax_rconsS].
Qed.
Lemma between2 S z B n m : bcto (S ++ [:: n; m]) z -> bcto z (B ++ [:: n; m]) -> exists s, [/\ z = s ++ [:: n; m], bcto S s & bcto s B].
Proof.
rewrite -[[:: n; m]]/([:: n] ++ [:: m]) !catA !cats1 => h1 h2.
have [s [e h3 h4]] := between_rcons h1 h2; have [t [e' h5 h6]] := between_rcons h3 h4.
by exists t; split=> //; rewrite -rcons_cat cats1 e e'.
Qed.
Lemma bcto_cat2 S B n m n' m' : bcto S B -> n = 1 \/ n = n' -> m = 1 \/ m = m' -> bcto (S ++ [:: n; m]) (B ++ [:: n'; m']).
Proof.
move=> h hn hm; rewrite -[[:: n; m]]/([:: n] ++ [:: m]) -[[:: n'; m']]/([:: n'] ++ [:: m']) !catA !cats1.
by apply: bcto_rcons => //; apply: bcto_rcons.
Qed.

(** ** Amplitudes *)
Lemma propagate_gen_ok n m (a : batch 'M[C]_(n + n, m)) d l (B : seq nat) : 0 < n -> 0 < m -> 0 \notin B -> batched_layer l B ->
  bcto (nshape a) B -> bcto (nshape d) (B ++ [:: n + n; m]) ->
  exists z, [/\ propagate_amplitude_b a d l = Val z, bcto (nshape z) B, bcto (nshape a) (nshape z),
      (forall A, nshape (b_eigenvalues l) = A ++ [:: n + n] -> bcto A (nshape z)) &
    forall b a1 (d1 : 'M[R]_(n + n, m)) l1, layer_element l b l1 -> bget a b = Val a1 ->
      (forall i j, bget d (b ++ [:: nat_of_ord i; nat_of_ord j]) = d1 i j) ->
      bget z b = Val (\matrix_(i, j) (a1 i j * cexp (Ci * eigenvalues l1 0 i * RtoC (d1 i j))))%R].
Proof.
move=> n0 m0 B0 wl ca cd; rewrite /propagate_amplitude_b (validate_ok (B := B)) ?addn_gt0 ?n0 //; last by move=> x [<-|].
cbn [bind]; case: (wl) => _ _ _ [[A eA cA] _] _.
have cn : bcto (nshape (newaxis (b_eigenvalues l))) (B ++ [:: n + n; m]).
  by rewrite [nshape _]/= eA -cats1 -catA; apply: bcto_cat2 => //; [right|left].
have ce : bcto (nshape (entries a)) (B ++ [:: n + n; m]) by apply: bcto_cat2 => //; right.
n3 (B ++ [:: n + n; m]) fd hfd cfd e1 e2 gfd; n3 (B ++ [:: n + n; m]) r hr cr e3 e4 gr.
have [s [es h1 h2]] := between2 e3 cr.
have sr : shaped r [:: n + n; m] B by exists s.
have [z [hz cz gz]] := matricesV (0 : C)%R sr; exists z; split=> //.
- by move: hz; rewrite /matrices es trailing2_cat eqxx; cbn [check] => -[<-]; rewrite [nshape _]/= butlast2_cat.
- move=> A' eA'; have e5 := bcto_trans e1 e4; move: e5.
  rewrite [nshape (newaxis _)]/= eA' es -cats1 -catA => -[h3 h4].
  move: hz; rewrite /matrices es trailing2_cat eqxx; cbn [check] => -[<-]; rewrite [nshape _]/= butlast2_cat.
  split; first by rewrite !size_cat !addn2 !ltnS in h3.
  by move=> i; have := h4 i.+2; rewrite -![_ ++ [:: _; _]]/(_ ++ [:: _] ++ [:: _]) !catA !cats1 !ax_rconsS.
move=> b a1 d1 l1 hl ha hd; apply: gz => i j; apply/array_elementE; rewrite gr entries_get ha gfd hd.
rewrite -[[:: nat_of_ord i; nat_of_ord j]]/([:: nat_of_ord i] ++ [:: nat_of_ord j]) catA !cats1 bget_newaxis -!cats1.
by case: hl => _ _ [/(_ i) /array_elementE -> _] _; cbn [bind rmap lift2]; congr Val; rewrite mxE.
Qed.
Lemma propagate_ok n m (a : batch 'M[C]_(n + n, m)) d l (B : seq nat) : 0 < n -> 0 < m -> 0 \notin B -> batched_layer l B ->
  bcto (nshape a) B -> bcto (nshape d) (B ++ [:: 1; m]) ->
  exists z, [/\ propagate_amplitude_b a d l = Val z, bcto (nshape z) B, bcto (nshape a) (nshape z),
      (forall A, nshape (b_eigenvalues l) = A ++ [:: n + n] -> bcto A (nshape z)) &
    forall b a1 (d1 : 'rV[R]_m) l1, layer_element l b l1 -> bget a b = Val a1 -> (forall j, bget d (b ++ [:: 0; nat_of_ord j]) = d1 0%R j) ->
      bget z b = Val (propagate_amplitude a1 d1 l1)].
Proof.
move=> n0 m0 B0 wl ca cd.
have cd' : bcto (nshape d) (B ++ [:: n + n; m]).
  by apply: (bcto_trans cd); apply: bcto_cat2; [exact: bcto_refl|left|right].
have [z [h1 h2 h3 h4 h5]] := propagate_gen_ok n0 m0 B0 wl ca cd'; exists z; split=> // b a1 d1 l1 hl ha hd.
rewrite (h5 b a1 (\matrix_(i, j) d1 0 j)%R l1 hl ha); first by congr Val; apply/matrixP => i j; rewrite !mxE.
move=> i j; rewrite mxE -hd /bget; congr nget; apply: idx_ext => [|k]; first by rewrite !size_bindex.
rewrite !nth_bindex -[[:: 0; _]]/([:: 0] ++ [:: nat_of_ord j]) -[[:: nat_of_ord i; _]]/([:: nat_of_ord i] ++ [:: nat_of_ord j]) !catA !cats1.
case: eqP => // hk; case: k hk => [|k] hk; first by rewrite !rev_rcons.
rewrite !rev_rcons /=; case: k hk => [|k] hk //=; case: hk; case: cd => _ /(_ 1).
by rewrite -[[:: 1; m]]/([:: 1] ++ [:: m]) catA !cats1 ax_rconsS ax_rcons0; case.
Qed.
Lemma colocate_ok n m (f e : batch 'M[C]_(n + n, m)) z l t (B : seq nat) : 0 < n -> 0 < m -> 0 \notin B -> batched_layer l B ->
  bcto (nshape f) B -> bcto (nshape e) B -> bcto (nshape z) (B ++ [:: 1; m]) -> bcto (nshape t) (B ++ [:: 1; m]) ->
  exists x y, [/\ colocate_amplitudes_b f e z l t = Val (x, y), bcto (nshape x) B /\ bcto (nshape y) B,
      bcto (nshape f) (nshape x) /\ bcto (nshape e) (nshape y),
      (forall A, nshape (b_eigenvalues l) = A ++ [:: n + n] -> bcto A (nshape x) /\ bcto A (nshape y)) &
    forall b f1 e1 (z1 : 'rV[R]_m) l1 t1, layer_element l b l1 -> bget f b = Val f1 -> bget e b = Val e1 ->
      (forall j : 'I_m, bget z (b ++ [:: 0; nat_of_ord j]) = z1 0%R j) -> (forall j : 'I_m, bget t (b ++ [:: 0; nat_of_ord j]) = t1) ->
      bget x b = Val (colocate_amplitudes f1 e1 z1 l1 t1).1 /\ bget y b = Val (colocate_amplitudes f1 e1 z1 l1 t1).2].
Proof.
move=> n0 m0 B0 wl cf ce cz ct; rewrite /colocate_amplitudes_b (validate_ok (B := B)) ?addn_gt0 ?n0 //; last by move=> ? [<-|[<-|]].
cbn [bind]; have [x [-> h1 h2 h3 h4]] := propagate_ok n0 m0 B0 wl cf cz; cbn [bind].
have [d [-> cd gd]] := nm2 Rminus ct cz; cbn [bind].
have [y [-> k1 k2 k3 k4]] := propagate_ok n0 m0 B0 wl ce cd; cbn [bind]; exists x, y; split=> //.
  by move=> A hA; split; [exact: h3|exact: k3].
move=> b f1 e1 z1 l1 t1 hl hf he hz ht; split; first exact: h4.
by apply: k4 => // j; rewrite gd ht hz !mxE.
Qed.

(** ** Flux *)
Section Layer.
Variables (n : nat) (A : seq nat) (l : batched_result n).
Hypotheses (n0 : 0 < n) (sl : solve_result l A).
Let wl : batched_layer l A := proj1 sl.
Lemma vectors_full : exists q, [/\ mode_vectors l = Val q, nshape q = A &
  forall b l1, layer_element l b l1 -> bget q b = Val (eigenvectors l1)].
Proof.
have [q [h1 h2 h3]] := vectors_b wl; exists q; split=> //; case: sl => _ [_ _ e _ _].
by move: h1; rewrite /mode_vectors /matrices e trailing2_cat eqxx; cbn [check] => -[<-]; rewrite [nshape _]/= butlast2_cat.
Qed.
Lemma values_full : exists q, [/\ mode_values l = Val q, nshape q = A &
  forall b l1, layer_element l b l1 -> bget q b = Val (eigenvalues l1)].
Proof.
have [q [h1 h2 h3]] := values_b wl; exists q; split=> //; case: sl => _ [_ e _ _ _].
by move: h1; rewrite /mode_values /vectors e size_cat addnK drop_size_cat // eqxx; cbn [check] => -[<-]; rewrite [nshape _]/= butlast1.
Qed.
Lemma a_matrix_ok : exists a, [/\ poynting_flux_a_matrix_b l = Val a, nshape a = A &
  forall b l1 a1, layer_element l b l1 -> poynting_flux_a_matrix l1 = Val a1 -> bget a b = Val a1].
Proof.
have [q [hq sq gq]] := values_full; have [p [hp sp gp]] := vectors_full; have [w [hw cw gw]] := omega_b n0 wl.
rewrite /poynting_flux_a_matrix_b hq hp hw; cbn [bind]; rewrite /bmul /bmap2.
case: (wl) => -[sw ew cw'] _ _ _ _.
have caf : bcto (nshape (nmap angular_frequency (b_wavelength l))) A by rewrite [nshape _]/= ew cats0.
have cq : bcto (nshape q) A by rewrite sq; exact: bcto_refl.
have cp : bcto (nshape p) A by rewrite sp; exact: bcto_refl.
n3 A wq hwq cwq e1 e2 gwq; n3 A x hx cx e3 e4 gx.
set r := pmap _ wq; have cr : bcto (nshape r) A by [].
have [a [-> ca e5 e6 ga]] := nm3 (lift2 (fun (A0 : 'M[C]_(n + n)) r0 => A0 *m diag r0)%R) cx cr.
exists a; split=> //.
  by apply: bcto_anti => //; rewrite -sp; exact: bcto_trans e4 e5.
move=> b l1 a1 hl; rewrite /poynting_flux_a_matrix => H; bv H o ho; bv H w1 hw1; bv H r1 hr1; case: H => <-.
rewrite ga gx (gw _ _ hl) ho (gp _ _ hl) /r bget_pmap gwq (gq _ _ hl) bget_nmap.
case: (hl) => -[/array_elementE -> _ _] _ _ _; rewrite hw1; cbn [bind lift2].
by rewrite hr1.
Qed.
End Layer.
Section Flux.
Variables (n m : nat) (A B : seq nat) (l : batched_result n) (f e : batch 'M[C]_(n + n, m)).
Hypotheses (n0 : 0 < n) (m0 : 0 < m) (B0 : 0 \notin B) (sl : solve_result l A) (cA : bcto A B).
Hypotheses (cf : bcto (nshape f) B) (ce : bcto (nshape e) B).
Lemma amplitude_flux_ok : exists x y, [/\ amplitude_poynting_flux_b f e l = Val (x, y),
    bcto (nshape x) B /\ bcto (nshape y) B,
    (forall s, List.In s [:: A; nshape f; nshape e] -> bcto s (nshape x) /\ bcto s (nshape y)) &
  forall b l1 f1 e1 r1, layer_element l b l1 -> bget f b = Val f1 -> bget e b = Val e1 ->
    amplitude_poynting_flux f1 e1 l1 = Val r1 -> bget x b = Val r1.1 /\ bget y b = Val r1.2].
Proof.
rewrite /amplitude_poynting_flux_b (validate_ok (B := B)) ?addn_gt0 ?n0 //; last by move=> ? [<-|[<-|]].
have [p [-> sp gp]] := vectors_full sl; have [a [-> sa ga]] := a_matrix_ok n0 sl.
cbn [bind]; rewrite /bmul /bhad /badd /bsub /bmap2.
have cp : bcto (nshape p) B by rewrite sp. have ca : bcto (nshape a) B by rewrite sa.
n3 B ah hah cah ea1 ea2 gah; n3 B bh hbh cbh eb1 eb2 gbh; n3 B ae hae cae ec1 ec2 gae; n3 B be hbe cbe ed1 ed2 gbe.
have cah' : bcto (nshape (bconj ah)) B by []; have cbh' : bcto (nshape (bconj bh)) B by [].
have cae' : bcto (nshape (bconj ae)) B by []; have cbe' : bcto (nshape (bconj be)) B by [].
n3 B x1 hx1 cx1 u1 u2 gx1; n3 B x2 hx2 cx2 u3 u4 gx2; n3 B x hx cx u5 u6 gx.
n3 B y1 hy1 cy1 u7 u8 gy1; n3 B y2 hy2 cy2 u9 u10 gy2; n3 B y hy cy u11 u12 gy; n3 B s hs cs u13 u14 gs.
n3 B z1 hz1 cz1 u15 u16 gz1; n3 B z2 hz2 cz2 u17 u18 gz2; n3 B z hz cz u19 u20 gz.
have cy' : bcto (nshape (bconj y)) B by []; have cz' : bcto (nshape (bneg z)) B by [].
n3 B t ht ct u21 u22 gt.
exists (bre (bhalf s)), (bre (bhalf t)); split=> //.
- have ky r : bcto r (nshape y) -> bcto r (nshape s) /\ bcto r (nshape t).
    by move=> h; split; [exact: bcto_trans h u14|exact: bcto_trans h u22].
  move=> r [<-|[<-|[<-|//]]]; apply: ky; apply: bcto_trans u11.
  + by apply: bcto_trans u7; rewrite -sp.
  + exact: bcto_trans ec2 u8.
  + exact: bcto_trans eb2 u7.
move=> b l1 f1 e1 r1 hl hf he; rewrite /amplitude_poynting_flux => H; bv H a1 ha1; case: H => <-.
rewrite /bre /bhalf !bget_bmap gs gt gx gy /bneg !bget_bmap gz gx1 gx2 gy1 gy2 gz1 gz2 !bget_bmap gy gy1 gy2 !bget_bmap.
by rewrite gah gbh gae gbe (gp _ _ hl) (ga _ _ _ hl ha1) hf he.
Qed.
Lemma eigenmode_flux_ok : exists x, [/\ eigenmode_poynting_flux_b l = Val x, nshape x = A &
  forall b l1 r1, layer_element l b l1 -> eigenmode_poynting_flux l1 = Val r1 -> bget x b = Val r1].
Proof.
have [p [hp sp gp]] := vectors_full sl; have [a [ha sa ga]] := a_matrix_ok n0 sl.
rewrite /eigenmode_poynting_flux_b hp ha; cbn [bind]; rewrite /bhad /badd /bmap2.
have cp : nshape p = A by []; have ca : nshape a = A by [].
have cp' : nshape (bconj p) = A by []; have ca' : nshape (bconj a) = A by [].
ns x1 hx1 sx1 gx1; ns x2 hx2 sx2 gx2; ns x hx sx gx.
set fl := bmap _ _; have sf : nshape fl = A by [].
case: (sl) => _ [_ ev _ _ _]; rewrite sf ev eqxx; cbn [check]; exists fl; split=> // b l1 r1 hl.
rewrite /eigenmode_poynting_flux => H; bv H a1 ha1; case: H => <-.
by rewrite /fl !bget_bmap gx gx1 gx2 !bget_bmap (ga _ _ _ hl ha1) (gp _ _ hl).
Qed.
Lemma subset_ok (a p : batch 'M[C]_(n + n)) (f' e' : batch 'M[C]_(n + n, m)) :
  nshape a = A -> nshape p = A -> bcto (nshape f') B -> bcto (nshape e') B ->
  exists z, [/\ poynting_flux_subset_b a p f e f' e' = Val z, bcto (nshape z) B,
      (forall s, List.In s [:: A; nshape f; nshape e] -> bcto s (nshape z)) &
    forall b a1 p1 f1 e1 f1' e1', bget a b = Val a1 -> bget p b = Val p1 -> bget f b = Val f1 -> bget e b = Val e1 ->
      bget f' b = Val f1' -> bget e' b = Val e1' -> bget z b = Val (poynting_flux_subset a1 p1 f1 e1 f1' e1')].
Proof.
move=> sa sp cf' ce'; have cp : bcto (nshape p) B by rewrite sp. have ca : bcto (nshape a) B by rewrite sa.
rewrite /poynting_flux_subset_b /bmul /bhad /badd /bsub /bmap2.
n3 B d hd cd u1 u2 gd; n3 B ad had cad u3 u4 gad; n3 B s hs cs u5 u6 gs; n3 B ps hps cps u7 u8 gps.
have cad' : bcto (nshape (bconj ad)) B by [].
n3 B x hx cx u9 u10 gx; n3 B s' hs' cs' u11 u12 gs'; n3 B ps' hps' cps' u13 u14 gps'; n3 B d' hd' cd' u15 u16 gd'; n3 B ad' had' cad'' u17 u18 gad'.
have cps'' : bcto (nshape (bconj ps')) B by [].
n3 B y hy cy u19 u20 gy; n3 B z hz cz u21 u22 gz; exists (bhalf z); split=> //.
- move=> r hr; apply: bcto_trans u21; apply: bcto_trans u9; rewrite [nshape _]/=.
  by case: hr => [<-|[<-|[<-|//]]]; [rewrite -sa|exact: bcto_trans u1 u4|exact: bcto_trans u2 u4].
move=> b a1 p1 f1 e1 f1' e1' ha hp hf he hf' he'.
by rewrite /bhalf bget_bmap gz gx gy !bget_bmap gad gps gps' gad' gd gs gs' gd' ha hp hf he hf' he'.
Qed.
Lemma directional_flux_ok : exists x y, [/\ directional_poynting_flux_b f e l = Val (x, y),
    bcto (nshape x) B /\ bcto (nshape y) B,
    (forall s, List.In s [:: A; nshape f; nshape e] -> bcto s (nshape x) /\ bcto s (nshape y)) &
  forall b l1 f1 e1 r1, layer_element l b l1 -> bget f b = Val f1 -> bget e b = Val e1 ->
    directional_poynting_flux f1 e1 l1 = Val r1 -> bget x b = Val r1.1 /\ bget y b = Val r1.2].
Proof.
have [p [hp sp gp]] := vectors_full sl; have [a [ha sa ga]] := a_matrix_ok n0 sl; have [v [hv sv gv]] := eigenmode_flux_ok.
rewrite /directional_poynting_flux_b hp ha hv; cbn [bind]; cbv zeta; rewrite /bmap2.
have cv : bcto (nshape v) B by rewrite sv.
n3 B ff hff cff u1 u2 gff; n3 B fb hfb cfb u3 u4 gfb; n3 B bf hbf cbf u5 u6 gbf; n3 B bb hbb cbb u7 u8 gbb.
have [x [-> cx kx gx]] := subset_ok sa sp cff cbf; cbn [bind].
have [y [-> cy ky gy]] := subset_ok sa sp cfb cbb; cbn [bind].
exists (bre x), (bre y); split=> //; first by move=> s hs; split; [exact: kx|exact: ky].
move=> b l1 f1 e1 r1 hl hf he; rewrite /directional_poynting_flux => H; bv H v1 hv1; bv H a1 ha1; case: H => <-.
have hv' := gv _ _ _ hl hv1; have ha' := ga _ _ _ hl ha1; have hp' := gp _ _ hl.
have hff' := gff b; rewrite hv' hf in hff'; cbn [lift2 bind] in hff'.
have hfb' := gfb b; rewrite hv' hf in hfb'; cbn [lift2 bind] in hfb'.
have hbf' := gbf b; rewrite hv' he in hbf'; cbn [lift2 bind] in hbf'.
have hbb' := gbb b; rewrite hv' he in hbb'; cbn [lift2 bind] in hbb'.
rewrite /bre !bget_bmap (gx _ _ _ _ _ _ _ ha' hp' hf he hff' hbf') (gy _ _ _ _ _ _ _ ha' hp' hf he hfb' hbb').
split; cbn [rmap fst snd]; congr (Val (re_mx (poynting_flux_subset _ _ _ _ _ _))); apply/matrixP => i j; rewrite !mxE; case: (Rlt_dec _ _) => [?|?]; exact: erefl.
Qed.
End Flux.

(** ** Fourier fields *)
Lemma conversion_ok n (l : batched_result n) A : 0 < n -> solve_result l A ->
  exists z, [/\ field_conversion_matrix_b l = Val z, nshape z = A &
    forall b l1 r1, layer_element l b l1 -> field_conversion_matrix l1 = Val r1 -> bget z b = Val r1].
Proof.
move=> n0 sl; have [p [hp sp gp]] := vectors_full sl; have [a [ha sa ga]] := a_matrix_ok n0 sl.
rewrite /field_conversion_matrix_b hp ha; cbn [bind].
have [z [-> sz gz]] := bblock_ok sa (sa : nshape (bneg a) = A) sp sp; exists z; split=> // b l1 r1 hl.
rewrite /field_conversion_matrix => H; bv H o ho; bv H w hw; bv H r hr; case: H => <-.
have ha1 : poynting_flux_a_matrix l1 = Val (o *m eigenvectors l1 *m diag r)%R by rewrite /poynting_flux_a_matrix ho; cbn [bind]; rewrite hw; cbn [bind]; rewrite hr.
by rewrite gz /bneg bget_bmap (ga _ _ _ hl ha1) (gp _ _ hl).
Qed.
Lemma wave_fields_ok n m (f e : batch 'M[C]_(n + n, m)) l A B : 0 < n -> 0 < m -> 0 \notin B -> solve_result l A -> bcto A B ->
  bcto (nshape f) B -> nshape e = nshape f ->
  exists g s, [/\ fields_from_wave_amplitudes_b f e l = Val g, fields_shaped g s, bcto s B, bcto A s /\ bcto (nshape f) s &
    forall b l1 f1 e1 r1, solve_element l b l1 -> bget f b = Val f1 -> bget e b = Val e1 ->
      fields_from_wave_amplitudes f1 e1 l1 = Val r1 -> fields_element g b r1].
Proof.
move=> n0 m0 B0 sl cA cf se.
rewrite /fields_from_wave_amplitudes_b (validate_ok (B := B)) ?addn_gt0 ?n0 //; last by move=> ? [<-|[<-|]] //; rewrite se.
have [c [-> sc gc]] := conversion_ok n0 sl; cbn [bind]; rewrite se eqxx; cbn [check]; rewrite /bmul /brow /bsub /bmap2.
have ef : nshape f = nshape f by [].
ns a ha sa ga.
have cc : bcto (nshape c) B by rewrite sc. have ca : bcto (nshape a) B by rewrite sa.
n3 B d hd cd u1 u2 gd.
set ey := bmap (fun f0 : 'M[C]_((n + n) + (n + n), m) => - usubmx (usubmx f0))%R d.
set ex := bmap (fun f0 : 'M[C]_((n + n) + (n + n), m) => dsubmx (usubmx f0)) d.
set hx := bmap (fun f0 : 'M[C]_((n + n) + (n + n), m) => usubmx (dsubmx f0)) d.
set hy := bmap (fun f0 : 'M[C]_((n + n) + (n + n), m) => dsubmx (dsubmx f0)) d.
case: (sl) => wl [_ _ _ sp sm].
have [k [kx [ky [-> [hkx hky] [ckx sky] gk]]]] := wavevectors_b n0 wl; cbn [bind]; rewrite hkx hky; cbn [bind]; cbv zeta.
have [ip [-> cip gip]] := matricesV (0 : C)%R sp; have [im [-> cim gim]] := matricesV (0 : C)%R sm; cbn [bind].
have uA : bcto A (nshape d) by rewrite -sc.
have cex : bcto (nshape ex) (nshape d) by exact: bcto_refl. have cey : bcto (nshape ey) (nshape d) by exact: bcto_refl.
have chx : bcto (nshape hx) (nshape d) by exact: bcto_refl. have chy : bcto (nshape hy) (nshape d) by exact: bcto_refl.
set ikx := bmap _ kx; set iky := bmap _ ky.
have cix : bcto (nshape ikx) (nshape d) by exact: bcto_trans ckx uA.
have ciy : bcto (nshape iky) (nshape d) by rewrite [nshape _]/= sky; exact: bcto_trans ckx uA.
n3 (nshape d) a1 ha1 ca1 w1 w2 ga1; n3 (nshape d) b1 hb1 cb1 w3 w4 gb1; n3 (nshape d) c1 hc1 cc1 w5 w6 gc1.
have cip' : bcto (nshape (bneg ip)) (nshape d) by exact: bcto_trans cip uA.
have cim' : bcto (nshape im) (nshape d) by exact: bcto_trans cim uA.
n3 (nshape d) z1 hz1 cz1 w7 w8 gz1.
set r := pmap _ _; have cr : bcto (nshape r) (nshape d).
  by case: (wl) => -[sw ew cw'] _ _ _ _; apply: bcto_trans uA; rewrite [nshape _]/= ew cats0.
n3 (nshape d) ez hez cez w9 w10 gez.
n3 (nshape d) a2 ha2 ca2 w11 w12 ga2; n3 (nshape d) b2 hb2 cb2 w13 w14 gb2; n3 (nshape d) c2 hc2 cc2 w15 w16 gc2.
n3 (nshape d) z2 hz2 cz2 w17 w18 gz2; n3 (nshape d) hz hhz chz w19 w20 ghz.
have sez : nshape ez = nshape d.
  by apply: bcto_anti => //; exact: (bcto_trans w2 (bcto_trans w5 (bcto_trans w8 w9))).
have shz : nshape hz = nshape d.
  by apply: bcto_anti => //; exact: (bcto_trans w12 (bcto_trans w15 (bcto_trans w18 w19))).
rewrite sez shz -[nshape ex]/(nshape d) eqxx; cbn [andb check]; exists (Fields ex ey ez hx hy hz), (nshape d); split=> //.
- by split=> //; rewrite -sa.
move=> b l1 f1 e1 r1 [hl hip _ him _] hf he; rewrite /fields_from_wave_amplitudes => H; bv H mx hmx; bv H k1 hk1; bv H w hw; bv H rc hrc; case: H => <-.
have [gkx gky] := gk _ _ hl; rewrite hk1 in gkx gky; cbn [rmap] in gkx; cbn [rmap] in gky.
have gd' : bget d b = Val (mx *m col_mx f1 e1)%R by rewrite gd (gc _ _ _ hl hmx) ga hf he.
have gr : bget r b = Val rc.
  by rewrite /r bget_pmap bget_nmap; case: (hl) => -[/array_elementE -> _ _] _ _ _; rewrite hw.
split; [split|..]; apply/array_elementE; cbn [f_ex f_ey f_ez f_hx f_hy f_hz].
- by rewrite /ex bget_bmap gd'.
- by rewrite /ey bget_bmap gd'.
- by rewrite gez gz1 gc1 ga1 gb1 gr /bneg /ikx /iky /hx /hy !bget_bmap gkx gky gd' (gip _ _ hip).
- by rewrite /hx bget_bmap gd'.
- by rewrite /hy bget_bmap gd'.
- by rewrite ghz gz2 gc2 ga2 gb2 gr /ikx /iky /ex /ey !bget_bmap gkx gky gd' (gim _ _ him).
Qed.

(** ** Fields on real-space points *)
Lemma mapM6 T U (F : batch T -> res (batch U)) (R : seq nat -> T -> U -> Prop) S (f : fields6 (batch T)) : fields_shaped f S ->
  (forall x, nshape x = S -> exists z, [/\ F x = Val z, nshape z = S & forall b a c, bget x b = Val a -> R b a c -> bget z b = Val c]) ->
  exists g, [/\ fields6_mapM F f = Val g, fields_shaped g S &
    forall b f1 g1, fields_element f b f1 -> R b (f_ex f1) (f_ex g1) -> R b (f_ey f1) (f_ey g1) -> R b (f_ez f1) (f_ez g1) ->
      R b (f_hx f1) (f_hx g1) -> R b (f_hy f1) (f_hy g1) -> R b (f_hz f1) (f_hz g1) -> fields_element g b g1].
Proof.
case=> -[e1 e2] e3 e4 e5 e6 h; rewrite /fields6_mapM.
have [z1 [-> s1 g1]] := h _ e1; have [z2 [-> s2 g2]] := h _ e2; have [z3 [-> s3 g3]] := h _ e3.
have [z4 [-> s4 g4]] := h _ e4; have [z5 [-> s5 g5]] := h _ e5; have [z6 [-> s6 g6]] := h _ e6.
cbn [bind]; exists (Fields z1 z2 z3 z4 z5 z6); split=> //.
move=> b f1 k [[/array_elementE h1 /array_elementE h2] /array_elementE h3 /array_elementE h4 /array_elementE h5 /array_elementE h6] r1 r2 r3 r4 r5 r6.
split; [split|..]; apply/array_elementE.
- exact: g1 h1 r1.
- exact: g2 h2 r2.
- exact: g3 h3 r3.
- exact: g4 h4 r4.
- exact: g5 h5 r5.
- exact: g6 h6 r6.
Qed.
Lemma validate6 n m (f : fields6 (batch 'M[C]_(n, m))) S : 0 < n -> 0 < m -> 0 \notin S -> fields_shaped f S ->
  validate_amplitudes_b (fields6_seq f) = Val tt.
Proof.
move=> n0 m0 S0 [[e1 e2] e3 e4 e5 e6]; apply: (validate_ok (B := S)) => //.
by move=> x [<-|[<-|[<-|[<-|[<-|[<-|//]]]]]]; rewrite ?e1 ?e2 ?e3 ?e4 ?e5 ?e6; exact: bcto_refl.
Qed.
Lemma pairs_get (x : nd R) s b : nshape x = s ++ [:: 2] ->
  bget (pairs x) b = (bget x (b ++ [:: 0]), bget x (b ++ [:: 1])).
Proof.
move=> e; rewrite /bget /pairs; cbn [nshape nget]; rewrite e butlast1 !bindex_cat1 // !cats1.
by [].
Qed.
Lemma pairs_lattice (u : nd R) b : one_lattice u -> bget (pairs u) b = the_vector u.
Proof.
move=> h; rewrite (pairs_get b (esym h)) /bget -h !bindex_cat1 // /the_vector.
by rewrite bindex_ones.
Qed.
Lemma grid_fields_ok n (shape cells : nat * nat) :
  slice_elementwise (fun m f (l : batched_result n) => fields_on_grid_b f l shape cells) (fun m f l1 => fields_on_grid f l1 shape cells)
    (fun expn => validate_shape_for_expansion shape expn = Val tt).
Proof.
move=> m f l A S n0 m0 S0 [wl fl] cA sf vs; rewrite /fields_on_grid_b (validate6 n0 m0 S0 sf); cbn [bind].
case: (wl) => _ [kb ek ck] [hu hv eu ev] _ _; rewrite /unit_cell_coordinates_b.
have dk : ndim (b_in_plane_wavevector l) = (size kb).+1 by rewrite /ndim ek size_cat addn1.
have su (u : nd R) : one_lattice u -> ndim u = ndim (b_in_plane_wavevector l) -> nshape (pairs u) = nseq (size kb) 1.
  by move=> h e; rewrite [nshape _]/= -h butlast1 e dk.
have [xy [-> sxy gxy]] := ns2 (fun (a b : R * R) (p : grid_point shape cells) => unit_cell_coordinate (Lattice a b) shape p.1 p.2)
  (su _ hu eu) (su _ hv ev); cbn [bind].
have ck' : bcto (nshape (pairs (b_in_plane_wavevector l))) S by rewrite [nshape _]/= ek butlast1; exact: bcto_trans ck cA.
have cxy : bcto (nshape xy) S.
  rewrite sxy; split=> [|i]; last by left; rewrite ax_nseq1.
  by rewrite size_nseq; case: (bcto_trans ck cA).
nm ph hph cph gph; rewrite vs; cbn [bind].
set F := fun x : batch 'M[C]_(n, m) => nmap2 _ x ph.
pose Rel b (a : 'M[C]_(n, m)) (c : xyfield (grid_point shape cells) m) := forall p j,
  c p j = (mxget (ifft_values (col j a) (b_expansion l) shape.1 shape.2) (p.1 %% shape.1) (p.2 %% shape.2) * bget ph b p)%R.
have [|g [hg sg gg]] := @mapM6 _ _ F Rel S f sf.
  move=> x sx; have [z [hz cz e1 _ gz]] := nm3 (fun (a : res 'M[C]_(n, m)) (ph : grid_point shape cells -> C) =>
      rmap (fun a (p : grid_point shape cells) (j : 'I_m) =>
        (mxget (ifft_values (col j a) (b_expansion l) shape.1 shape.2) (p.1 %% shape.1) (p.2 %% shape.2) * ph p)%R) a)
     (x := x) (B := S) (eq_ind_r (fun s => bcto s S) (bcto_refl S) sx) cph.
  exists z; split=> //; first by apply: bcto_anti => //; rewrite -{1}sx.
  move=> b a c ha hc; rewrite gz ha; cbn [rmap]; congr Val; apply: functional_extensionality => p; apply: functional_extensionality => j.
  by rewrite hc.
rewrite -/F hg; cbn [bind]; exists g, xy; split=> // b f1 l1 r1 hf hl.
case: (hl) => -[_ /array_elementE hk1 /array_elementE hk2] [hl1 he] _ _.
have gxy' : bget xy b = (fun p : grid_point shape cells => unit_cell_coordinate (primitive_lattice_vectors l1) shape p.1 p.2).
  by rewrite gxy !pairs_lattice // hl1.
have gph' : bget ph b = (fun p : grid_point shape cells => cexp (Ci * RtoC ((in_plane_wavevector l1).1 * (unit_cell_coordinate (primitive_lattice_vectors l1) shape p.1 p.2).1
   + (in_plane_wavevector l1).2 * (unit_cell_coordinate (primitive_lattice_vectors l1) shape p.1 p.2).2)%coqR))%R.
  by rewrite gph gxy' (pairs_get b ek) hk1 hk2.
rewrite /fields_on_grid /fields6_mapM he vs; cbn [bind] => -[<-]; split; last by apply/array_elementE; rewrite gxy'.
by apply: (gg b f1) => //; cbn [fst f_ex f_ey f_ez f_hx f_hy f_hz] => p j; rewrite gph'.
Qed.
Lemma coordinate_fields_ok n p (x y : 'I_p -> R) :
  slice_elementwise (fun m f (l : batched_result n) => fields_on_coordinates_b f l x y) (fun m f l1 => fields_on_coordinates f l1 x y)
    (fun=> True).
Proof.
move=> m f l A S n0 m0 S0 [wl fl] cA sf _; rewrite /fields_on_coordinates_b (validate6 n0 m0 S0 sf); cbn [bind].
have [k [kx [ky [-> [hkx hky] [ckx sky] gk]]]] := wavevectors_b n0 wl; cbn [bind]; rewrite hkx hky; cbn [bind].
have cx : bcto (nshape kx) S by exact: bcto_trans ckx cA. have cy : bcto (nshape ky) S by rewrite sky.
have sx : nshape (f_ex f) = S by case: sf => -[].
set F := fun z : batch 'M[C]_(n, m) => bind _ _.
pose Rel b (a : 'M[C]_(n, m)) (c : xyfield 'I_p m) := forall k1 k2 : 'rV[R]_n, bget kx b = Val k1 -> bget ky b = Val k2 ->
  c = (fun pt j => \sum_i a i j * cexp (Ci * RtoC (k1 0%R i * x pt + k2 0%R i * y pt)%coqR))%R.
have [|g [hg sg gg]] := @mapM6 _ _ F (fun b a c => Rel b a c /\ exists k1 k2, bget kx b = Val k1 /\ bget ky b = Val k2) S f sf.
  move=> z sz; rewrite /F /bmap2; nm ph hph cph gph.
  have cz : bcto (nshape z) S by rewrite sz; exact: bcto_refl.
  n3 S w hw cw e1 e2 gw.
  have sw : nshape w = S by apply: bcto_anti => //; rewrite -{1}sz.
  rewrite sw sx eqxx; cbn [check]; exists w; split=> // b a c ha [hc [k1 [k2 [h1 h2]]]].
  by rewrite gw ha gph h1 h2 (hc _ _ h1 h2).
rewrite -/F hg; cbn [bind]; exists g, (Nd [::] (fun=> fun pt => (x pt, y pt))); split=> // b f1 l1 r1 hf hl.
rewrite /fields_on_coordinates => H; bv H k1 hk1; case: H => <-; split; last by [].
have [h1 h2] := gk b l1 hl; rewrite hk1 in h1 h2; cbn [rmap] in h1; cbn [rmap] in h2.
have rel a : Rel b a (fun pt j => \sum_i a i j * cexp (Ci * RtoC (k1.1 0%R i * x pt + k1.2 0%R i * y pt)%coqR))%R.
  by move=> k2 k3; rewrite h1 h2 => -[<-] [<-].
have ex : exists k1 k2, bget kx b = Val k1 /\ bget ky b = Val k2 by exists k1.1, k1.2.
by apply: (gg b f1) => //; split=> //; exact: rel.
Qed.

(** ** Amplitudes inside a stack *)
Lemma interior_ok n m (p q : batched_s_matrix n) (f e : batch 'M[C]_(n + n, m)) (B : seq nat) : 0 < n -> 0 < m -> 0 \notin B ->
  bcto (nshape (bs11 p)) B -> bcto (nshape (bs12 p)) B -> bcto (nshape (bs21 q)) B -> bcto (nshape (bs22 q)) B ->
  bcto (nshape f) B -> bcto (nshape e) B ->
  exists x y, [/\ amplitudes_interior_b p q f e = Val (x, y), bcto (nshape x) B /\ bcto (nshape y) B,
      (forall s, List.In s [:: nshape f; nshape e] -> bcto s (nshape x) /\ bcto s (nshape y)) &
    forall b p1 q1 f1 e1 r1, s_matrix_element p b (Val p1) -> s_matrix_element q b (Val q1) -> bget f b = Val f1 -> bget e b = Val e1 ->
      amplitudes_interior p1 q1 f1 e1 = Val r1 -> bget x b = Val r1.1 /\ bget y b = Val r1.2].
Proof.
move=> n0 m0 B0 c11 c12 c21 c22 cf ce.
rewrite /amplitudes_interior_b (validate_ok (B := B)) ?addn_gt0 ?n0 //; last by move=> ? [<-|[<-|]].
cbn [bind]; rewrite /bmul /bsolve /badd /bmap2 /pmap2.
n3 B a ha ca u1 u2 ga; n3 B c hc cc u3 u4 gc; n3 B c' hc' cc' u5 u6 gc'; n3 B r hr cr u7 u8 gr; n3 B k hk ck u9 u10 gk.
set mat := bmap _ k; have cmat : bcto (nshape mat) B by [].
n3 B x hx cx u11 u12 gx; n3 B d hd cd u13 u14 gd; n3 B g hg cg u15 u16 gg; n3 B y hy cy u17 u18 gy.
exists x, y; split=> //.
- have kr s : bcto s (nshape r) -> bcto s (nshape x) /\ bcto s (nshape y).
    move=> h; have h' := bcto_trans h u12; split=> //; exact: (bcto_trans h' (bcto_trans u14 u17)).
  move=> s [<-|[<-|//]]; apply: kr; [exact: bcto_trans u2 u7|exact: bcto_trans u6 u8].
move=> b p1 q1 f1 e1 r1 [/array_elementE p11 /array_elementE p12 _ _] [_ _ /array_elementE q21 /array_elementE q22] hf he.
rewrite /amplitudes_interior => H; bv H x1 hx1; case: H => <-.
have gx' : bget x b = Val x1.
  by rewrite gx gr /mat bget_bmap ga gc' gc gk p11 p12 q21 q22 hf he; cbn [lift2 bind rmap].
by split=> //; rewrite gy gd gg gx' q21 q22 he.
Qed.

(** ** Fields in three dimensions *)
Lemma broadcast_least S T sh B : broadcast_shapes S T = Val sh -> bcto S B -> bcto T B -> bcto sh B.
Proof. by move=> h c1 c2; have [sh' h' c] := broadcast_ok c1 c2; move: h'; rewrite h => -[->]. Qed.
Lemma scalar_bcto B : bcto [::] B. Proof. by split=> // i; left; rewrite /ax nth_nil. Qed.
Section Layers.
Variables (n m : nat) (P : Type) (fn : fields_xy_slice_fn_b n P) (fn1 : fields_xy_slice_fn n P) (valid : n.-tuple (Z * Z) -> Prop).
Variable (B : seq nat).
Hypotheses (hfn : slice_elementwise fn fn1 valid) (n0 : 0 < n) (m0 : 0 < m) (B0 : 0 \notin B).
Lemma layer_fields_ok (f e : batch 'M[C]_(n + n, m)) l t znum A : solve_result l A -> valid (b_expansion l) -> bcto A B ->
  bcto (nshape f) B -> nshape e = nshape f -> nshape t = [::] -> 0 < znum ->
  exists g xy z s, [/\ layer_fields_3d_b fn f e l t znum = Val (g, xy, z), fields_shaped g s,
      bcto s B /\ z = [seq linspace0 (nget t [::]) znum i | i <- iota 0 znum], bcto A s /\ bcto (nshape f) s &
    forall b f1 e1 l1 gs1 xy1 z1, solve_element l b l1 -> bget f b = Val f1 -> bget e b = Val e1 ->
      layer_fields_3d_gen fn1 f1 e1 l1 (nget t [::]) znum = Val (gs1, xy1, z1) ->
      [/\ fields_element g b (field_lists gs1), array_element xy b xy1 & z1 = z]].
Proof.
move=> sl vl cA cf se st z0; rewrite /layer_fields_3d_b se eqxx; cbn [check]; cbv zeta.
set zn := Nd (znum :: 1 :: nshape t) _.
have czn : bcto (nshape zn) [:: znum; m].
  by rewrite [nshape zn]/= st; apply: (@bcto_cat2 [::] [::] znum 1 znum m); [exact: bcto_refl|right|left].
have [zb -> [szb gzb]] := broadcast_to_ok czn; cbn [bind].
set zf := Nd [:: znum * m] _.
have zm0 : 0 < znum * m by rewrite muln_gt0 z0.
have [sh hsh csh] := broadcast_ok cA cf; have [_ _ c1 c2] := broadcast_shapesV hsh.
have sh0 : 0 \notin sh by exact: nonempty_bcto csh B0.
have wl : batched_layer l sh by exact: layer_trans (proj1 sl) c1.
set ff := bmap _ f; set fe := bmap _ e.
have cff : bcto (nshape ff) sh by []; have cfe : bcto (nshape fe) sh by rewrite [nshape _]/= se.
have czf : bcto (nshape zf) (sh ++ [:: 1; znum * m]).
  rewrite [nshape zf]/=; rewrite -[[:: 1; znum * m]]/([:: 1] ++ [:: znum * m]) catA cats1 -[[:: znum * m]]/(rcons [::] (znum * m)).
  by apply: bcto_rcons; [exact: scalar_bcto|right].
have ct : bcto (nshape t) (sh ++ [:: 1; znum * m]) by rewrite st; exact: scalar_bcto.
have [x [y [-> [cx cy] [fx ey] ka gxy]]] := colocate_ok n0 zm0 sh0 wl cff cfe czf ct; cbn [bind].
case: (sl) => _ [_ ev _ _ _]; have [ax' ay'] := ka _ ev.
have sx : nshape x = sh by apply: bcto_anti => //; exact: broadcast_least hsh ax' fx.
have sy : nshape y = sh by apply: bcto_anti => //; apply: broadcast_least hsh ay' _; rewrite -se.
have cx' : bcto (nshape x) sh by []. have syx : nshape y = nshape x by rewrite sx.
have [g [s [-> sg cs [as' xs] gg]]] := wave_fields_ok n0 zm0 sh0 sl c1 cx' syx; cbn [bind].
have es : s = sh by apply: bcto_anti => //; rewrite -sx.
rewrite {}es in sg cs as' xs.
have [h [xy [-> [[s1 s2] s3 s4 s5 s6] gh]]] := hfn n0 zm0 sh0 sl c1 sg vl; cbn [bind].
rewrite s1 s2 s3 s4 s5 s6 eqxx; cbn [andb check].
set U := fun z : batch (xyfield P (znum * m)) => bmap _ z.
exists (fields6_map U h), xy, [seq linspace0 (nget t [::]) znum i | i <- iota 0 znum], sh; split=> //.
move=> b f1 e1 l1 gs1 xy1 z1 hl hf he; rewrite /layer_fields_3d_gen /colocate_amplitudes => H.
bv H g1 hg1; bv H r1 hr1; case: r1 hr1 H => r1 rxy hr1 [<- <- <-].
have hff : bget ff b = Val (\matrix_(i, c) f1 i (flat_b c) : 'M[C]_(n + n, znum * m))%R by rewrite /ff bget_bmap hf.
have hfe : bget fe b = Val (\matrix_(i, c) e1 i (flat_b c) : 'M[C]_(n + n, znum * m))%R by rewrite /fe bget_bmap he.
pose zr := (\row_c nth 0%coqR [seq linspace0 (nget t [::]) znum i | i <- iota 0 znum] (@flat_z znum m c))%R.
have hzr : forall j : 'I_(znum * m), bget zf (b ++ [:: 0; nat_of_ord j]) = zr 0%R j.
  move=> j; rewrite mxE /flat_z.
  have dj : j %/ m < znum by rewrite ltn_divLR.
  rewrite (nth_map 0) ?size_iota // nth_iota // add0n.
  rewrite /bget [nshape zf]/= -[[:: 0; nat_of_ord j]]/([:: 0] ++ [:: nat_of_ord j]) catA -[[:: znum * m]]/([::] ++ [:: znum * m]).
  rewrite bindex_cat1 // /zf [bindex [::] _]/=; cbn [nget cat head]; rewrite gzb /bget [nshape zn]/= st.
  have -> : bindex [:: znum; 1] [:: j %/ m; j %% m] = [:: j %/ m; 0].
    rewrite -[[:: znum; 1]]/(rcons (rcons [::] znum) 1) -[[:: j %/ m; _]]/(rcons (rcons [::] (j %/ m)) (j %% m)) !bindex_rcons.
    by rewrite /=; case: eqP => [e'|//]; move: dj; rewrite {2}e' ltnS leqn0 => /eqP ->.
  by [].
have ht : forall j : 'I_(znum * m), bget t (b ++ [:: 0; nat_of_ord j]) = nget t [::] by move=> j; rewrite /bget st.
have [lx ly] := gxy b _ _ zr l1 (nget t [::]) (let: And5 a _ _ _ _ := hl in a) hff hfe hzr ht.
have hg := gg b l1 _ _ g1 hl lx ly hg1.
have [h1 h2] := gh b g1 l1 (r1, rxy) hg (let: And5 a _ _ _ _ := hl in a) hr1; split=> //.
case: h1 => -[/array_elementE k1 /array_elementE k2] /array_elementE k3 /array_elementE k4 /array_elementE k5 /array_elementE k6.
by split; [split|..]; apply/array_elementE; cbn [fields6_map f_ex f_ey f_ez f_hx f_hy f_hz field_lists fst]; rewrite /U bget_bmap ?k1 ?k2 ?k3 ?k4 ?k5 ?k6; cbn [rmap]; congr Val; elim: (enum _) => [|? ? /= ->].
Qed.
Lemma concat_ok T (g h : fields6 (batch (seq T))) S : fields_shaped g S -> fields_shaped h S ->
  exists c, [/\ fields6_concat g h = Val c, fields_shaped c S &
    forall b gs hs, fields_element g b (field_lists gs) -> fields_element h b (field_lists hs) -> fields_element c b (field_lists (gs ++ hs))].
Proof.
have one (x y : batch (seq T)) : nshape x = S -> nshape y = S -> exists z, [/\ bconcat x y = Val z, nshape z = S &
    forall b u v, bget x b = Val u -> bget y b = Val v -> bget z b = Val (u ++ v)].
  move=> ex ey; rewrite /bconcat ex ey eqxx; cbn [check]; eexists; split; [by reflexivity|by []|].
  by move=> b u v; rewrite /bget ex ey; cbn [nshape nget] => -> ->.
case=> -[e1 e2] e3 e4 e5 e6 [[d1 d2] d3 d4 d5 d6]; rewrite /fields6_concat.
have [z1 [-> s1 g1]] := one _ _ e1 d1; have [z2 [-> s2 g2]] := one _ _ e2 d2; have [z3 [-> s3 g3]] := one _ _ e3 d3.
have [z4 [-> s4 g4]] := one _ _ e4 d4; have [z5 [-> s5 g5]] := one _ _ e5 d5; have [z6 [-> s6 g6]] := one _ _ e6 d6.
cbn [bind]; exists (Fields z1 z2 z3 z4 z5 z6); split=> // b gs hs.
case=> -[/array_elementE a1 /array_elementE a2] /array_elementE a3 /array_elementE a4 /array_elementE a5 /array_elementE a6.
case=> -[/array_elementE b1 /array_elementE b2] /array_elementE b3 /array_elementE b4 /array_elementE b5 /array_elementE b6.
split; [split|..]; apply/array_elementE; cbn [field_lists f_ex f_ey f_ez f_hx f_hy f_hz]; rewrite map_cat.
- exact: g1.
- exact: g2.
- exact: g3.
- exact: g4.
- exact: g5.
- exact: g6.
Qed.
Definition layer_good (x : batch 'M[C]_(n + n, m) * batch 'M[C]_(n + n, m) * batched_result n * nd R * nat) :=
  [/\ nshape x.1.1.1.1 = B /\ nshape x.1.1.1.2 = B, exists2 A, solve_result x.1.1.2 A & bcto A B, valid (b_expansion x.1.1.2),
      nshape x.1.2 = [::] & 0 < x.2].
Definition layer_of b (x : batch 'M[C]_(n + n, m) * batch 'M[C]_(n + n, m) * batched_result n * nd R * nat)
    (y : 'M[C]_(n + n, m) * 'M[C]_(n + n, m) * layer_solve_result n * R * nat) :=
  [/\ bget x.1.1.1.1 b = Val y.1.1.1.1, bget x.1.1.1.2 b = Val y.1.1.1.2, solve_element x.1.1.2 b y.1.1.2, nget x.1.2 [::] = y.1.2 & x.2 = y.2].
Lemma loop_ok ls z0 : List.Forall layer_good ls ->
  exists og z, [/\ stack_fields_3d_loop_b fn z0 ls = Val (og, z),
     ls = [::] -> og = None,
     ls <> [::] -> exists g xy, og = Some (g, xy) /\ fields_shaped g B &
     forall b ls1 gs1 oxy z1, List.Forall2 (layer_of b) ls ls1 -> stack_fields_3d_loop fn1 z0 ls1 = Val (gs1, oxy, z1) ->
       z1 = z /\ match og with
                 | None => oxy = None
                 | Some (g, xy) => fields_element g b (field_lists gs1) /\ exists2 xy1, oxy = Some xy1 & array_element xy b xy1
                 end].
Proof.
elim: ls z0 => [|[[[[f e] l] t] znum] ls ih] z0 hls.
  by exists None, [::]; split=> // b ls1 gs1 oxy z1 /forall2_size; case: ls1 => //= _ [_ <- <-].
have [hg hls'] : layer_good (f, e, l, t, znum) /\ List.Forall layer_good ls by inversion hls.
case: hg => -[sf se] [A sl cA] vl st zn0; cbn [fst snd] in *.
have cf : bcto (nshape f) B by rewrite sf; exact: bcto_refl.
have see : nshape e = nshape f by rewrite se sf.
have [g [xy [z [s [hl sg [cs ez] [as' fs] gg]]]]] := layer_fields_ok sl vl cA cf see st zn0.
have esB : s = B by apply: bcto_anti => //; rewrite -sf.
rewrite {}esB in sg cs as' fs.
have [og [zs [hr hn hc gr]]] := ih (z0 + nget t [::])%coqR hls'.
cbn [stack_fields_3d_loop_b]; rewrite hl; cbn [bind]; rewrite hr; cbn [bind].
have key b ls1 gs1 oxy z1 : List.Forall2 (layer_of b) ((f, e, l, t, znum) :: ls) ls1 -> stack_fields_3d_loop fn1 z0 ls1 = Val (gs1, oxy, z1) ->
   exists ga xya gb oxyb, [/\ gs1 = ga ++ gb, fields_element g b (field_lists ga) /\ array_element xy b xya,
     oxy = (match oxyb with None => Some xya | Some xy' => Some xy' end), z1 = [seq (z + z0)%coqR | z <- z] ++ zs &
     match og with None => oxyb = None /\ gb = [::]
       | Some (g, xy) => fields_element g b (field_lists gb) /\ exists2 xy1, oxyb = Some xy1 & array_element xy b xy1 end].
  move=> h2; case: ls1 h2 => [|[[[[f1 e1] l1] t1] zn1] ls1] h2; first by inversion h2.
  have [h3 h4] : layer_of b (f, e, l, t, znum) (f1, e1, l1, t1, zn1) /\ List.Forall2 (layer_of b) ls ls1 by inversion h2.
  case: h3; cbn [fst snd] => hf he hl1 ht hz; subst t1 zn1.
  cbn [stack_fields_3d_loop] => H; bv H r1 hr1; case: r1 hr1 H => -[ga xya] za hr1 H; bv H r2 hr2; case: r2 hr2 H => -[gb oxyb] zb hr2 [<- <- <-].
  have [k1 k2 k3] := gg b _ _ _ _ _ _ hl1 hf he hr1; have [k4 k5] := gr b _ _ _ _ h4 hr2.
  exists ga, xya, gb, oxyb; split=> //; first by rewrite k3 k4.
  case: og k5 hn hc {hr gr} => [[g' xy'] //|] k5 hn hc; split=> //.
  case: ls h4 hc {ih hls hls' hn h2} => [|x ls] h4 hc; last by have [//|? [? [//]]] := hc.
  by move/forall2_size: h4 hr2; case: ls1 => //= _ [].
case: og hr hn hc gr key => [[gs xys]|] hr hn hc gr key; last first.
  cbn [bind]; exists (Some (g, xy)), ([seq (z + z0)%coqR | z <- z] ++ zs); split=> //; first by move=> _; exists g, xy.
  move=> b ls1 gs1 oxy z1 h2 h3; have [ga [xya [gb [oxyb [-> [k1 k2] -> -> [-> ->]]]]]] := key _ _ _ _ _ h2 h3.
  by rewrite cats0; split=> //; split=> //; exists xya.
have sgs : fields_shaped gs B.
  by case: hc => [els|g' [xy' [[-> _]]] //]; have := hn els.
have [c [-> sc gc]] := concat_ok sg sgs; cbn [bind].
exists (Some (c, xys)), ([seq (z + z0)%coqR | z <- z] ++ zs); split=> //; first by move=> _; exists c, xys.
move=> b ls1 gs1 oxy z1 h2 h3; have [ga [xya [gb [oxyb [-> [k1 k2] -> -> [k3 [xy1 -> k4]]]]]]] := key _ _ _ _ _ h2 h3.
by split=> //; split; [exact: gc|exists xy1].
Qed.
Lemma stack_fields_ok (amplitudes : seq (batch 'M[C]_(n + n, m) * batch 'M[C]_(n + n, m))) layers thicknesses znums :
  0 < size amplitudes -> size layers = size amplitudes -> size thicknesses = size amplitudes -> size znums = size amplitudes ->
  List.Forall (fun a => nshape a.1 = B /\ nshape a.2 = B) amplitudes ->
  List.Forall (fun l => (exists2 A, solve_result l A & bcto A B) /\ valid (b_expansion l)) layers ->
  List.Forall (fun t => nshape t = [::]) thicknesses -> List.Forall (fun z => 0 < z) znums ->
  exists g xy z, [/\ stack_fields_3d_gen_b fn amplitudes layers thicknesses znums = Val (g, xy, z), fields_shaped g B &
    forall b amplitudes1 layers1 thicknesses1 gs1 xy1 z1,
      List.Forall2 (fun a a1 => bget a.1 b = Val a1.1 /\ bget a.2 b = Val a1.2) amplitudes amplitudes1 ->
      List.Forall2 (fun l l1 => solve_element l b l1) layers layers1 ->
      List.Forall2 (fun t t1 => nget t [::] = t1) thicknesses thicknesses1 ->
      stack_fields_3d_gen fn1 amplitudes1 layers1 thicknesses1 znums = Val (gs1, xy1, z1) ->
      [/\ fields_element g b (field_lists gs1), array_element xy b xy1 & z1 = z]].
Proof.
move=> a0 sl st sz ha hl ht hz; rewrite /stack_fields_3d_gen_b sl st sz eqxx; cbn [andb check].
set ls := zip _ _.
have gls : List.Forall layer_good ls.
  rewrite /ls; elim: amplitudes layers thicknesses znums sl st sz ha hl ht hz {a0 ls} => [|a amplitudes ih] [|l layers] [|t thicknesses] [|z znums] //=.
  move=> [sl] [st] [sz] ha hl ht hz; inversion ha; inversion hl; inversion ht; inversion hz; subst.
  by constructor; [split=> //=; tauto|exact: ih].
have [og [z [-> hn hc gr]]] := loop_ok 0%coqR gls; cbn [bind].
have [g [xy [eog sg]]] : exists g xy, og = Some (g, xy) /\ fields_shaped g B.
  by apply: hc; rewrite /ls; move: a0 sl st sz; case: (amplitudes) => // ? ? _; case: (layers) => // ? ? _; case: (thicknesses) => // ? ? _; case: (znums).
rewrite {}eog in gr *.
exists g, xy, z; split=> // b as1 ls1 ts1 gs1 xy1 z1 fa fl ft.
have f2 : List.Forall2 (layer_of b) ls (zip (zip (zip as1 ls1) ts1) znums).
  rewrite /ls; elim: amplitudes layers thicknesses znums as1 ls1 ts1 sl st sz fa fl ft {a0 ls gls hn hc gr ha hl ht hz} =>
      [|a amplitudes ih] [|l layers] [|t thicknesses] [|zn znums] // as1 ls1 ts1.
    by move=> _ _ _ fa fl ft; inversion fa; inversion fl; inversion ft; constructor.
  move=> [sl] [st] [sz] fa fl ft; inversion fa; inversion fl; inversion ft; subst.
  constructor; last exact: ih.
  by split=> //=; tauto.
rewrite /stack_fields_3d_gen /check; case: ifP => // _ H; bv H r1 hr1; case: r1 hr1 H => -[ga oxy] za hr1.
have [k1 [k2 [xy1' k3 k4]]] := gr b _ _ _ _ f2 hr1; rewrite k3 => -[<- <- <-].
by split.
Qed.

End Layers.

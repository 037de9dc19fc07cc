(** Lemmas for scattering matrices of batches of stacks. *)
From Coq Require Import Reals ZArith FunctionalExtensionality.
From mathcomp Require Import all_ssreflect all_algebra.
From Verif Require Import Tac CField Err LinAlg M_utils M_basis M_fmm_matrices M_nd M_fmm M_scattering M_batch M_bstack
  S_utils P_utils S_batch L_batch L_broadcast P_broadcast S_bstack L_scattering L_stack.
Set Implicit Arguments. Unset Strict Implicit. Unset Printing Implicit Defensive.
Import GRing.Theory.

Lemma nm2 T U V (f : T -> U -> V) x y B : bcto (nshape x) B -> bcto (nshape y) B ->
  exists z, [/\ nmap2 f x y = Val z, bcto (nshape z) B & forall b, bget z b = f (bget x b) (bget y b)].
Proof.
move=> cx cy; have [sh h c] := broadcast_ok cx cy.
have [z hz sz] := nmap2_ok f h; exists z; split=> //; first by rewrite sz.
by have [_ _ g] := nmap2V hz.
Qed.
Lemma selects_bindex s b : selects s b (bindex s b).
Proof.
split; first exact: size_bindex.
by move=> i hi; rewrite nth_bindex.
Qed.
Lemma array_elementE T (x : nd T) b v : array_element x b v <-> bget x b = v.
Proof.
split=> [h|h j /selectsE ->]; last exact: h.
exact: (h _ (selects_bindex _ _)).
Qed.
Lemma atleast_id T (x : nd T) d : d = ndim x -> atleast_nd x d = x.
Proof.
case: x => s g ->; rewrite /atleast_nd /atleast_nd_shape /ndim [nshape _]/= subnn; congr Nd.
by apply: functional_extensionality => i; rewrite drop0.
Qed.
Lemma collectV T (d : T) n p (f : 'I_n -> 'I_p -> res T) (M : 'M[T]_(n, p)) : (forall i j, f i j = Val (M i j)) -> collect d f = Val M.
Proof.
move=> h; rewrite /collect; case: ifP => [_|/negP []].
  by congr Val; apply/matrixP => i j; rewrite mxE h.
by apply/forallP => i; apply/forallP => j; rewrite h.
Qed.
Lemma trailing2_cat s n p : trailing2 (s ++ [:: n; p]) = [:: n; p].
Proof. by rewrite /trailing2 size_cat addnK drop_size_cat. Qed.
Lemma butlast2_cat s n p : butlast 2 (s ++ [:: n; p]) = s. Proof. by rewrite butlast2. Qed.
Lemma bindex_cat2 s b n p i j : i < n -> j < p -> bindex (s ++ [:: n; p]) (b ++ [:: i; j]) = bindex s b ++ [:: i; j].
Proof.
move=> hi hj; rewrite -[[:: n; p]]/([:: n] ++ [:: p]) -[[:: i; j]]/([:: i] ++ [:: j]) !catA !cats1 !bindex_rcons.
by case: (n =P 1) hi => [->|_]; case: (p =P 1) hj => [->|_] //; case: i => //; case: j.
Qed.
Lemma bindex_cat1 s b p j : j < p -> bindex (s ++ [:: p]) (b ++ [:: j]) = bindex s b ++ [:: j].
Proof. by move=> hj; rewrite !cats1 bindex_rcons; case: (p =P 1) hj => [->|_] //; case: j. Qed.
Lemma matricesV T (d : T) n p (x : nd (res T)) B : shaped x [:: n; p] B ->
  exists z, [/\ matrices d n p x = Val z, bcto (nshape z) B &
    forall b (M : 'M[T]_(n, p)), (forall i j, array_element x (b ++ [:: nat_of_ord i; nat_of_ord j]) (Val (M i j))) -> bget z b = Val M].
Proof.
case=> s es cs; rewrite /matrices es trailing2_cat eqxx; cbn [check]; eexists; split; first by reflexivity.
  by rewrite [nshape _]/= butlast2_cat.
move=> b M h; rewrite /bget; cbn [nshape nget]; apply: collectV => i j.
by have /array_elementE := h i j; rewrite /bget es bindex_cat2 // butlast2_cat.
Qed.
Lemma vectorsV T (d : T) n (x : nd (res T)) B : shaped x [:: n] B ->
  exists z, [/\ vectors d n x = Val z, bcto (nshape z) B &
    forall b, bget z b = collect d (fun (_ : 'I_1) (j : 'I_n) => bget x (b ++ [:: nat_of_ord j]))].
Proof.
case=> s es cs; rewrite /vectors es size_cat addnK drop_size_cat // eqxx; cbn [check]; eexists; split; first by reflexivity.
  by rewrite [nshape _]/= butlast1.
move=> b; rewrite /bget; cbn [nshape nget]; rewrite butlast1.
congr collect; apply: functional_extensionality => _; apply: functional_extensionality => j.
by rewrite es bindex_cat1.
Qed.
Lemma vectorsM T (d : T) n (x : nd (res T)) B : shaped x [:: n] B ->
  exists z, [/\ vectors d n x = Val z, bcto (nshape z) B &
    forall b (M : 'rV[T]_n), (forall j, array_element x (b ++ [:: nat_of_ord j]) (Val (M 0%R j))) -> bget z b = Val M].
Proof.
move=> h; have [z [h1 h2 h3]] := vectorsV d h; exists z; split=> // b M hM; rewrite h3; apply: collectV => i j.
by rewrite (ord1 i); apply/array_elementE.
Qed.

(** Errors are non-finite values. *)
Definition nonfinite T (x : res T) := forall e, x = Exn e -> e = NonFinite.
Lemma solveN n p (A : 'M[C]_n) (B : 'M[C]_(n, p)) : nonfinite (solve A B).
Proof. by move=> e; rewrite /solve; case: ifP => // _ [<-]. Qed.
Lemma recipN n (v : 'rV[C]_n) : nonfinite (recip v).
Proof. by move=> e; rewrite /recip; case: ifP => // _ [<-]. Qed.
Lemma recipRN x : nonfinite (recipR x).
Proof. by move=> e; rewrite /recipR; case: ifP => // _ [<-]. Qed.
Lemma bindN T U (x : res T) (k : T -> res U) : nonfinite x -> (forall y, nonfinite (k y)) -> nonfinite (bind x k).
Proof. by move=> h1 h2; case: x h1 => [y|e] h1; [exact: h2|by move=> e' [<-]; apply: h1]. Qed.
Lemma ValN T (x : T) : nonfinite (Val x). Proof. by []. Qed.
Lemma reciprocalN l : nonfinite (reciprocal l).
Proof. by rewrite /reciprocal; apply: bindN => [|y]; [exact: recipRN|exact: ValN]. Qed.
Lemma angular_frequencyN w : nonfinite (angular_frequency w).
Proof. by rewrite /angular_frequency; apply: bindN => [|y]; [exact: recipRN|exact: ValN]. Qed.
Lemma omegaN n (l : layer_solve_result n) : nonfinite (omega_script_k_matrix l).
Proof.
rewrite /omega_script_k_matrix /transverse_wavevectors; apply: bindN => [|k].
  by apply: bindN => [|y]; [exact: reciprocalN|exact: ValN].
rewrite /omega_script_k_matrix_patterned; apply: bindN => [|s].
  rewrite /script_k_matrix_patterned; apply: bindN => [|a]; first exact: solveN.
  by apply: bindN => [|b]; [exact: solveN|exact: ValN].
by apply: bindN => [|w]; [exact: angular_frequencyN|exact: ValN].
Qed.
Lemma interfaceN n (l l' : layer_solve_result n) : nonfinite (interface_matrices l l').
Proof.
rewrite /interface_matrices; apply: bindN => [|a]; first exact: omegaN.
apply: bindN => [|b]; first exact: omegaN.
apply: bindN => [|c]; first exact: recipN.
apply: bindN => [|d]; first exact: solveN.
by apply: bindN => [|f]; [exact: solveN|exact: ValN].
Qed.

(** ** Layers *)
Tactic Notation "nm" ident(z) ident(hz) ident(cz) ident(gz) := match goal with |- context [bind (nmap2 ?f ?x ?y) _] =>
  have [z [hz cz gz]] := @nm2 _ _ _ f x y _ ltac:(eassumption) ltac:(eassumption); rewrite hz; clear hz; cbn [bind] end.

Tactic Notation "nmk" ident(z) ident(hz) ident(cz) ident(gz) := match goal with |- context [bind (nmap2 ?f ?x ?y) _] =>
  have [z [hz cz gz]] := @nm2 _ _ _ f x y _ ltac:(eassumption) ltac:(eassumption); rewrite hz; cbn [bind] end.
Lemma same_broadcast T U V T' U' V' (f : T -> U -> V) (g : T' -> U' -> V') x y x' y' z z' :
  nmap2 f x y = Val z -> nmap2 g x' y' = Val z' -> nshape x = nshape x' -> nshape y = nshape y' -> nshape z = nshape z'.
Proof. by move=> /nmap2V [h _ _] /nmap2V [h' _ _] e1 e2; apply: Val_inj; rewrite -h -h' e1 e2. Qed.

Section Layer.
Variables (n : nat) (B : seq nat) (l : batched_result n).
Hypotheses (n0 : 0 < n) (wl : batched_layer l B).
Lemma values_b : exists q, [/\ mode_values l = Val q, bcto (nshape q) B &
  forall b l1, layer_element l b l1 -> bget q b = Val (eigenvalues l1)].
Proof.
case: wl => _ _ _ [h _] _; have [q [h1 h2 h3]] := vectorsM (0 : C)%R h.
by exists q; split=> // b l1 [_ _ [h4 _] _]; apply: h3.
Qed.
Lemma vectors_b : exists q, [/\ mode_vectors l = Val q, bcto (nshape q) B &
  forall b l1, layer_element l b l1 -> bget q b = Val (eigenvectors l1)].
Proof.
case: wl => _ _ _ [_ h] _; have [q [h1 h2 h3]] := matricesV (0 : C)%R h.
by exists q; split=> // b l1 [_ _ [_ h4] _]; apply: h3.
Qed.
Lemma wavevectors_b : exists k kx ky, [/\
  transverse_wavevectors_b (fin (b_in_plane_wavevector l)) (fin (b_u l)) (fin (b_v l)) (b_expansion l) = Val k,
  vectors 0%coqR n (component 0 k) = Val kx /\ vectors 0%coqR n (component 1 k) = Val ky,
  bcto (nshape kx) B /\ nshape ky = nshape kx &
  forall b l1, layer_element l b l1 ->
    let k1 := transverse_wavevectors (in_plane_wavevector l1) (primitive_lattice_vectors l1) (expansion l1) in
    bget kx b = rmap fst k1 /\ bget ky b = rmap snd k1].
Proof.
case: wl => _ [kb ek ck] [hu hv eu ev] _ _.
have ek' : nshape (b_in_plane_wavevector l) = rcons kb 2 by rewrite ek cats1.
have dk : ndim (b_in_plane_wavevector l) = (size kb).+1 by rewrite /ndim ek' size_rcons.
have su : size (nseq (ndim (b_u l)).-1 1) <= size kb by rewrite size_nseq eu dk.
have sv : size (nseq (ndim (b_v l)).-1 1) <= size kb by rewrite size_nseq ev dk.
have [kt [hk sk gk]] := @wavevectors_one n (size kb) _ _ _ (b_expansion l) kb hu hv ek' (leqnn _) su sv.
move: hk; rewrite !atleast_id ?eu ?ev ?dk // => hk.
rewrite subnn cat0s in sk.
have sc c : shaped (component c kt) [:: n] B by exists kb => //; rewrite (component_shape c sk) cats1.
have [kx [hx cx gx]] := vectorsV 0%coqR (sc 0); have [ky [hy cy gy]] := vectorsV 0%coqR (sc 1).
exists kt, kx, ky; split=> //.
  split=> //; move: hx hy; rewrite /vectors !(component_shape _ sk).
  by rewrite /check; case: ifP => // _ [<-] [<-].
move=> b l1 [[_ h1 h2] [h3 h4] _ _] k1.
move/array_elementE: h1 => h1; move/array_elementE: h2 => h2.
rewrite /bget ek' cats1 bindex_rcons !eqE /= in h1; rewrite /bget ek' cats1 bindex_rcons !eqE /= in h2.
have gc c (j : 'I_n) (hc : c < 2) := gk c b j hc (ltn_ord j).
rewrite gx gy /k1 /transverse_wavevectors h3 h4.
case er: (reciprocal _) gc => [rv|e] gc; cbn [bind rmap].
- split; apply: collectV => i j; rewrite (ord1 i) cats1 gc //; cbn [rmap]; congr Val; rewrite !mxE (tnth_nth (0, 0)%coqZ).
  + by rewrite h1.
  + by rewrite h2.
- have -> := reciprocalN er.
  have cN (f : 'I_1 -> 'I_n -> res R) : (forall i j, f i j = Exn e) -> collect 0%coqR f = Exn NonFinite.
    move=> hf; rewrite /collect; case: ifP => // /forallP /(_ ord0) /forallP /(_ (Ordinal n0)).
    by rewrite hf.
  by split; apply: cN => i j; rewrite cats1 gc.
Qed.
Lemma omega_b : exists w, [/\ omega_script_k_matrix_b l = Val w, bcto (nshape w) B &
  forall b l1, layer_element l b l1 -> bget w b = omega_script_k_matrix l1].
Proof.
have [k [kx [ky [hk [hx hy] [cx sy] gk]]]] := wavevectors_b.
case: (wl) => -[sw ew cw] _ _ _ [hz hm].
have [z [hz1 cz gz]] := matricesV (0 : C)%R hz; have [m [hm1 cm gm]] := matricesV (0 : C)%R hm.
have cy : bcto (nshape ky) B by rewrite sy.
rewrite /omega_script_k_matrix_b hk; cbn [bind]; rewrite hx hy; cbn [bind]; rewrite hz1; cbn [bind].
rewrite hm1; cbn [bind]; rewrite /omega_script_k_matrix_patterned_b.
rewrite /script_k_matrix_patterned_b /bsolve /pmap2 /brow /bmap2; cbv zeta.
set kxc := bmap _ kx; set kyc := bmap _ ky.
have cxc : bcto (nshape kxc) B by []; have cyc : bcto (nshape kyc) B by [].
set kxd := bmap _ kxc; set kyd := bmap _ kyc.
have cxd : bcto (nshape kxd) B by []; have cyd : bcto (nshape kyd) B by [].
set kxm := bmap _ kxc; set kym := bmap _ kyc.
have cxm : bcto (nshape kxm) B by []; have cym : bcto (nshape kym) B by [].
nmk zx hzx czx gzx; nmk zy hzy czy gzy.
nmk b11 h11 c11 g11; nmk b12 h12 c12 g12; nmk b21 h21 c21 g21; nmk b22 h22 c22 g22.
have szy : nshape zy = nshape zx by apply: (same_broadcast hzy hzx).
have s12 : nshape b12 = nshape b11 by apply: (same_broadcast h12 h11).
have s21 : nshape b21 = nshape b11 by apply: (same_broadcast h21 h11).
have s22 : nshape b22 = nshape b11 by apply: (same_broadcast h22 h11).
rewrite /bblock s12 s21 s22 !eqxx; cbn [check andb bind].
set sk := Nd _ _; have csk : bcto (nshape sk) B by [].
have caf : bcto (nshape (nmap angular_frequency (b_wavelength l))) B by rewrite [nshape _]/= ew cats0.
nm wm hwm cwm gwm.
rewrite /bsub /bmap2.
have [w [-> c g]] := nm2 (lift2 (fun A B : 'M[C]_(n + n) => A - B)%R) cwm csk.
exists w; split=> // b l1 hb; rewrite g gwm bget_nmap.
have [gx gy] := gk b l1 hb.
case: (hb) => [[hw _ _] _ _ [hz' hm']].
move/array_elementE: hw => ->; rewrite (gm b _ hm').
have -> : bget sk b = (w0 <- bget b11 b;; x <- bget b12 b;; y <- bget b21 b;; z <- bget b22 b;; Val (block_mx w0 x y z)).
  by rewrite /sk /bget; cbn [nshape nget]; rewrite s12 s21 s22.
rewrite g11 g12 g21 g22 gzx gzy (gz b _ hz').
have kd : bget kxd b = rmap (fun k => diag (vC k)) (bget kx b) by rewrite /kxd /kxc /bmap !bget_nmap; case: (bget kx b).
have kd' : bget kyd b = rmap (fun k => diag (vC k)) (bget ky b) by rewrite /kyd /kyc /bmap !bget_nmap; case: (bget ky b).
have kc : bget kxc b = rmap (fun k => vC k) (bget kx b) by rewrite /kxc /bmap !bget_nmap; case: (bget kx b).
have kc' : bget kyc b = rmap (fun k => vC k) (bget ky b) by rewrite /kyc /bmap !bget_nmap; case: (bget ky b).
have km : bget kxm b = rmap (fun k => - vC k)%R (bget kx b) by rewrite /kxm /kxc /bmap !bget_nmap; case: (bget kx b).
have km' : bget kym b = rmap (fun k => - vC k)%R (bget ky b) by rewrite /kym /kyc /bmap !bget_nmap; case: (bget ky b).
rewrite kd kd' kc kc' km km' gx gy /omega_script_k_matrix.
have tN : nonfinite (transverse_wavevectors (in_plane_wavevector l1) (primitive_lattice_vectors l1) (expansion l1)).
  by rewrite /transverse_wavevectors; apply: bindN => [|y]; [exact: reciprocalN|exact: ValN].
have wN := @angular_frequencyN (wavelength l1).
case: transverse_wavevectors tN => [k1|e] tN; last first.
  by rewrite (tN e erefl); case: (angular_frequency _) wN => [x|e'] wN //=; rewrite (wN e' erefl).
rewrite /omega_script_k_matrix_patterned /script_k_matrix_patterned; cbn [bind rmap lift1 lift2].
have sx := @solveN n n (z_permittivity_matrix l1) (diag (vC k1.1)).
have sy' := @solveN n n (z_permittivity_matrix l1) (diag (vC k1.2)).
case: (solve _ (diag (vC k1.1))) sx => [X|e] sx; last first.
  rewrite (sx e erefl); case: (angular_frequency _) wN => [x|e'] wN; last by rewrite (wN e' erefl).
  by case: (solve _ (diag (vC k1.2))) sy' => [Y|e'] sy' //=; rewrite (sy' e' erefl).
case: (solve _ (diag (vC k1.2))) sy' => [Y|e] sy'; last first.
  by rewrite (sy' e erefl); case: (angular_frequency _) wN => [x|e'] wN //=; rewrite (wN e' erefl).
by case: (angular_frequency _).
Qed.
End Layer.

(** ** Phases *)
Lemma thickness_bcto t B : batched_thickness t B -> bcto (nshape t) (rcons B 1).
Proof.
case=> [->|[s -> h]]; last by rewrite cats1; apply: bcto_rcons => //; left.
by split=> // i; left; rewrite ax_out.
Qed.
Lemma phase_ok m (q : batch 'rV[C]_m) (d : nd R) B : bcto (nshape q) B -> bcto (nshape d) (rcons B 1) ->
  exists f, [/\ phase_b q d = Val f, bcto (nshape f) B &
    forall b, bget f b = (v <- bget q b;; Val (phase v (bget d (rcons b 0))))].
Proof.
move=> cq cd.
have d0 : ax (nshape d) 0 = 1 by case: (cd) => _ /(_ 0); rewrite ax_rcons0; case.
have cd' : bcto (nshape d) (rcons B m).
  case: cd => h1 h2; split; first by rewrite size_rcons -(size_rcons B 1).
  by case=> [|i]; [left|have := h2 i.+1; rewrite !ax_rconsS].
have cq' : bcto (rcons (nshape q) m) (rcons B m) by apply: bcto_rcons => //; right.
have [sh hsh csh] := broadcast_ok cq' cd'.
have [e1 e2 c1 c2] := broadcast_shapesV hsh.
have esh : exists sh', sh = rcons sh' m.
  have h0 := e2 0; rewrite ax_rcons0 d0 bdim1 in h0.
  case: (lastP sh) h0 e1 => [|sh' m'] h0 e1; first by move: e1; rewrite size_rcons /= => /esym /eqP; rewrite -leqn0 geq_max.
  by exists sh'; rewrite ax_rcons0 in h0; rewrite h0.
case: esh => sh' esh; rewrite /phase_b hsh; cbn [bind]; rewrite esh last_rcons eqxx; cbn [check].
have bl : butlast 1 (rcons sh' m) = sh' by rewrite -cats1 butlast1.
rewrite bl; eexists; split; first by reflexivity.
  rewrite [nshape _]/=; move: csh; rewrite esh => -[h1 h2]; split; first by rewrite !size_rcons ltnS in h1.
  by move=> i; have := h2 i.+1; rewrite !ax_rconsS.
have cq'' : bcto (nshape q) sh'.
  move: c1; rewrite esh => -[h1 h2]; split; first by rewrite !size_rcons ltnS in h1.
  by move=> i; have := h2 i.+1; rewrite !ax_rconsS.
move=> b; rewrite {1}/bget; cbn [nshape nget]; rewrite {1}/bget bindexT // -/(bget q b).
case: (bget q b) => [v|] //; cbn [bind]; congr Val; rewrite /phase; apply/rowP => i; rewrite !mxE.
congr (cexp (_ * RtoC _))%R; rewrite /bget; congr nget; apply: idx_ext => [|j]; first by rewrite !size_bindex.
rewrite !nth_bindex; case: eqP => // hj; case: j hj => [|j] hj; first by rewrite d0 in hj.
rewrite !nth_rev_cat_rcons nth_bindex; case: eqP => // ej; case: c2 => _ /(_ j.+1); rewrite esh ax_rconsS ej => -[] //.
Qed.

(** ** Interfaces and extension *)
Lemma bget_bmap T U (f : T -> U) (x : batch T) b : bget (bmap f x) b = rmap f (bget x b). Proof. by []. Qed.
Lemma bget_pmap T U (f : T -> res U) (x : batch T) b : bget (pmap f x) b = (v <- bget x b;; f v). Proof. by []. Qed.
Definition block_element n (s : batch 'M[C]_(n + n) * batch 'M[C]_(n + n) * batch 'M[C]_(n + n) * batch 'M[C]_(n + n)) b
    (s1 : res ('M[C]_(n + n) * 'M[C]_(n + n) * 'M[C]_(n + n) * 'M[C]_(n + n))) :=
  [/\ bget s.1.1.1 b = rmap (fun x => x.1.1.1) s1, bget s.1.1.2 b = rmap (fun x => x.1.1.2) s1,
      bget s.1.2 b = rmap (fun x => x.1.2) s1 & bget s.2 b = rmap (fun x => x.2) s1].
Section Interface.
Variables (n : nat) (B : seq nat) (l l' : batched_result n).
Hypotheses (n0 : 0 < n) (wl : batched_layer l B) (wl' : batched_layer l' B).
Lemma interface_b : exists i11 i12, [/\ interface_matrices_b l l' = Val (i11, i12), bcto (nshape i11) B, bcto (nshape i12) B &
  forall b l1 l1', layer_element l b l1 -> layer_element l' b l1' ->
    bget i11 b = rmap fst (interface_matrices l1 l1') /\ bget i12 b = rmap snd (interface_matrices l1 l1')].
Proof.
have [q [hq cq gq]] := values_b wl; have [p [hp cp gp]] := vectors_b wl; have [w [hw cw gw]] := omega_b n0 wl.
have [q' [hq' cq' gq']] := values_b wl'; have [p' [hp' cp' gp']] := vectors_b wl'; have [w' [hw' cw' gw']] := omega_b n0 wl'.
rewrite /interface_matrices_b hq hp hw hq' hp' hw'; cbn [bind].
rewrite /bmul /bcol /bsolve /brow /badd /pmap2 /bmap2.
nm a ha ca ga; nm a' ha' ca' ga'.
set r := pmap _ q'; have cr : bcto (nshape r) B by [].
nm x hx cx gx; nm t1 ht1 ct1 gt1; nm u1 hu1 cu1 gu1; nm y hy cy gy; nm u2 hu2 cu2 gu2.
set m1 := bmap _ u1; have cm1 : bcto (nshape m1) B by [].
nm s hs cs gs; nm d hd cd gd.
exists (bmap (fun A => half *: A)%R s), (bmap (fun A => half *: A)%R d); split=> // b l1 l1' h h'.
rewrite !bget_bmap gs gd /m1 bget_bmap gu1 gu2 gt1 gx gy ga ga' /r bget_pmap.
rewrite (gq _ _ h) (gp _ _ h) (gw _ _ h) (gq' _ _ h') (gp' _ _ h') (gw' _ _ h') /interface_matrices.
case: (omega_script_k_matrix l1) => [o|e] //; case: (omega_script_k_matrix l1') => [o'|e] //; cbn [bind rmap lift1 lift2].
case: (recip _) => [v|e] //; cbn [bind rmap lift1 lift2].
case: (solve _ _) => [X|e] //; cbn [bind rmap lift1 lift2].
by case: (solve _ _) => [Y|e].
Qed.
End Interface.

Definition blocks_bcto n (s : batch 'M[C]_(n + n) * batch 'M[C]_(n + n) * batch 'M[C]_(n + n) * batch 'M[C]_(n + n)) B :=
  [/\ bcto (nshape s.1.1.1) B, bcto (nshape s.1.1.2) B, bcto (nshape s.1.2) B & bcto (nshape s.2) B].
Lemma extendN n blocks (l l' : layer_solve_result n) t t' : nonfinite (extend_s_matrix blocks l t l' t').
Proof.
rewrite /extend_s_matrix; apply: bindN => [|[i11 i12]]; first exact: interfaceN.
case: blocks => [[[s11 s12] s21] s22]; apply: bindN => [|a]; first exact: solveN.
by apply: bindN => [|b]; [exact: solveN|exact: ValN].
Qed.
Lemma solve_both n p q (A : 'M[C]_n) (X : 'M[C]_(n, p)) (Y : 'M[C]_(n, q)) :
  (exists x y, solve A X = Val x /\ solve A Y = Val y) \/ (solve A X = Exn NonFinite /\ solve A Y = Exn NonFinite).
Proof. by rewrite /solve; case: ifP => _; [left; do 2!eexists|right]. Qed.
Section Extend.
Variables (n : nat) (B : seq nat) (l l' : batched_result n) (t t' : nd R).
Hypotheses (n0 : 0 < n) (wl : batched_layer l B) (wl' : batched_layer l' B).
Hypotheses (ht : batched_thickness t B) (ht' : batched_thickness t' B).
Lemma extend_b blocks : blocks_bcto blocks B ->
  exists blocks', [/\ extend_s_matrix_b blocks l t l' t' = Val blocks', blocks_bcto blocks' B &
    forall b l1 l1' s1, layer_element l b l1 -> layer_element l' b l1' -> nonfinite s1 -> block_element blocks b s1 ->
      block_element blocks' b (x <- s1;; extend_s_matrix x l1 (bget t (rcons b 0)) l1' (bget t' (rcons b 0)))].
Proof.
case: blocks => [[[s11 s12] s21] s22] [/= c11 c12 c21 c22].
have [i11 [i12 [hi ci11 ci12 gi]]] := interface_b n0 wl wl'.
have [q [hq cq gq]] := values_b wl; have [q' [hq' cq' gq']] := values_b wl'.
have [f [hf cf gf]] := phase_ok cq (thickness_bcto ht); have [f' [hf' cf' gf']] := phase_ok cq' (thickness_bcto ht').
rewrite /extend_s_matrix_b hi; cbn [bind]; rewrite hq hq'; cbn [bind]; rewrite hf hf'; cbn [bind].
rewrite /bmul /bcol /bsolve /brow /badd /bsub /pmap2 /bmap2.
nm fs12 h1 d1 g1; nm x h2 d2 g2; nm t3 h3 d3 g3; nm fs11 h4 d4 g4; nm n11 h5 d5 g5.
nm y1 h6 d6 g6; nm y2 h7 d7 g7; nm y3 h8 d8 g8; nm n12 h9 d9 g9; nm si21 h10 d10 g10; nm u h11 d11 g11; nm n21 h12 d12 g12.
nm v h13 d13 g13; nm si22 h14 d14 g14; nm w h15 d15 g15; nm n22 h16 d16 g16.
exists (n11, n12, n21, n22); split=> // b l1 l1' s1 hb hb' Ns [/= e11 e12 e21 e22].
have [gi11 gi12] := gi b l1 l1' hb hb'.
have En11 : bget n11 b = (v <- bget t3 b;; w <- bget fs11 b;; solve v w) by rewrite g5.
have En12 : bget n12 b = (v <- bget t3 b;; w <- bget y3 b;; solve v w) by rewrite g9.
have fb : bget f b = Val (phase (eigenvalues l1) (bget t (rcons b 0))) by rewrite gf (gq _ _ hb).
have fb' : bget f' b = Val (phase (eigenvalues l1') (bget t' (rcons b 0))) by rewrite gf' (gq' _ _ hb').
have NI := @interfaceN n l1 l1'.
rewrite /block_element /=.
case: s1 Ns e11 e12 e21 e22 => [[[[a11 a12] a21] a22]|e] Ns e11 e12 e21 e22; last first.
  have ee := Ns e erefl; rewrite ee in e11 e12 e21 e22 |- *; cbn [rmap bind] in *.
  case eI: (interface_matrices l1 l1') gi11 gi12 => [[j11 j12]|e'] gi11 gi12; last first.
    rewrite (NI _ eI) in gi11 gi12; cbn [rmap] in gi11, gi12.
    have X3 : bget t3 b = Exn NonFinite by rewrite g3 gi11.
    have X11 : bget n11 b = Exn NonFinite by rewrite En11 X3.
    have X12 : bget n12 b = Exn NonFinite by rewrite En12 X3.
    by split=> //; rewrite ?g12 ?g16 ?g11 ?g13 ?g10 ?e22.
  cbn [rmap fst snd] in gi11, gi12.
  have X1 : bget fs12 b = Exn NonFinite by rewrite g1 fb e12.
  have X3 : bget t3 b = Exn NonFinite by rewrite g3 g2 gi11 X1.
  have X11 : bget n11 b = Exn NonFinite by rewrite En11 X3.
  have X12 : bget n12 b = Exn NonFinite by rewrite En12 X3.
  by split=> //; rewrite ?g12 ?g16 ?g11 ?g13 ?g10 ?e22.
cbn [rmap fst snd] in e11, e12, e21, e22; cbn [bind]; rewrite /extend_s_matrix.
case eI: (interface_matrices l1 l1') gi11 gi12 => [[j11 j12]|e'] gi11 gi12; last first.
  rewrite (NI _ eI) in gi11 gi12 |- *; cbn [rmap bind] in *.
  have X3 : bget t3 b = Exn NonFinite by rewrite g3 gi11.
  have X11 : bget n11 b = Exn NonFinite by rewrite En11 X3.
  have X12 : bget n12 b = Exn NonFinite by rewrite En12 X3.
  by split=> //; rewrite ?g12 ?g16 ?g11 ?g13 ?g10 ?e22 ?gi12 ?X11 ?X12.
cbn [rmap fst snd bind] in gi11, gi12 |- *.
move: En11 En12; rewrite g3 g4 g8 g7 g6 g2 g1 fb fb' gi11 gi12 e11 e12; cbn [lift2 bind] => En11 En12.
set fd := phase _ _ in En11 En12 *; set fd' := phase _ _ in En11 En12 *.
move: En11 En12; set T3 := (_ - _)%R; set X := rowscale _ _; set Y := colscale _ _ => En11 En12.
have [[x1 [y1' [E1 E2]]]|[E1 E2]] := solve_both T3 X Y.
- rewrite E1 E2 in En11 En12 |- *; cbn [bind rmap fst snd].
  by split=> //; rewrite ?g12 ?g16 ?g11 ?g13 ?g15 ?g14 ?g10 ?e22 ?gi12 ?gi11 ?En11 ?En12 ?e21 ?fb'.
- rewrite E1 E2 in En11 En12 |- *; cbn [bind rmap fst snd].
  by split=> //; rewrite ?g12 ?g16 ?g11 ?g13 ?g15 ?g14 ?g10 ?e22 ?gi12 ?gi11 ?En11 ?En12 ?e21 ?fb'.
Qed.
End Extend.

(** ** Stacks *)
Definition blocks n (s : scattering_matrix n) := (s11 s, s12 s, s21 s, s22 s).
Definition bblocks n (s : batched_s_matrix n) := (bs11 s, bs12 s, bs21 s, bs22 s).
Lemma pairN n (l l' : layer_solve_result n) t t' : nonfinite (pair_s_matrix l t l' t').
Proof.
rewrite /pair_s_matrix; apply: bindN => [|[i11 i12]]; first exact: interfaceN.
apply: bindN => [|a]; first exact: solveN.
by apply: bindN => [|b]; [exact: solveN|exact: ValN].
Qed.
Lemma atleast_bcto T (x : nd T) d B : bcto (nshape x) B -> d <= size B -> bcto (nshape (atleast_nd x d)) B.
Proof.
move=> c hd; rewrite /atleast_nd /atleast_nd_shape; cbn [nshape]; apply: bcto_pad => //.
by case: (leqP d (size (nshape x))) => h; [rewrite (eqP (_ : d - _ == 0)) ?subn_eq0 // add0n; case: c|rewrite subnK // ltnW].
Qed.
Section Pair.
Variables (n : nat) (B : seq nat) (l l' : batched_result n) (t t' : nd R).
Hypotheses (n0 : 0 < n) (wl : batched_layer l B) (wl' : batched_layer l' B).
Hypotheses (ht : batched_thickness t B) (ht' : batched_thickness t' B).
Lemma pair_b : exists s, [/\ pair_s_matrix_b l t l' t' = Val s, blocks_bcto (bblocks s) B,
   [/\ bs_start s = l, bs_start_thickness s = t, bs_end s = l' & bs_end_thickness s = t'] &
    forall b l1 l1', layer_element l b l1 -> layer_element l' b l1' ->
      block_element (bblocks s) b (rmap (@blocks n) (pair_s_matrix l1 (bget t (rcons b 0)) l1' (bget t' (rcons b 0))))].
Proof.
have [i11 [i12 [hi ci11 ci12 gi]]] := interface_b n0 wl wl'.
have [q [hq cq gq]] := values_b wl; have [q' [hq' cq' gq']] := values_b wl'.
have [f [hf cf gf]] := phase_ok cq (thickness_bcto ht); have [f' [hf' cf' gf']] := phase_ok cq' (thickness_bcto ht').
rewrite /pair_s_matrix_b hi; cbn [bind]; rewrite hq hq'; cbn [bind]; rewrite hf hf'; cbn [bind].
rewrite /bmul /bcol /bsolve /brow /badd /bsub /pmap2 /bmap2; cbv zeta.
set fd := atleast_nd _ _.
have cfd : bcto (nshape fd) B by apply: atleast_bcto => //; case: ci11.
set m12 := bmap _ i12; have cm12 : bcto (nshape m12) B by [].
nm n11 h1 d1 g1; nm y h2 d2 g2; nm n12 h3 d3 g3; nm n21 h4 d4 g4; nm v h5 d5 g5; nm w h6 d6 g6; nm n22 h7 d7 g7.
eexists; split; [by reflexivity|by []|by []|] => b l1 l1' hb hb'.
have [gi11 gi12] := gi b l1 l1' hb hb'.
have fb : bget f b = Val (phase (eigenvalues l1) (bget t (rcons b 0))) by rewrite gf (gq _ _ hb).
have fb' : bget f' b = Val (phase (eigenvalues l1') (bget t' (rcons b 0))) by rewrite gf' (gq' _ _ hb').
have NI := @interfaceN n l1 l1'.
have En11 : bget n11 b = (v <- bget i11 b;; w <- bget fd b;; solve v w) by rewrite g1.
have En12 : bget n12 b = (v <- bget i11 b;; w <- bget y b;; solve v w) by rewrite g3.
have fdb : bget fd b = Val (diag (phase (eigenvalues l1) (bget t (rcons b 0)))) by rewrite /fd bget_atleast bget_bmap fb.
rewrite /block_element /= /pair_s_matrix.
case eI: (interface_matrices l1 l1') gi11 gi12 => [[j11 j12]|e'] gi11 gi12; last first.
  rewrite (NI _ eI) in gi11 gi12 |- *; cbn [rmap bind] in *.
  have X11 : bget n11 b = Exn NonFinite by rewrite En11 gi11.
  have X12 : bget n12 b = Exn NonFinite by rewrite En12 gi11.
  by split=> //; rewrite ?g4 ?g7 ?g5 ?g6 ?gi12 ?X11 ?X12.
cbn [rmap fst snd bind] in gi11, gi12 |- *.
move: En11 En12; rewrite g2 /m12 bget_bmap fdb fb' gi11 gi12; cbn [lift2 rmap bind] => En11 En12.
move: En11 En12; set X := diag _; set Y := colscale _ _ => En11 En12.
have [[x1 [y1' [E1 E2]]]|[E1 E2]] := solve_both j11 X Y.
- rewrite E1 E2 in En11 En12 |- *; cbn [bind rmap].
  by split=> //; rewrite ?g4 ?g7 ?g5 ?g6 ?gi12 ?gi11 ?En11 ?En12 ?fb'.
- rewrite E1 E2 in En11 En12 |- *; cbn [bind rmap].
  by split=> //; rewrite ?g4 ?g7 ?g5 ?g6 ?gi12 ?gi11 ?En11 ?En12 ?fb'.
Qed.
End Pair.

Definition s_shaped n (s : batched_s_matrix n) B :=
  [/\ blocks_bcto (bblocks s) B, batched_layer (bs_start s) B /\ batched_layer (bs_end s) B &
      batched_thickness (bs_start_thickness s) B /\ batched_thickness (bs_end_thickness s) B].
(** Element [b] of [s] is [s1], with [le], [te] the last layer. *)
Definition s_rel n (s : batched_s_matrix n) b le te (s1 : res (scattering_matrix n)) :=
  [/\ nonfinite s1, block_element (bblocks s) b (rmap (@blocks n) s1), layer_element (bs_end s) b le,
      bget (bs_end_thickness s) (rcons b 0) = te &
      forall v, s1 = Val v -> end_layer_solve_result v = le /\ end_layer_thickness v = te].
Lemma append_b n B (s : batched_s_matrix n) l t : 0 < n -> s_shaped s B -> batched_layer l B -> batched_thickness t B ->
  exists s', [/\ append_layer_b s l t = Val s', s_shaped s' B,
    [/\ bs_start s' = bs_start s, bs_start_thickness s' = bs_start_thickness s, bs_end s' = l & bs_end_thickness s' = t] &
    forall b le te s1 l1, s_rel s b le te s1 -> layer_element l b l1 ->
      s_rel s' b l1 (bget t (rcons b 0)) (x <- s1;; append_layer x l1 (bget t (rcons b 0)))].
Proof.
move=> n0 [hb [ws we] [ts te]] wl ht.
have [[[[x11 x12] x21] x22] [h1 h2 h3]] := extend_b n0 we wl te ht hb.
rewrite /append_layer_b h1; cbn [bind]; eexists; split; [by reflexivity|by split|by []|].
move=> b le te' s1 l1 [Ns1 hbl hle hte hv] hl; split=> //.
- apply: bindN => // y; rewrite /append_layer; apply: bindN => [|[[[a1 a2] a3] a4]]; [exact: extendN|exact: ValN].
- have Nb : nonfinite (rmap (@blocks n) s1) by move=> e; case: s1 Ns1 {hbl hv} => [y|e'] Ns1 //= [<-]; apply: Ns1.
  have := h3 b le l1 _ hle hl Nb hbl; rewrite hte.
  case: s1 hv {Ns1 hbl Nb} => [y|e] hv //; cbn [rmap bind]; have [e1 e2] := hv y erefl.
  rewrite /append_layer e1 e2 /blocks; case: extend_s_matrix => [[[[a1 a2] a3] a4]|e] //.
- move=> v; case: s1 {Ns1 hbl hv} => [y|e] //; cbn [bind]; rewrite /append_layer.
  by case: extend_s_matrix => [[[[a1 a2] a3] a4]|e] //; cbn [bind] => -[<-].
Qed.

Lemma thickness_elementE t b t1 : thickness_element t b t1 <-> bget t (rcons b 0) = t1.
Proof. by rewrite -cats1; apply: array_elementE. Qed.
Lemma shaped0 T (x : nd T) B : shaped x [::] B <-> bcto (nshape x) B.
Proof. by split=> [[s]|h]; [rewrite cats0 => ->|exists (nshape x); rewrite ?cats0]. Qed.
Lemma shapedE n (s : batched_s_matrix n) B : batched_scattering s B <-> s_shaped s B.
Proof.
split=> -[[h1 h2 h3 h4] h5 h6]; split=> //; split; by apply/shaped0.
Qed.
Lemma elementE n (s : batched_s_matrix n) b (s1 : res (scattering_matrix n)) :
  s_matrix_element s b s1 <-> block_element (bblocks s) b (rmap (@blocks n) s1).
Proof.
rewrite /s_matrix_element /block_element /bblocks /blocks /=.
by case: s1 => [s1|e]; split=> -[h1 h2 h3 h4]; split; apply/array_elementE.
Qed.

(** The loop over layers. *)
Lemma append_layers_ok n B (s : batched_s_matrix n) ls ts : 0 < n -> s_shaped s B -> size ls = size ts ->
  List.Forall (fun l => batched_layer l B) ls -> List.Forall (fun t => batched_thickness t B) ts ->
  exists tl, [/\ append_layers_b s (zip ls ts) = Val tl, size tl = size ls, s_shaped (last s tl) B,
    [/\ bs_start (last s tl) = bs_start s, bs_start_thickness (last s tl) = bs_start_thickness s,
        bs_end (last s tl) = last (bs_end s) ls & bs_end_thickness (last s tl) = last (bs_end_thickness s) ts] &
    forall b le te s1 ls1 ts1, s_rel s b le te s1 -> layers_element ls ts b ls1 ts1 ->
      forall k, k <= size ls -> exists le te,
        s_rel (nth s (s :: tl) k) b le te (x <- s1;; scan_layers x (take k (zip ls1 ts1)))].
Proof.
move=> n0; elim: ls ts s => [|l ls IH] [|t ts] s //= hs.
  move=> _ _ _; exists [::]; split=> // b le te s1 ls1 ts1 hr _ [|k] // _; exists le, te; rewrite take0 /=.
  by case: (s1) hr.
move=> [es] /List.Forall_cons_iff [hl hls] /List.Forall_cons_iff [ht hts].
have [s' [h1 h2 [e1 e2 e3 e4] h3]] := append_b n0 hs hl ht.
have [tl [h4 h5 h6 [e5 e6 e7 e8] h7]] := IH ts s' h2 es hls hts.
rewrite h1; cbn [bind]; rewrite h4; cbn [bind]; exists (s' :: tl); split=> //=.
- by rewrite h5.
- by rewrite e5 e6 e7 e8 e1 e2 e3 e4.
move=> b le te s1 ls1 ts1 hr [hA hB] [|k] hk.
  by exists le, te; rewrite take0 /=; case: (s1) hr.
case: ls1 hA => [|l1 ls1] hA; first by inversion hA.
case: ts1 hB => [|t1 ts1] hB; first by inversion hB.
have [a1 a2] : layer_element l b l1 /\ List.Forall2 (fun r r1 => layer_element r b r1) ls ls1 by inversion hA.
have [b1 b2] : thickness_element t b t1 /\ List.Forall2 (fun t t1 => thickness_element t b t1) ts ts1 by inversion hB.
have R := h3 b le te s1 l1 hr a1; move/thickness_elementE: b1 => b1; rewrite b1 in R.
have [le' [te' R']] := h7 b l1 t1 _ ls1 ts1 R (conj a2 b2) k hk.
exists le', te'; move: R'; rewrite /= (set_nth_default s) /=; last by rewrite h5 ltnS.
by case: s1 {hr R} => [x|e] //=; case: append_layer.
Qed.

Lemma forall2_size T U (P : T -> U -> Prop) xs ys : List.Forall2 P xs ys -> size xs = size ys.
Proof. by elim=> //= x y xs' ys' _ _ ->. Qed.
Lemma forall2_nth T U (P : T -> U -> Prop) xs ys x0 y0 k : List.Forall2 P xs ys -> k < size xs -> P (nth x0 xs k) (nth y0 ys k).
Proof. by move=> h; elim: h k => // x y xs' ys' a _ IH [|k] //= hk; apply: IH. Qed.
Lemma identity_b n B (l : batched_result n) t : 0 < n -> batched_layer l B -> batched_thickness t B ->
  exists s, [/\ identity_s_matrix_b l t = Val s, s_shaped s B,
    [/\ bs_start s = l, bs_start_thickness s = t, bs_end s = l & bs_end_thickness s = t] &
    forall b l1, layer_element l b l1 -> s_rel s b l1 (bget t (rcons b 0)) (Val (identity_s_matrix l1 (bget t (rcons b 0))))].
Proof.
move=> n0 wl ht; have [q [hq cq gq]] := values_b wl; rewrite /identity_s_matrix_b hq; cbn [bind].
eexists; split; [by reflexivity|by split|by []|] => b l1 hl; split=> //; by move=> v [<-].
Qed.
Lemma stacks_b n B (ls : seq (batched_result n)) ts : 0 < n -> 0 < size ls -> size ls = size ts ->
  List.Forall (fun l => batched_layer l B) ls -> List.Forall (fun t => batched_thickness t B) ts ->
  exists s0 ss, [/\ stack_s_matrices_b ls ts = Val (s0 :: ss), size (s0 :: ss) = size ls, s_shaped (last s0 ss) B,
    [/\ bs_start (last s0 ss) = head (bs_start s0) ls, bs_start_thickness (last s0 ss) = head (bs_start_thickness s0) ts,
        bs_end (last s0 ss) = last (bs_end s0) ls & bs_end_thickness (last s0 ss) = last (bs_end_thickness s0) ts] &
    forall b ls1 ts1, layers_element ls ts b ls1 ts1 -> forall k, k < size ls -> exists le te,
      s_rel (nth s0 (s0 :: ss) k) b le te (stack_s_matrix (take k.+1 ls1) (take k.+1 ts1))].
Proof.
move=> n0; case: ls ts => [|l0 ls] [|t0 ts] // _ es /List.Forall_cons_iff [hl0 hls] /List.Forall_cons_iff [ht0 hts].
have [s0 [h1 h2 [e1 e2 e3 e4] h3]] := identity_b n0 hl0 ht0.
have ee : (size (l0 :: ls) == size (t0 :: ts)) = true by apply/eqP.
rewrite /stack_s_matrices_b ee; cbn [check zip]; rewrite h1; cbn [bind].
have one b ls1 ts1 : layers_element (l0 :: ls) (t0 :: ts) b ls1 ts1 -> exists l1 t1 ls1' ts1',
   [/\ ls1 = l1 :: ls1', ts1 = t1 :: ts1', layers_element ls ts b ls1' ts1', layer_element l0 b l1 & bget t0 (rcons b 0) = t1].
  case=> hA hB.
  case: ls1 hA => [|l1 ls1] hA; first by inversion hA.
  case: ts1 hB => [|t1 ts1] hB; first by inversion hB.
  exists l1, t1, ls1, ts1; split=> //; last by (apply/thickness_elementE; inversion hB).
    by split; [inversion hA|inversion hB].
  by inversion hA.
case: ls ts es {ee} hls hts one => [|l1 ls] [|t1 ts] // es hls hts one; cbn [zip].
  exists s0, [::]; split=> //= b ls1 ts1 /one [l1 [t1 [ls1' [ts1' [-> -> [hA hB] hl e]]]]] [|k] // _.
  inversion hA; inversion hB; subst ls1' ts1'; exists l1, t1; rewrite -e; exact: h3.
move: hls hts => /List.Forall_cons_iff [hl1 hls] /List.Forall_cons_iff [ht1 hts].
have [s1 [p1 p2 [p3 p4 p5 p6] p7]] := pair_b n0 hl0 hl1 ht0 ht1.
have ss1 : s_shaped s1 B by split=> //; rewrite ?p3 ?p4 ?p5 ?p6.
rewrite p1; cbn [bind].
case: es => es; have [tl [q1 q2 q3 [q4 q5 q6 q7] q8]] := append_layers_ok n0 ss1 es hls hts.
rewrite q1; cbn [bind]; exists s0, (s1 :: tl); split=> //=.
- by rewrite q2.
- by rewrite q4 q5 q6 q7 p3 p4 p5 p6.
move=> b lr tr /one [r0 [d0 [lr' [tr' [-> -> hE hr0 ed0]]]]] [|k] hk.
  by rewrite !take_cons !take0; exists r0, d0; rewrite -ed0; exact: h3.
case: hE => hA hB.
case: lr' hA => [|r1 lr'] hA; first by inversion hA.
case: tr' hB => [|d1 tr'] hB; first by inversion hB.
have [a1 a2] : layer_element l1 b r1 /\ List.Forall2 (fun r r1 => layer_element r b r1) ls lr' by inversion hA.
have [b1 b2] : thickness_element t1 b d1 /\ List.Forall2 (fun t t1 => thickness_element t b t1) ts tr' by inversion hB.
move/thickness_elementE: b1 => b1.
have R : s_rel s1 b r1 d1 (pair_s_matrix r0 d0 r1 d1).
  split; rewrite ?p5 ?p6 //; first exact: pairN.
    by have := p7 b r0 r1 hr0 a1; rewrite ed0 b1.
  move=> v; rewrite /pair_s_matrix; case: interface_matrices => [[x1 x2]|] //; cbn [bind].
  by case: solve => //; cbn [bind] => x; case: solve => //; cbn [bind] => y [<-].
have [le [te R']] := q8 b r1 d1 _ lr' tr' R (conj a2 b2) k hk.
exists le, te; move: R'; rewrite -scan_stack /stack_s_matrix_scan !take_cons.
have sz : size (take k lr') = size (take k tr').
  by rewrite !size_take; rewrite -(forall2_size a2) -(forall2_size b2) es.
cbn [size]; rewrite sz eqxx; cbn [check zip scan_layers]; rewrite -pair_extend.
have -> : zip (take k lr') (take k tr') = take k (zip lr' tr').
  by elim: (k) lr' (tr') {R hA hB a2 b2 sz q8 one} => [|m IH] [|x xs] [|y ys] //=; rewrite IH.
rewrite (set_nth_default s0) //=; by rewrite q2.
Qed.

Lemma prepend_b n B (s : batched_s_matrix n) l t : 0 < n -> s_shaped s B -> batched_layer l B -> batched_thickness t B ->
  exists s', [/\ prepend_layer_b s l t = Val s', s_shaped s' B,
    [/\ bs_start s' = l, bs_start_thickness s' = t, bs_end s' = bs_end s & bs_end_thickness s' = bs_end_thickness s] &
    forall b s1 l1, scattering_element s b s1 -> layer_element l b l1 ->
      block_element (bblocks s') b (rmap (@blocks n) (prepend_layer s1 l1 (bget t (rcons b 0))))].
Proof.
move=> n0 [[b11 b12 b21 b22] [ws we] [ts te]] wl ht.
have hb : blocks_bcto (bs22 s, bs21 s, bs12 s, bs11 s) B by split.
have [[[[x22 x21] x12] x11] [h1 [/= h2 h3 h4 h5] h6]] := extend_b n0 ws wl ts ht hb.
rewrite /prepend_layer_b h1; cbn [bind]; eexists; split; [by reflexivity|by split|by []|].
move=> b s1 l1 [/elementE [/= e11 e12 e21 e22] [hs he] [/thickness_elementE hts hte]] hl.
have X : block_element (bs22 s, bs21 s, bs12 s, bs11 s) b (Val (s22 s1, s21 s1, s12 s1, s11 s1)) by split.
have := h6 b _ l1 _ hs hl (@ValN _ _) X; rewrite hts; cbn [bind]; rewrite /prepend_layer.
by case: extend_s_matrix => [[[[a1 a2] a3] a4]|e] [/= g1 g2 g3 g4]; split.
Qed.
Lemma append_b' n B (s : batched_s_matrix n) l t : 0 < n -> s_shaped s B -> batched_layer l B -> batched_thickness t B ->
  exists s', [/\ append_layer_b s l t = Val s', s_shaped s' B,
    [/\ bs_start s' = bs_start s, bs_start_thickness s' = bs_start_thickness s, bs_end s' = l & bs_end_thickness s' = t] &
    forall b s1 l1, scattering_element s b s1 -> layer_element l b l1 ->
      block_element (bblocks s') b (rmap (@blocks n) (append_layer s1 l1 (bget t (rcons b 0))))].
Proof.
move=> n0 hs wl ht; have [s' [h1 h2 h3 h4]] := append_b n0 hs wl ht; exists s'; split=> //.
move=> b s1 l1 [/elementE hb [_ he] [_ /thickness_elementE hte]] hl.
have R : s_rel s b (end_layer_solve_result s1) (end_layer_thickness s1) (Val s1) by split=> // v [<-].
by have [] := h4 b _ _ _ l1 R hl.
Qed.

Lemma sylvester1 n (A D : 'M[C]_n) : (1%:M - A *m D)%R \in unitmx -> (1%:M - D *m A)%R \in unitmx.
Proof.
move=> u; set X := invmx (1%:M - A *m D)%R.
have e : ((1%:M - A *m D) *m X = 1%:M)%R by rewrite mulmxV.
have : ((1%:M - D *m A) *m (1%:M + D *m X *m A) = 1%:M)%R.
  have -> : ((1%:M - D *m A) *m (1%:M + D *m X *m A) = 1%:M + D *m ((1%:M - A *m D) *m X - 1%:M) *m A)%R.
    rewrite mulmxBl mul1mx mulmxDr mulmx1 mulmxBl mul1mx !mulmxBr !mulmxBl mulmx1 !mulmxA opprD -!addrA.
    by congr (_ + (_ + _))%R; rewrite addrC.
  by rewrite e subrr mulmx0 mul0mx addr0.
by case/mulmx1_unit.
Qed.
Lemma sylvester n (A D : 'M[C]_n) : ((1%:M - A *m D)%R \in unitmx) = ((1%:M - D *m A)%R \in unitmx).
Proof. by apply/idP/idP => /sylvester1. Qed.
Lemma redheffer_b n B (p q : batched_s_matrix n) : 0 < n -> s_shaped p B -> s_shaped q B ->
  exists s', [/\ redheffer_star_product_b p q = Val s', s_shaped s' B,
    [/\ bs_start s' = bs_start p, bs_start_thickness s' = bs_start_thickness p, bs_end s' = bs_end q &
        bs_end_thickness s' = bs_end_thickness q] &
    forall b p1 q1, scattering_element p b p1 -> scattering_element q b q1 ->
      block_element (bblocks s') b (rmap (@blocks n) (redheffer_star_product p1 q1))].
Proof.
move=> n0 hp hq.
case: (hp) => _ [ps pe] [pt pt']; case: (hq) => -[q11 q12 q21 q22] [qs qe] [qt qt'].
have [a [h1 [[a11 a12 a21 a22] _ _] _ h4]] := append_b' n0 hp qs qt.
rewrite /redheffer_star_product_b h1; cbn [bind]; cbv zeta.
rewrite /bmul /bcol /bsolve /brow /badd /bsub /pmap2 /bmap2 /bblocks in q11 q12 q21 q22 a11 a12 a21 a22 *.
cbn [fst snd] in *.
set eye := eyes _ _; have ce : bcto (nshape eye) B by [].
nm ab i1 c1 g1; nm m1 i2 c2 g2; nm ba i3 c3 g3; nm m2 i4 c4 g4; nm x11 i5 c5 g5; nm y11 i6 c6 g6.
nm y12 i7 c7 g7; nm x12 i8 c8 g8; nm z12 i9 c9 g9; nm r12 i10 c10 g10.
nm y21 i11 c11 g11; nm x21 i12 c12 g12; nm z21 i13 c13 g13; nm r21 i14 c14 g14; nm x22 i15 c15 g15; nm r22 i16 c16 g16.
eexists; split; [by reflexivity|by split|by []|].
move=> b p1 q1 hp1 [/elementE [/= e11 e12 e21 e22] [hs he] [/thickness_elementE hts hte]].
have [/=] := h4 b p1 _ hp1 hs; rewrite hts.
have NA : nonfinite (append_layer p1 (start_layer_solve_result q1) (start_layer_thickness q1)).
  by rewrite /append_layer; apply: bindN => [|[[[? ?] ?] ?]]; [exact: extendN|exact: ValN].
rewrite /redheffer_star_product; move: NA; case: append_layer => [a1|e] NA.
- cbn [rmap bind fst snd blocks] => f11 f12 f21 f22.
  have eE : bget eye b = Val (diag (const_mx 1))%R by [].
  have G5 : bget x11 b = solve (diag (const_mx 1) - s12 a1 *m s21 q1)%R (s11 a1).
    by rewrite g5 g2 g1 eE f12 e21 f11.
  have G8 : bget x12 b = solve (diag (const_mx 1) - s12 a1 *m s21 q1)%R (s12 a1 *m s22 q1)%R.
    by rewrite g8 g2 g1 g7 eE f12 e21 e22.
  have G12 : bget x21 b = solve (diag (const_mx 1) - s21 q1 *m s12 a1)%R (s21 q1 *m s11 a1)%R.
    by rewrite g12 g4 g3 g11 eE f12 e21 f11.
  have G15 : bget x22 b = solve (diag (const_mx 1) - s21 q1 *m s12 a1)%R (s22 q1).
    by rewrite g15 g4 g3 eE f12 e21 e22.
  have G6 : bget y11 b = (v <- bget x11 b;; Val (s11 q1 *m v)%R) by rewrite g6 e11.
  have G10 : bget r12 b = (v <- bget x12 b;; Val (s12 q1 + s11 q1 *m v)%R) by rewrite g10 g9 e11 e12; case: (bget x12 b).
  have G14 : bget r21 b = (v <- bget x21 b;; Val (s21 a1 + s22 a1 *m v)%R) by rewrite g14 g13 f22 f21; case: (bget x21 b).
  have G16 : bget r22 b = (v <- bget x22 b;; Val (s22 a1 *m v)%R) by rewrite g16 f22.
  rewrite /block_element; cbn [bblocks fst snd bs11 bs12 bs21 bs22].
  rewrite G6 G10 G14 G16 G5 G8 G12 G15 /solve diag1 sylvester.
  by case: ifP => _; cbn [bind rmap fst snd blocks].
- rewrite (NA e erefl); cbn [rmap bind] => f11 f12 f21 f22.
  have X1 : bget m1 b = Exn NonFinite by rewrite g2 g1 f12.
  have X2 : bget m2 b = Exn NonFinite by rewrite g4 g3 f12 e21.
  have G6 : bget y11 b = Exn NonFinite by rewrite g6 g5 X1 e11.
  have G10 : bget r12 b = Exn NonFinite by rewrite g10 g9 g8 X1 e11 e12.
  have G14 : bget r21 b = Exn NonFinite by rewrite g14 f21.
  have G16 : bget r22 b = Exn NonFinite by rewrite g16 f22.
  by split.
Qed.

Lemma set_end_b n B (s : batched_s_matrix n) t : 0 < n -> s_shaped s B -> batched_thickness t B ->
  exists s', [/\ set_end_layer_thickness_b s t = Val s', s_shaped s' B &
    forall b s1 t1, scattering_element s b s1 -> thickness_element t b t1 ->
      scattering_element s' b (set_end_layer_thickness s1 t1)].
Proof.
move=> n0 [[c11 c12 c21 c22] [ws we] [ts te]] ht; rewrite /set_end_layer_thickness_b.
have [q [hq cq gq]] := values_b we; rewrite hq; cbn [bind].
have [d [hd cd gd]] := nm2 (fun a b : R => a - b)%coqR (thickness_bcto ht) (thickness_bcto te).
rewrite hd; cbn [bind]; have [f [hf cf gf]] := phase_ok cq cd; rewrite hf; cbn [bind].
rewrite /bblocks in c11 c12 c21 c22; cbn [fst snd] in c11, c12, c21, c22; rewrite /bcol /bmap2.
nm x12 h1 d1 g1; nm x22 h2 d2 g2.
eexists; split; [by reflexivity|by split|].
move=> b s1 t1 [/elementE [/= e11 e12 e21 e22] [hs he] [hts hte]] ht1.
have fb : bget f b = Val (phase (eigenvalues (end_layer_solve_result s1)) (t1 - end_layer_thickness s1)%coqR).
  by rewrite gf (gq _ _ he) gd; move/thickness_elementE: ht1 => ->; move/thickness_elementE: hte => ->.
split=> //; apply/elementE; split=> //; cbn [bblocks fst snd bs11 bs12 bs21 bs22 rmap blocks].
- by rewrite g1 fb e12.
- by rewrite g2 fb e22.
Qed.
Lemma set_start_b n B (s : batched_s_matrix n) t : 0 < n -> s_shaped s B -> batched_thickness t B ->
  exists s', [/\ set_start_layer_thickness_b s t = Val s', s_shaped s' B &
    forall b s1 t1, scattering_element s b s1 -> thickness_element t b t1 ->
      scattering_element s' b (set_start_layer_thickness s1 t1)].
Proof.
move=> n0 [[c11 c12 c21 c22] [ws we] [ts te]] ht; rewrite /set_start_layer_thickness_b.
have [q [hq cq gq]] := values_b ws; rewrite hq; cbn [bind].
have [d [hd cd gd]] := nm2 (fun a b : R => a - b)%coqR (thickness_bcto ht) (thickness_bcto ts).
rewrite hd; cbn [bind]; have [f [hf cf gf]] := phase_ok cq cd; rewrite hf; cbn [bind].
rewrite /bblocks in c11 c12 c21 c22; cbn [fst snd] in c11, c12, c21, c22; rewrite /bcol /bmap2.
nm x12 h1 d1 g1; nm x22 h2 d2 g2.
eexists; split; [by reflexivity|by split|].
move=> b s1 t1 [/elementE [/= e11 e12 e21 e22] [hs he] [hts hte]] ht1.
have fb : bget f b = Val (phase (eigenvalues (start_layer_solve_result s1)) (t1 - start_layer_thickness s1)%coqR).
  by rewrite gf (gq _ _ hs) gd; move/thickness_elementE: ht1 => ->; move/thickness_elementE: hts => ->.
split=> //; apply/elementE; split=> //; cbn [bblocks fst snd bs11 bs12 bs21 bs22 rmap blocks].
- by rewrite g1 fb e11.
- by rewrite g2 fb e21.
Qed.

(** ** The scan *)
Lemma bcto_anti s t : bcto s t -> bcto t s -> s = t.
Proof.
move=> [h1 h2] [h3 h4]; apply: ax_ext => [|i]; first by apply/eqP; rewrite eqn_leq h1 h3.
by case: (h2 i) (h4 i) => [e|] // [e'|] //; rewrite e e'.
Qed.
Definition exact n (s : batch 'M[C]_(n + n) * batch 'M[C]_(n + n) * batch 'M[C]_(n + n) * batch 'M[C]_(n + n)) B :=
  [/\ nshape s.1.1.1 = B, nshape s.1.1.2 = B, nshape s.1.2 = B & nshape s.2 = B].
Lemma nmap2S T U V (f : T -> U -> V) x y z : nmap2 f x y = Val z -> bcto (nshape x) (nshape z) /\ bcto (nshape y) (nshape z).
Proof. by case/nmap2V=> /broadcast_shapesV [_ _ h1 h2]. Qed.
Tactic Notation "bv" ident(H) ident(x) ident(hx) := case: (bindV H) => x hx {}H.
Lemma extend_shape n B blocks blocks' (l l' : batched_result n) t t' :
  extend_s_matrix_b blocks l t l' t' = Val blocks' -> blocks_bcto blocks' B -> exact blocks B -> exact blocks' B.
Proof.
case: blocks => [[[s11 s12] s21] s22]; rewrite /extend_s_matrix_b /bmul /bcol /bsolve /brow /badd /bsub /pmap2 /bmap2.
move=> H; case: (bindV H) => -[i11 i12] _ {}H; cbv zeta in H.
bv H q hq; bv H q' hq'; bv H f hf; bv H f' hf'; bv H fs12 k1; bv H x kx; bv H t3 kt; bv H fs11 k2; bv H n11 k3.
bv H y1 k4; bv H y2 k5; bv H y3 k6; bv H n12 k7; bv H si21 ks; bv H u ku; bv H n21 k8; bv H v kv; bv H si22 k9; bv H w k10; bv H n22 k11.
case: H => <- [/= c1 c2 c3 c4] [/= e1 e2 e3 e4].
move: k1 k2 k3 k4 => /nmap2S [_ k1] /nmap2S [_ k2] /nmap2S [_ k3] /nmap2S [k4 _].
move: k5 k6 k7 k8 => /nmap2S [k5 _] /nmap2S [k6 _] /nmap2S [_ k7] /nmap2S [_ k8].
move: k9 k10 k11 => /nmap2S [k9 _] /nmap2S [k10 _] /nmap2S [_ k11].
rewrite e1 in k2; rewrite e2 in k1; rewrite e3 in k8; rewrite e4 in k9.
by split; apply: bcto_anti => //; eauto 9 using bcto_trans.
Qed.

(** Shapes with one more leading axis of the same size are compatible exactly if the rest are. *)
Lemma compatible_cons N s t : size s = size t ->
  batch_compatible_shapes [:: N :: s; N :: t] = batch_compatible_shapes [:: s; t].
Proof.
move=> e; rewrite /batch_compatible_shapes /max_list /=; congr Val.
rewrite !maxn0 /pad_shape /= e !maxnn subnn !subnn /= !andbT /max_shape /=.
rewrite !maxn0 !maxnn !eqxx !orbT /=.
have -> : [seq foldr maxn 0 [:: nth 0 (N :: s) i; nth 0 (N :: t) i] | i <- iota 1 (size t)] =
          [seq foldr maxn 0 [:: nth 0 s i; nth 0 t i] | i <- iota 0 (size t)].
  by rewrite -[1]addn0 iotaDl -map_comp; apply: eq_map.
by [].
Qed.
Lemma incompatible_cons N s t : incompatible (N :: s) (N :: t) = incompatible s t.
Proof.
rewrite /incompatible; cbn [size]; rewrite eqSS; case: (size s =P size t) => [e|ne]; first by rewrite compatible_cons.
by rewrite /batch_compatible_shapes.
Qed.
Definition cons_shapes N (s : solve_shapes) := SolveShapes (N :: sh_wavelength s) (N :: sh_in_plane_wavevector s) (N :: sh_u s) (N :: sh_v s)
  (sh_num_terms s) (N :: sh_eigenvalues s) (N :: sh_eigenvectors s) (N :: sh_z_permittivity s) (N :: sh_inverse_z_permittivity s)
  (N :: sh_z_permeability s) (N :: sh_inverse_z_permeability s) (N :: sh_transverse_permeability s) (omap (cons N) (sh_tangent s)).
Lemma post_init_cons N s : 2 <= size (sh_eigenvectors s) -> post_init (cons_shapes N s) = post_init s.
Proof.
case: s => w k u v n ev evec zp izp zm izm tp tg; cbn [sh_eigenvectors sh_tangent] => h; rewrite /post_init /cons_shapes.
cbn [sh_wavelength sh_in_plane_wavevector sh_u sh_v sh_num_terms sh_eigenvalues sh_eigenvectors sh_z_permittivity
  sh_inverse_z_permittivity sh_z_permeability sh_inverse_z_permeability sh_transverse_permeability sh_tangent].
case: (size2_cat h) => b [m [l ->]].
rewrite -cat_cons !butlast2 !butlast1_2 !last_cat2 !rcons_cons !cat_cons !incompatible_cons.
by rewrite eqseq_cons eqxx; case: tg => [t|] //; cbn [omap obind oapp size]; rewrite -cat_cons /= eqSS.
Qed.

Lemma nd_ext T (x y : nd T) : nshape x = nshape y -> (forall idx, nget x idx = nget y idx) -> x = y.
Proof. by case: x y => [s f] [s' f'] /= -> /functional_extensionality ->. Qed.
Lemma slice_stack T (xs : seq (nd T)) x k y : stack_of xs x -> k < size xs -> y = nth x xs k -> slice k x = y.
Proof. by move=> h hk /(h k y hk) [e g]; apply: nd_ext => //=; rewrite e. Qed.
Lemma slice_shape T (xs : seq (nd T)) x k k' : stack_of xs x -> k < size xs -> nshape (slice k' x) = nshape (nth x xs k).
Proof. by move=> h hk; case: (h k _ hk erefl) => /= ->. Qed.
Definition slice_result n k (r : batched_result n) := BatchedResult (slice k (b_wavelength r)) (slice k (b_in_plane_wavevector r))
  (slice k (b_u r)) (slice k (b_v r)) (b_expansion r) (slice k (b_eigenvalues r)) (slice k (b_eigenvectors r))
  (slice k (b_z_permittivity_matrix r)) (slice k (b_inverse_z_permittivity_matrix r)) (slice k (b_z_permeability_matrix r))
  (slice k (b_inverse_z_permeability_matrix r)) (slice k (b_transverse_permeability_matrix r))
  (omap (fun t => (slice k t.1, slice k t.2)) (b_tangent r)).
Section Scan.
Variables (n : nat) (B : seq nat) (rs : seq (batched_result n)) (r r0 : batched_result n) (t : nd R).
Hypotheses (n0 : 0 < n) (rs0 : 0 < size rs) (st : stacked rs r) (ok : post_init (shapes_of r) = Val tt).
Hypotheses (wl : List.Forall (fun l => batched_layer l B) rs) (ht : nshape t = [:: size rs]).
Hypothesis exactB : List.Forall (fun l => nshape (b_eigenvalues l) = B ++ [:: n + n]) rs.
Let N := size rs.
Lemma nthF (P : batched_result n -> Prop) k : List.Forall P rs -> k < N -> P (nth r0 rs k).
Proof.
rewrite /N; elim: (rs) k => [|x xs IH] [|k] //= /List.Forall_cons_iff [h1 h2] hk //; exact: IH.
Qed.
Lemma nthIn k : k < N -> List.In (nth r0 rs k) rs.
Proof. by rewrite /N; elim: (rs) k => [|x xs IH] [|k] //= hk; [left|right; apply: IH]. Qed.
Lemma sliceT k : k < N -> omap (fun t => (slice k t.1, slice k t.2)) (b_tangent r) = b_tangent (nth r0 rs k).
Proof.
move=> hk; case: st => _ + _; rewrite /stacked_tangents; case: (b_tangent r) => [t0|] h; last by rewrite (h _ (nthIn hk)).
case: h => ts e [h1 h2]; have es : size rs = size ts by have := congr1 size e; rewrite !size_map.
have hk' : k < size ts by rewrite -es.
have := congr1 (fun s => nth None s k) e; rewrite (nth_map r0) // (nth_map t0) // => ->.
cbn [omap obind oapp]; rewrite (slice_stack h1 _ (erefl _)) ?(slice_stack h2 _ (erefl _)) ?size_map //.
by rewrite !(nth_map t0) //; case: (nth t0 ts k).
Qed.
Lemma sliceE k : k < N -> slice_result k r = nth r0 rs k.
Proof.
move=> hk; case: (st) => -[s1 s2 [s3 s4] [s5 s6] [s7 s8 s9 s10 s11]] _ se.
have e := se _ (nthIn hk); rewrite /slice_result -e (sliceT hk).
rewrite (slice_stack s1 _ (erefl _)) ?(slice_stack s2 _ (erefl _)) ?(slice_stack s3 _ (erefl _)) ?(slice_stack s4 _ (erefl _))
  ?(slice_stack s5 _ (erefl _)) ?(slice_stack s6 _ (erefl _)) ?(slice_stack s7 _ (erefl _)) ?(slice_stack s8 _ (erefl _))
  ?(slice_stack s9 _ (erefl _)) ?(slice_stack s10 _ (erefl _)) ?(slice_stack s11 _ (erefl _)) ?size_map //.
by rewrite !(nth_map r0) //; case: (nth r0 rs k).
Qed.
Lemma stack_shape T (f : batched_result n -> nd T) : stack_of (map f rs) (f r) -> nshape (f r) = N :: nshape (f (nth r0 rs 0)).
Proof.
move=> h; have hk : 0 < size (map f rs) by rewrite size_map.
by case: (h 0 _ hk erefl) => -> _; rewrite (nth_map r0) // size_map.
Qed.
Lemma shapesT : omap (fun t => nshape t.1) (b_tangent r) = omap (cons N) (omap (fun t => nshape t.1) (b_tangent (nth r0 rs 0))).
Proof.
case: st => _ + _; rewrite /stacked_tangents; case: (b_tangent r) => [t0|] h; last by rewrite (h _ (nthIn rs0)).
case: h => ts e [h1 h2]; have es : size rs = size ts by have := congr1 size e; rewrite !size_map.
have hk' : 0 < size ts by rewrite -es.
have := congr1 (fun s => nth None s 0) e; rewrite (nth_map r0) // (nth_map t0) // => ->.
have hk : 0 < size (map fst ts) by rewrite size_map.
by case: (h1 0 _ hk erefl) => + _; rewrite (nth_map t0) // size_map -es; cbn [omap obind oapp] => ->.
Qed.
Lemma shapes_r : shapes_of r = cons_shapes N (shapes_of (nth r0 rs 0)).
Proof.
case: (st) => -[s1 s2 [s3 s4] [s5 s6] [s7 s8 s9 s10 s11]] _ _; rewrite /shapes_of /cons_shapes shapesT.
by rewrite (stack_shape s1) (stack_shape s2) (stack_shape s3) (stack_shape s4) (stack_shape s5) (stack_shape s6)
  (stack_shape s7) (stack_shape s8) (stack_shape s9) (stack_shape s10) (stack_shape s11).
Qed.
Lemma wl0 : batched_layer (nth r0 rs 0) B. Proof. exact: (nthF (P := fun l => batched_layer l B) wl rs0). Qed.
Lemma ev2 : 2 <= size (sh_eigenvectors (shapes_of (nth r0 rs 0))).
Proof. by case: wl0 => _ _ _ [_ [s /= -> _]] _; rewrite size_cat addn2. Qed.
Lemma ok0 : post_init (shapes_of (nth r0 rs 0)) = Val tt.
Proof. by rewrite -(post_init_cons N ev2) -shapes_r. Qed.
Lemma slice_shapes k : shapes_of (slice_result k r) = shapes_of (nth r0 rs 0).
Proof.
have hT : omap (fun t => nshape t.1) (omap (fun t => (slice k t.1, slice k t.2)) (b_tangent r)) =
    omap behead (omap (fun t => nshape t.1) (b_tangent r)) by case: (b_tangent r).
have := shapes_r; rewrite /shapes_of /cons_shapes /slice_result /b_tangent -/(b_tangent r) -/(b_tangent _) hT /slice.
by case=> -> -> -> -> -> -> -> -> -> -> -> ->; case: (b_tangent (nth r0 rs 0)).
Qed.
Lemma slice_ok k : result_map (fun T => @slice T k) r = Val (slice_result k r).
Proof. by rewrite /result_map -/(slice_result k r) slice_shapes ok0. Qed.
Lemma slice_layer k : batched_layer (slice_result k r) B.
Proof.
move: (slice_shapes k) wl0; move: (slice_result k r) (nth r0 rs 0) => L M; rewrite /shapes_of /batched_layer /shaped /one_lattice /ndim => -[-> -> -> -> -> -> -> _ _ _ -> _].
by [].
Qed.
Let xs := BatchedResult (rest (b_wavelength r)) (rest (b_in_plane_wavevector r)) (rest (b_u r)) (rest (b_v r))
    (b_expansion r) (rest (b_eigenvalues r)) (rest (b_eigenvectors r))
    (rest (b_z_permittivity_matrix r)) (rest (b_inverse_z_permittivity_matrix r))
    (rest (b_z_permeability_matrix r)) (rest (b_inverse_z_permeability_matrix r))
    (rest (b_transverse_permeability_matrix r)) (omap (fun t => (rest t.1, rest t.2)) (b_tangent r)).
Lemma rest_shapes : shapes_of xs = cons_shapes N.-1 (shapes_of (nth r0 rs 0)).
Proof.
have hT : omap (fun t => nshape t.1) (omap (fun t => (rest t.1, rest t.2)) (b_tangent r)) =
    omap (fun s => (head 0 s).-1 :: behead s) (omap (fun t => nshape t.1) (b_tangent r)) by case: (b_tangent r).
have := shapes_r; rewrite /shapes_of /cons_shapes /xs /b_tangent -/(b_tangent r) -/(b_tangent _) hT /rest.
by case=> -> -> -> -> -> -> -> -> -> -> -> ->; case: (b_tangent (nth r0 rs 0)).
Qed.
Lemma rest_ok : result_map rest r = Val xs.
Proof. by rewrite /result_map -/xs rest_shapes post_init_cons ?ok0 //; exact: ev2. Qed.
Lemma rest_leading : all (pred1 N.-1) (leading xs).
Proof.
have hT : all (pred1 N.-1) [seq head 0 s | s <- if b_tangent xs is Some t then [:: nshape t.1; nshape t.2] else [::]].
  rewrite /xs; case: (st) => _ + _; rewrite /stacked_tangents /b_tangent -/(b_tangent r); case: (b_tangent r) => [t0|] //= [ts e [h1 h2]].
  have es : size rs = size ts by have := congr1 size e; rewrite !size_map.
  have hk' : 0 < size ts by rewrite -es.
  have hk : 0 < size (map fst ts) by rewrite size_map.
  have hk2 : 0 < size (map snd ts) by rewrite size_map.
  by case: (h1 0 _ hk erefl) => -> _; case: (h2 0 _ hk2 erefl) => -> _; rewrite !size_map -es /= !eqxx.
move: rest_shapes hT; move: xs => L; rewrite /shapes_of /leading /cons_shapes => -[-> -> -> -> -> -> -> -> -> -> -> _] hT.
by rewrite map_cat all_cat hT andbT /= eqxx.
Qed.
Lemma rest_slice k : result_map (fun T => @slice T k) xs = Val (slice_result k.+1 r).
Proof.
have hT : omap (fun t => (slice k t.1, slice k t.2)) (omap (fun t => (rest t.1, rest t.2)) (b_tangent r)) =
    omap (fun t => (slice k.+1 t.1, slice k.+1 t.2)) (b_tangent r) by case: (b_tangent r).
have := slice_ok k.+1; rewrite /result_map /xs /b_tangent -/(b_tangent r) hT; exact.
Qed.
Lemma slice_thickness k : batched_thickness (slice k t) B.
Proof. by left; rewrite /slice ht. Qed.
Lemma step_b s i : s_shaped s B -> exact (bblocks s) B ->
  exists s', [/\ scan_step s xs (rest t) i = Val s', s_shaped s' B, exact (bblocks s') B &
    [/\ bs_start s' = bs_start s, bs_start_thickness s' = bs_start_thickness s, bs_end s' = slice_result i.+1 r & bs_end_thickness s' = slice i.+1 t] /\
    forall b le te s1 l1, s_rel s b le te s1 -> layer_element (slice_result i.+1 r) b l1 ->
      s_rel s' b l1 (nget t [:: i.+1]) (x <- s1;; append_layer x l1 (nget t [:: i.+1]))].
Proof.
move=> hs he; rewrite /scan_step rest_slice; cbn [bind].
have -> : slice i (rest t) = slice i.+1 t by [].
have [s' [h1 h2 h3 h4]] := append_b n0 hs (slice_layer i.+1) (slice_thickness i.+1).
have he' : exact (bblocks s') B.
  move: h1 h2; rewrite /append_layer_b => H; case: (bindV H) => -[[[a1 a2] a3] a4] hx [<-] [hb _ _].
  exact: extend_shape hx hb he.
rewrite h1; cbn [bind]; exists s'; split=> //.
- by case: he he' => /= -> -> -> -> [/= -> -> -> ->]; rewrite eqxx.
- split=> // b le te s1 l1 /h4 h /h; suff -> : bget (slice i.+1 t) (rcons b 0) = nget t [:: i.+1] by [].
  by rewrite /bget /slice ht.
Qed.
Lemma scan_ok m i s : i + m = N.-1 -> s_shaped s B -> exact (bblocks s) B ->
  exists s', [/\ scan_b s xs (rest t) (iota i m) = Val s', s_shaped s' B, exact (bblocks s') B &
    forall b le te s1 ls1, s_rel s b le te s1 -> size ls1 = m ->
      (forall k, k < m -> layer_element (nth r0 rs (i + k).+1) b (nth le ls1 k)) -> exists le te,
      s_rel s' b le te (x <- s1;; scan_layers x (zip ls1 [seq nget t [:: k.+1] | k <- iota i m]))].
Proof.
elim: m i s => [|m IH] i s hi hs he.
  exists s; split=> // b le te s1 [|l1 ls1] // R _ _; exists le, te; by case: (s1) R.
have [s' [h1 h2 h3 [h4 h5]]] := step_b i hs he.
have hi' : i.+1 + m = N.-1 by rewrite addSnnS.
have [s'' [p1 p2 p3 p4]] := IH i.+1 s' hi' h2 h3.
cbn [iota scan_b]; rewrite h1; cbn [bind]; rewrite p1; exists s''; split=> // b le te s1 [|l1 ls1] // R [es] hl.
have hl1 : layer_element (slice_result i.+1 r) b l1.
  rewrite sliceE; last by move: hi rs0; rewrite /N; case: (size rs) => [|z] //= <- _; rewrite addnS !ltnS leq_addr.
  by have := hl 0 (ltn0Sn m); rewrite addn0.
have hl' k : k < m -> layer_element (nth r0 rs (i.+1 + k).+1) b (nth l1 ls1 k).
  by move=> hk; have := hl k.+1 hk; rewrite addnS -addSn /= (set_nth_default l1) // es.
have [le' [te' R']] := p4 b _ _ _ ls1 (h5 b le te s1 l1 R hl1) es hl'.
by exists le', te'; case: s1 {R} R' => [x|e] //=; case: append_layer.
Qed.
End Scan.

(** Lemmas for batches of patterned and anisotropic layers. *)
From Coq Require Import Reals ZArith FunctionalExtensionality.
From mathcomp Require Import all_ssreflect all_algebra.
From Verif Require Import Tac CField Err LinAlg M_utils M_basis M_fft M_fmm_matrices M_nd M_fmm M_batch M_bstack M_bvector M_bfmm
  S_utils P_utils S_fft L_fft S_batch L_batch P_batch L_broadcast P_broadcast S_bstack L_bstack P_bstack S_bvector L_bvector S_bfmm.
Set Implicit Arguments. Unset Strict Implicit. Unset Printing Implicit Defensive.
Import GRing.Theory.

(** ** Arrays of one shape *)
Lemma broadcast_same P : broadcast_shapes P P = Val P.
Proof.
by apply: broadcast_eq; rewrite ?maxnn //; [exact: bcto_refl|exact: bcto_refl|move=> i; rewrite /bdim; case: eqP].
Qed.
Lemma ns2 T U V (f : T -> U -> V) x y P : nshape x = P -> nshape y = P ->
  exists z, [/\ nmap2 f x y = Val z, nshape z = P & forall b, bget z b = f (bget x b) (bget y b)].
Proof.
move=> ex ey; have [|z hz sz] := @nmap2_ok _ _ _ f x y P; first by rewrite ex ey; exact: broadcast_same.
by exists z; split=> //; have [_ _ g] := nmap2V hz.
Qed.
Lemma bblock_ok n (a b c d : batch 'M[C]_n) P : nshape a = P -> nshape b = P -> nshape c = P -> nshape d = P ->
  exists z, [/\ bblock a b c d = Val z, nshape z = P &
    forall i, bget z i = (w <- bget a i;; x <- bget b i;; y <- bget c i;; z <- bget d i;; Val (block_mx w x y z))].
Proof.
move=> ea eb ec ed; rewrite /bblock ea eb ec ed eqxx; cbn [andb check]; eexists; split; [by reflexivity|by []|].
by move=> i; rewrite /bget; cbn [nshape nget]; rewrite ea eb ec ed.
Qed.
Lemma bgrid_ok nx ny (a b c d : batch 'M[C]_(nx, ny)) P : nshape a = P -> nshape b = P -> nshape c = P -> nshape d = P ->
  exists z, [/\ bgrid22 a b c d = Val z, nshape z = P &
    forall i, bget z i = (w <- bget a i;; x <- bget b i;; y <- bget c i;; z <- bget d i;; Val (Grid22 w x y z))].
Proof.
move=> ea eb ec ed; rewrite /bgrid22 ea eb ec ed eqxx; cbn [andb check]; eexists; split; [by reflexivity|by []|].
by move=> i; rewrite /bget; cbn [nshape nget]; rewrite ea eb ec ed.
Qed.

Section Fourier.
Variables (nx ny n : nat) (expn : n.-tuple (Z * Z)) (P : seq nat).
Hypotheses (n0 : n <> 0) (hr : resolves nx ny expn).
Lemma conv_ok (x : batch 'M[C]_(nx, ny)) : nshape x = P ->
  exists z, [/\ fourier_convolution_matrix_b x expn = Val z, nshape z = P &
    forall b, bget z b = (a <- bget x b;; fourier_convolution_matrix a expn)].
Proof. by move=> e; rewrite /fourier_convolution_matrix_b validE //; cbn [bind]; eexists. Qed.

Tactic Notation "ns" ident(z) ident(hz) ident(sz) ident(gz) := match goal with |- context [bind (nmap2 ?f ?x ?y) _] =>
  have [z [hz sz gz]] := @ns2 _ _ _ f x y P ltac:(assumption) ltac:(assumption); rewrite hz; clear hz; cbn [bind] end.
Tactic Notation "cv" ident(z) ident(hz) ident(sz) ident(gz) := match goal with |- context [bind (fourier_convolution_matrix_b ?x _) _] =>
  have [z [hz sz gz]] := @conv_ok x ltac:(assumption); rewrite hz; clear hz; cbn [bind] end.
Tactic Notation "bl" ident(z) ident(hz) ident(sz) ident(gz) := match goal with |- context [bind (bblock ?a ?b ?c ?d) _] =>
  have [z [hz sz gz]] := @bblock_ok _ a b c d P ltac:(assumption) ltac:(assumption) ltac:(assumption) ltac:(assumption);
  rewrite hz; clear hz; cbn [bind] end.
Tactic Notation "gr" ident(z) ident(hz) ident(sz) ident(gz) := match goal with |- context [bind (bgrid22 ?a ?b ?c ?d) _] =>
  have [z [hz sz gz]] := @bgrid_ok _ _ a b c d P ltac:(assumption) ltac:(assumption) ltac:(assumption) ltac:(assumption);
  rewrite hz; clear hz; cbn [bind] end.

Lemma fft_iso_ok (x : batch 'M[C]_(nx, ny)) : nshape x = P ->
  exists z, [/\ transverse_permittivity_fft_b x expn = Val z, nshape z = P &
    forall b a M, bget x b = Val a -> transverse_permittivity_fft a expn = Val M -> bget z b = Val M].
Proof.
move=> ex; rewrite /transverse_permittivity_fft_b; cv e he se ge; cbv zeta; rewrite se.
have s0 : nshape (zeros n P) = P by [].
have [z [-> sz gz]] := bblock_ok se s0 s0 se; exists z; split=> // b a M ha.
rewrite /transverse_permittivity_fft => H; bv H e1 h1; case: H => <-.
by rewrite gz ge ha; cbn [bind]; rewrite h1.
Qed.
Lemma vector_iso_ok (x tx ty : batch 'M[C]_(nx, ny)) : nshape x = P -> nshape tx = P -> nshape ty = P ->
  exists z, [/\ transverse_permittivity_vector_b x tx ty expn = Val z, nshape z = P &
    forall b a ax ay M, bget x b = Val a -> bget tx b = Val ax -> bget ty b = Val ay ->
      transverse_permittivity_vector a ax ay expn = Val M -> bget z b = Val M].
Proof.
move=> ex etx ety; rewrite /transverse_permittivity_vector_b /bsub /bmul /bmap2; cbv zeta beta; cv e he se ge; rewrite se.
have s0 : nshape (zeros n P) = P by [].
bl em hem sem gem; cv et het set get; ns dl hdl sdl gdl; bl dm hdm sdm gdm.
ns q1 hq1 sq1 gq1; cv pyy h1 s1 g1; ns q2 hq2 sq2 gq2; cv pyx h2 s2 g2.
ns q3 hq3 sq3 gq3; cv pxy h3 s3 g3; ns q4 hq4 sq4 gq4; cv pxx h4 s4 g4; bl pm hpm spm gpm.
ns dp hdp sdp gdp.
have [z [-> sz gz]] := ns2 (lift2 (fun A B : 'M[C]_(n + n) => A - B)%R) sem sdp; exists z; split=> // b a ax' ay M ha hx hy.
rewrite /transverse_permittivity_vector => H; bv H e1 k1; bv H e2 k2; bv H e3 k3; bv H e4 k4; bv H p1 l1; bv H p2 l2; bv H p3 l3; bv H p4 l4.
case: H => <-.
rewrite gz gem gdp gdm gpm g1 g2 g3 g4 gq1 gq2 gq3 gq4 gdl ge ?bget_pmap get bget_pmap ha hx hy; cbn [bind lift2].
by rewrite k1 k2; cbn [bind lift2]; rewrite k3; cbn [bind lift2]; rewrite k4 l1 l2 l3 l4.
Qed.
Lemma fft_eps_ok (xx xy yx yy : batch 'M[C]_(nx, ny)) : nshape xx = P -> nshape xy = P -> nshape yx = P -> nshape yy = P ->
  exists z, [/\ transverse_permittivity_fft_anisotropic_b xx xy yx yy expn = Val z, nshape z = P &
    forall b a1 a2 a3 a4 M, bget xx b = Val a1 -> bget xy b = Val a2 -> bget yx b = Val a3 -> bget yy b = Val a4 ->
      transverse_permittivity_fft_anisotropic a1 a2 a3 a4 expn = Val M -> bget z b = Val M].
Proof.
move=> e1 e2 e3 e4; rewrite /transverse_permittivity_fft_anisotropic_b; cbv zeta.
cv a ha sa ga; cv b hb sb gb; cv c hc sc gc; cv d hd sd gd.
have [z [-> sz gz]] := bblock_ok sa sb sc sd; exists z; split=> // i a1 a2 a3 a4 M h1 h2 h3 h4.
rewrite /transverse_permittivity_fft_anisotropic => H; bv H m1 k1; bv H m2 k2; bv H m3 k3; bv H m4 k4; case: H => <-.
rewrite gz ga gb gc gd !bget_bmap h1 h2 h3 h4; cbn [rmap bind].
by rewrite k1 k2 k3 k4.
Qed.
Lemma fft_mu_ok (xx xy yx yy : batch 'M[C]_(nx, ny)) : nshape xx = P -> nshape xy = P -> nshape yx = P -> nshape yy = P ->
  exists z, [/\ transverse_permeability_fft_anisotropic_b xx xy yx yy expn = Val z, nshape z = P &
    forall b a1 a2 a3 a4 M, bget xx b = Val a1 -> bget xy b = Val a2 -> bget yx b = Val a3 -> bget yy b = Val a4 ->
      transverse_permeability_fft_anisotropic a1 a2 a3 a4 expn = Val M -> bget z b = Val M].
Proof.
move=> e1 e2 e3 e4; rewrite /transverse_permeability_fft_anisotropic_b; cbv zeta.
cv a ha sa ga; cv b hb sb gb; cv c hc sc gc; cv d hd sd gd.
have [z [-> sz gz]] := bblock_ok sa sb sc sd; exists z; split=> // i a1 a2 a3 a4 M h1 h2 h3 h4.
rewrite /transverse_permeability_fft_anisotropic => H; bv H m1 k1; bv H m2 k2; bv H m3 k3; bv H m4 k4; case: H => <-.
rewrite gz ga gb gc gd h1 h2 h3 h4; cbn [rmap bind].
by rewrite k1 k2 k3 k4.
Qed.
Lemma rotation_ok (t00 t01 t10 t11 : batch 'M[C]_(nx, ny)) : nshape t00 = P -> nshape t01 = P -> nshape t10 = P -> nshape t11 = P ->
  exists r f g, [/\ rotation_matrices_b t00 t01 t10 t11 expn = Val (r, f, g), nshape r = P, nshape f = P, nshape g = P &
    forall b a1 a2 a3 a4 R F G, bget t00 b = Val a1 -> bget t01 b = Val a2 -> bget t10 b = Val a3 -> bget t11 b = Val a4 ->
      rotation_matrices a1 a2 a3 a4 expn = Val (R, F, G) -> [/\ bget r b = Val R, bget f b = Val F & bget g b = Val G]].
Proof.
move=> e1 e2 e3 e4; rewrite /rotation_matrices_b /bsub /bmap2; cbv zeta.
gr r hr' sr gr; cv f00 h1 s1 g1; cv f01 h2 s2 g2; cv f10 h3 s3 g3; cv f11 h4 s4 g4; bl f hf sf gf.
ns x hx sx gx; ns y hy sy gy; ns d hd sd gd.
ns j00 k1 s5 g5; ns j01 k2 s6 g6; ns j10 k3 s7 g7; ns j11 k4 s8 g8.
cv i00 l1 s9 g9; cv i01 l2 s10 g10; cv i10 l3 s11 g11; cv i11 l4 s12 g12; bl g hg sg gg.
exists r, f, g; split=> // b a1 a2 a3 a4 R' F G q1 q2 q3 q4.
rewrite /rotation_matrices; cbv zeta => H.
bv H m1 p1; bv H m2 p2; bv H m3 p3; bv H m4 p4; bv H m5 p5; bv H m6 p6; bv H m7 p7; bv H m8 p8; case: H => <- <- <-.
split.
- by rewrite gr q1 q2 q3 q4.
- by rewrite gf g1 g2 g3 g4 q1 q2 q3 q4; cbn [bind]; rewrite p1 p2 p3 p4.
- have D : bget d b = Val (\matrix_(i, j) (a1 i j * a4 i j) - \matrix_(i, j) (a3 i j * a2 i j))%R by rewrite gd gx gy q1 q2 q3 q4.
  have S : bget (bmap (fun a => map_mx (fun d : R => if isclose0 d then 1%coqR else d) a) (bmap (fun a : 'M[C]_(nx, ny) => map_mx Cmod a) d)) b =
     Val (\matrix_(i, j) if isclose0 (Cmod (a1 i j * a4 i j - a3 i j * a2 i j)) then 1%coqR else Cmod (a1 i j * a4 i j - a3 i j * a2 i j))%R.
    by rewrite !bget_bmap D; cbn [rmap]; congr Val; apply/matrixP => i j; rewrite !mxE.
  rewrite gg g9 g10 g11 g12 g5 g6 g7 g8 S !bget_bmap q1 q2 q3 q4; cbn [rmap lift2 bind].
  have T (m m' : 'M[C]_(nx, ny)) F' : fourier_convolution_matrix m expn = Val F' -> (forall i j, m' i j = m i j) ->
      fourier_convolution_matrix m' expn = Val F' by move=> h E; have -> : m' = m by [apply/matrixP].
  do [rewrite [X in bind X _ = _](T _ _ _ p5); last by move=> i j; rewrite !mxE]; cbn [bind].
  do [rewrite [X in bind X _ = _](T _ _ _ p6); last by move=> i j; rewrite !mxE]; cbn [bind].
  do [rewrite [X in bind X _ = _](T _ _ _ p7); last by move=> i j; rewrite !mxE]; cbn [bind].
  by rewrite [X in bind X _ = _](T _ _ _ p8); last by move=> i j; rewrite !mxE.
Qed.
Lemma rotated_ok (tensor r : batch (grid22 nx ny)) (f g : batch 'M[C]_(n + n)) :
  nshape tensor = P -> nshape r = P -> nshape f = P -> nshape g = P ->
  exists z, [/\ rotated_fourier_matrix_b tensor (r, f, g) expn = Val z, nshape z = P &
    forall b A R F G M, bget tensor b = Val A -> bget r b = Val R -> bget f b = Val F -> bget g b = Val G ->
      rotated_fourier_matrix A (R, F, G) expn = Val M -> bget z b = Val M].
Proof.
move=> e1 e2 e3 e4; rewrite /rotated_fourier_matrix_b /pmap2 /bmul /bmap2; cbv zeta; cbn [fst snd].
ns w hw sw gw; cv a ha sa ga; cv b hb sb gb; cv c hc sc gc; cv d hd sd gd; bl m hm sm gm; ns y hy sy gy.
have [z [-> sz gz]] := ns2 (lift2 (fun A B : 'M[C]_(n + n) => A *m B)%R) sy e4; exists z; split=> // i A R' F G M h1 h2 h3 h4.
rewrite /rotated_fourier_matrix; cbv zeta; cbn [fst snd] => H.
bv H w1 k0; bv H m1 k1; bv H m2 k2; bv H m3 k3; bv H m4 k4; bv H m5 k5; bv H m6 k6; case: H => <-.
have W : bget w i = Val w1 by rewrite gw h1 h2.
rewrite gz gy gm ga gb gc bget_pmap gd !bget_bmap bget_pmap W h3 h4; cbn [rmap bind lift2].
rewrite k1 k2 k3; cbn [bind lift2]; rewrite k4; cbn [bind lift2]; rewrite k5; cbn [bind lift2]; rewrite k6.
by [].
Qed.
Lemma vector_eps_ok (xx xy yx yy tx ty : batch 'M[C]_(nx, ny)) :
  nshape xx = P -> nshape xy = P -> nshape yx = P -> nshape yy = P -> nshape tx = P -> nshape ty = P ->
  exists z, [/\ transverse_permittivity_vector_anisotropic_b xx xy yx yy tx ty expn = Val z, nshape z = P &
    forall b a1 a2 a3 a4 ax ay M, bget xx b = Val a1 -> bget xy b = Val a2 -> bget yx b = Val a3 -> bget yy b = Val a4 ->
      bget tx b = Val ax -> bget ty b = Val ay ->
      transverse_permittivity_vector_anisotropic a1 a2 a3 a4 ax ay expn = Val M -> bget z b = Val M].
Proof.
move=> e1 e2 e3 e4 e5 e6; rewrite /transverse_permittivity_vector_anisotropic_b; cbv zeta.
set c1 := bmap _ tx; set c2 := bmap _ tx; set c3 := bmap _ ty.
have s1 : nshape c1 = P by []; have s2 : nshape c2 = P by []; have s3 : nshape c3 = P by [].
have [r [f [g [-> sr sf sg G]]]] := rotation_ok e6 s1 s2 s3; cbn [bind].
gr t ht st gt.
have [z [-> sz gz]] := rotated_ok st sr sf sg; exists z; split=> // b a1 a2 a3 a4 ax' ay M h1 h2 h3 h4 h5 h6.
rewrite /transverse_permittivity_vector_anisotropic => H; bv H R' k0; case: R' k0 H => -[R' F'] G' k0 H.
have q1 : bget c1 b = Val (conjm ax') by rewrite /c1 bget_bmap h5.
have q2 : bget c2 b = Val (- ax')%R by rewrite /c2 bget_bmap h5.
have q3 : bget c3 b = Val (conjm ay) by rewrite /c3 bget_bmap h6.
have [p1 p2 p3] := G b _ _ _ _ _ _ _ h6 q1 q2 q3 k0.
by apply: (gz b _ _ _ _ _ _ p1 p2 p3 H); rewrite gt !bget_bmap h1 h2 h3 h4.
Qed.
Lemma vector_mu_ok (xx xy yx yy tx ty : batch 'M[C]_(nx, ny)) :
  nshape xx = P -> nshape xy = P -> nshape yx = P -> nshape yy = P -> nshape tx = P -> nshape ty = P ->
  exists z, [/\ transverse_permeability_vector_anisotropic_b xx xy yx yy tx ty expn = Val z, nshape z = P &
    forall b a1 a2 a3 a4 ax ay M, bget xx b = Val a1 -> bget xy b = Val a2 -> bget yx b = Val a3 -> bget yy b = Val a4 ->
      bget tx b = Val ax -> bget ty b = Val ay ->
      transverse_permeability_vector_anisotropic a1 a2 a3 a4 ax ay expn = Val M -> bget z b = Val M].
Proof.
move=> e1 e2 e3 e4 e5 e6; rewrite /transverse_permeability_vector_anisotropic_b; cbv zeta.
set c1 := bmap _ (bmap _ ty); set c3 := bmap _ tx.
have s1 : nshape c1 = P by []; have s3 : nshape c3 = P by [].
have [r [f [g [-> sr sf sg G]]]] := rotation_ok e5 s1 e6 s3; cbn [bind].
gr t ht st gt.
have [z [-> sz gz]] := rotated_ok st sr sf sg; exists z; split=> // b a1 a2 a3 a4 ax' ay M h1 h2 h3 h4 h5 h6.
rewrite /transverse_permeability_vector_anisotropic => H; bv H R' k0; case: R' k0 H => -[R' F'] G' k0 H.
have q1 : bget c1 b = Val (- conjm ay)%R by rewrite /c1 !bget_bmap h6.
have q3 : bget c3 b = Val (conjm ax') by rewrite /c3 bget_bmap h5.
have [p1 p2 p3] := G b _ _ _ _ _ _ _ h5 q1 h6 q3 k0.
by apply: (gz b _ _ _ _ _ _ p1 p2 p3 H); rewrite gt h1 h2 h3 h4.
Qed.

(** ** Vector fields and Fourier matrices *)
Definition field_element (t : option (batch 'M[C]_(nx, ny) * batch 'M[C]_(nx, ny))) (b : seq nat) (g : option ('M[C]_(nx, ny) * 'M[C]_(nx, ny))) :=
  match t, g with
  | None, None => True
  | Some t, Some g => bget t.1 b = Val g.1 /\ bget t.2 b = Val g.2
  | _, _ => False
  end.
Definition field_shape (t : option (batch 'M[C]_(nx, ny) * batch 'M[C]_(nx, ny))) :=
  match t with None => True | Some t => nshape t.1 = P /\ nshape t.2 = P end.
Definition tangent1 (form1 : formulation nx ny n) (a : 'M[C]_(nx, ny)) (l : lattice) :=
  match form1 with
  | FFT => Val None
  | Vector f => '(tx, ty) <- f a expn l;; Val (Some (tx, ty))
  end.
Lemma tangent_ok form form1 (x : batch 'M[C]_(nx, ny)) u v : batch_formulation expn form form1 -> one_lattice u -> one_lattice v ->
  nshape x = P ->
  exists t, [/\ M_bfmm.tangent_b form x expn u v = Val t, field_shape t &
    forall b a g, valid_index P (bindex P b) -> bget x b = Val a -> tangent1 form1 a (Lattice (the_vector u) (the_vector v)) = Val g ->
      field_element t b g].
Proof.
case: form form1 => [|f] [|f1] //= hf hu hv ex.
  by exists None; split=> // b a g _ _ [<-].
have [tx [ty [-> e1 e2 e3]]] := hf x u v hu hv; cbn [bind]; exists (Some (tx, ty)); rewrite ex in e1 e2 e3; split=> //.
move=> b a g hb ha H; rewrite /bget ex in ha; have [k1 k2 _] := e3 _ _ hb ha.
bv H w hw; case: w hw H => gx gy hw [<-] /=.
by rewrite /bget e1 e2 k1 k2 hw.
Qed.
Variables (form : bformulation nx ny n) (form1 : formulation nx ny n) (u v : nd R).
Hypotheses (hf : batch_formulation expn form form1) (hu : one_lattice u) (hv : one_lattice v).
Let l := Lattice (the_vector u) (the_vector v).
Lemma iso_ok (x : batch 'M[C]_(nx, ny)) : nshape x = P ->
  exists iz z e t, [/\ fourier_matrices_patterned_isotropic_media_b u v x expn form = Val (iz, z, e, t),
    nshape iz = P, nshape z = P, nshape e = P /\ field_shape t &
    forall b a iz1 z1 e1 g, valid_index P (bindex P b) -> bget x b = Val a ->
      fourier_matrices_patterned_isotropic_media l a expn form1 = Val (iz1, z1, e1, g) ->
      [/\ bget iz b = Val iz1, bget z b = Val z1, bget e b = Val e1 &
          exists2 t1, g = omap (fun t => GridPair t.1 t.2) t1 & field_element t b t1]].
Proof.
move=> ex; rewrite /fourier_matrices_patterned_isotropic_media_b; cbv zeta.
have [t [-> st gt]] := tangent_ok hf hu hv ex; cbn [bind].
cv iz hiz siz giz; cv z hz sz gz.
have [e [he se ge]] : exists e, [/\ match t with None => transverse_permittivity_fft_b x expn
      | Some (tx, ty) => transverse_permittivity_vector_b x tx ty expn end = Val e, nshape e = P &
    forall b a t1 M, bget x b = Val a -> field_element t b t1 ->
      match t1 with None => transverse_permittivity_fft a expn
      | Some (tx, ty) => transverse_permittivity_vector a tx ty expn end = Val M -> bget e b = Val M].
  case: t st {gt} => [[tx ty]|] st.
    case: st => /= s1 s2; have [e [h1 h2 h3]] := vector_iso_ok ex s1 s2; exists e; split=> // b a [[t1 t2]|] // M ha [/= k1 k2].
    exact: h3 ha k1 k2.
  have [e [h1 h2 h3]] := fft_iso_ok ex; exists e; split=> // b a [[t1 t2]|] // M ha _; exact: h3.
rewrite he; cbn [bind]; exists iz, z, e, t; split=> // b a iz1 z1 e1 g hb ha.
rewrite /fourier_matrices_patterned_isotropic_media => H; bv H t1 k0; bv H r k1; bv H iz2 k2; bv H z2 k3; bv H e2 k4.
case: H => <- <- <- <-.
have ht := gt b a t1 hb ha k0.
split.
- by rewrite giz bget_pmap ha; cbn [bind]; rewrite k1.
- by rewrite gz ha.
- exact: ge ha ht k4.
- by exists t1.
Qed.
Definition tshape (x : tensor (batch 'M[C]_(nx, ny))) :=
  [/\ nshape (t_xx x) = P, nshape (t_xy x) = P, nshape (t_yx x) = P, nshape (t_yy x) = P & nshape (t_zz x) = P].
Definition tbget (x : tensor (batch 'M[C]_(nx, ny))) b (a : tensor 'M[C]_(nx, ny)) :=
  [/\ bget (t_xx x) b = Val (t_xx a), bget (t_xy x) b = Val (t_xy a), bget (t_yx x) b = Val (t_yx a),
      bget (t_yy x) b = Val (t_yy a) & bget (t_zz x) b = Val (t_zz a)].
Lemma aniso_ok (x m : tensor (batch 'M[C]_(nx, ny))) (src : batch 'M[C]_(nx, ny)) : tshape x -> tshape m -> nshape src = P ->
  exists iz z e izm zm em t, [/\ fourier_matrices_patterned_anisotropic_media_b u v x m expn form src = Val (iz, z, e, izm, zm, em, t),
    [/\ nshape iz = P, nshape z = P & nshape e = P], [/\ nshape izm = P, nshape zm = P & nshape em = P], field_shape t &
    forall b a m1 s1 iz1 z1 e1 iz2 z2 e2 g, valid_index P (bindex P b) -> tbget x b a -> tbget m b m1 -> bget src b = Val s1 ->
      fourier_matrices_patterned_anisotropic_media l a m1 expn form1 s1 = Val (iz1, z1, e1, iz2, z2, e2, g) ->
      [/\ [/\ bget iz b = Val iz1, bget z b = Val z1 & bget e b = Val e1],
          [/\ bget izm b = Val iz2, bget zm b = Val z2 & bget em b = Val e2] &
          exists2 t1, g = omap (fun t => GridPair t.1 t.2) t1 & field_element t b t1]].
Proof.
move=> [x1 x2 x3 x4 x5] [m1 m2 m3 m4 m5] es; rewrite /fourier_matrices_patterned_anisotropic_media_b; cbv zeta.
have [t [-> st gt]] := tangent_ok hf hu hv es; cbn [bind].
cv iz hiz siz giz; cv z hz sz gz.
have [e [he se ge]] : exists e, [/\ match t with None => transverse_permittivity_fft_anisotropic_b (t_xx x) (t_xy x) (t_yx x) (t_yy x) expn
      | Some (tx, ty) => transverse_permittivity_vector_anisotropic_b (t_xx x) (t_xy x) (t_yx x) (t_yy x) tx ty expn end = Val e, nshape e = P &
    forall b a t1 M, tbget x b a -> field_element t b t1 ->
      match t1 with None => transverse_permittivity_fft_anisotropic (t_xx a) (t_xy a) (t_yx a) (t_yy a) expn
      | Some (tx, ty) => transverse_permittivity_vector_anisotropic (t_xx a) (t_xy a) (t_yx a) (t_yy a) tx ty expn end = Val M -> bget e b = Val M].
  case: t st {gt} => [[tx ty]|] st.
    case: st => /= s1 s2; have [e [h1 h2 h3]] := vector_eps_ok x1 x2 x3 x4 s1 s2; exists e; split=> // b a [[t1 t2]|] // M [a1 a2 a3 a4 _] [/= k1 k2].
    exact: h3 a1 a2 a3 a4 k1 k2.
  have [e [h1 h2 h3]] := fft_eps_ok x1 x2 x3 x4; exists e; split=> // b a [[t1 t2]|] // M [a1 a2 a3 a4 _] _; exact: h3 a1 a2 a3 a4.
rewrite he; cbn [bind]; cv izm hizm sizm gizm; cv zm hzm szm gzm.
have [em [hem sem gem]] : exists e, [/\ match t with None => transverse_permeability_fft_anisotropic_b (t_xx m) (t_xy m) (t_yx m) (t_yy m) expn
      | Some (tx, ty) => transverse_permeability_vector_anisotropic_b (t_xx m) (t_xy m) (t_yx m) (t_yy m) tx ty expn end = Val e, nshape e = P &
    forall b a t1 M, tbget m b a -> field_element t b t1 ->
      match t1 with None => transverse_permeability_fft_anisotropic (t_xx a) (t_xy a) (t_yx a) (t_yy a) expn
      | Some (tx, ty) => transverse_permeability_vector_anisotropic (t_xx a) (t_xy a) (t_yx a) (t_yy a) tx ty expn end = Val M -> bget e b = Val M].
  case: t st {gt he ge} => [[tx ty]|] st.
    case: st => /= s1 s2; have [e' [h1 h2 h3]] := vector_mu_ok m1 m2 m3 m4 s1 s2; exists e'; split=> // b a [[t1 t2]|] // M [a1 a2 a3 a4 _] [/= k1 k2].
    exact: h3 a1 a2 a3 a4 k1 k2.
  have [e' [h1 h2 h3]] := fft_mu_ok m1 m2 m3 m4; exists e'; split=> // b a [[t1 t2]|] // M [a1 a2 a3 a4 _] _; exact: h3 a1 a2 a3 a4.
rewrite hem; cbn [bind]; exists iz, z, e, izm, zm, em, t; split=> // b a m1' s1 iz1 z1 e1 iz2 z2 e2 g hb ha hm hs.
rewrite /fourier_matrices_patterned_anisotropic_media => H; bv H t1 k0; bv H r k1; bv H iz3 k2; bv H z3 k3; bv H e3 k4.
bv H r' k5; bv H iz4 k6; bv H z4 k7; bv H e4 k8.
case: H => <- <- <- <- <- <- <-.
have ht := gt b s1 t1 hb hs k0.
have [_ _ _ _ a5] := ha; have [_ _ _ _ b5] := hm.
split; last by exists t1.
- split; [by rewrite giz bget_pmap a5; cbn [bind]; rewrite k1|by rewrite gz a5|exact: ge ha ht k4].
- split; [by rewrite gizm bget_pmap b5; cbn [bind]; rewrite k5|by rewrite gzm b5|exact: gem hm ht k8].
Qed.
End Fourier.

(** ** The eigensolve *)
Lemma nm3 T U V (f : T -> U -> V) x y B : bcto (nshape x) B -> bcto (nshape y) B ->
  exists z, [/\ nmap2 f x y = Val z, bcto (nshape z) B, bcto (nshape x) (nshape z), bcto (nshape y) (nshape z) &
    forall b, bget z b = f (bget x b) (bget y b)].
Proof.
move=> cx cy; have [z [h1 h2 h3]] := nm2 f cx cy; exists z; split=> //; have [/broadcast_shapesV [] //] := nmap2V h1.
Qed.
Tactic Notation "n3" constr(A) ident(z) ident(hz) ident(cz) ident(cx) ident(cy) ident(gz) := match goal with |- context [bind (nmap2 ?f ?x ?y) _] =>
  have [z [hz cz cx cy gz]] := @nm3 _ _ _ f x y A ltac:(assumption) ltac:(assumption); rewrite hz; cbn [bind] end.

Lemma script_ok n (z : batch 'M[C]_n) (kx ky : batch 'rV[R]_n) A : bcto (nshape z) A -> bcto (nshape kx) A -> nshape ky = nshape kx ->
  exists s, [/\ script_k_matrix_patterned_b z kx ky = Val s, bcto (nshape s) A, bcto (nshape z) (nshape s), bcto (nshape kx) (nshape s) &
    forall b Z k M, bget z b = Val Z -> bget kx b = Val k.1 -> bget ky b = Val k.2 ->
      script_k_matrix_patterned Z k = Val M -> bget s b = Val M].
Proof.
move=> cz cx sy; have cy : bcto (nshape ky) A by rewrite sy.
rewrite /script_k_matrix_patterned_b /bsolve /pmap2 /brow /bmap2; cbv zeta.
set kxc := bmap _ kx; set kyc := bmap _ ky.
have cxc : bcto (nshape kxc) A by []; have cyc : bcto (nshape kyc) A by [].
set kxd := bmap _ kxc; set kyd := bmap _ kyc.
have cxd : bcto (nshape kxd) A by []; have cyd : bcto (nshape kyd) A by [].
set kxm := bmap _ kxc; set kym := bmap _ kyc.
have cxm : bcto (nshape kxm) A by []; have cym : bcto (nshape kym) A by [].
n3 A zx hzx czx e1 e2 gzx; n3 A zy hzy czy e3 e4 gzy.
n3 A b11 h11 c11 e5 e6 g11; n3 A b12 h12 c12 e7 e8 g12; n3 A b21 h21 c21 e9 e10 g21; n3 A b22 h22 c22 e11 e12 g22.
have szy : nshape zy = nshape zx by apply: (same_broadcast hzy hzx).
have s12 : nshape b12 = nshape b11 by apply: (same_broadcast h12 h11).
have s21 : nshape b21 = nshape b11 by apply: (same_broadcast h21 h11).
have s22 : nshape b22 = nshape b11 by apply: (same_broadcast h22 h11).
have [s [-> ss gs]] := bblock_ok (erefl (nshape b11)) s12 s21 s22; exists s; split=> //.
- by rewrite ss.
- by rewrite ss; apply: bcto_trans e6; exact: e3.
- by rewrite ss; apply: bcto_trans e6; rewrite -sy; exact: e4.
move=> b Z k M hZ hx hy; rewrite /script_k_matrix_patterned; cbv zeta => H; bv H x1 k1; bv H x2 k2; case: H => <-.
rewrite gs g11 g12 g21 g22 gzx gzy hZ /kxm /kym /kxd /kyd /kxc /kyc !bget_bmap hx hy; cbn [rmap bind lift2].
by rewrite k1 k2.
Qed.
Lemma kmatrix_ok n (z : batch 'M[C]_n) (kx ky : batch 'rV[R]_n) A : bcto (nshape z) A -> bcto (nshape kx) A -> nshape ky = nshape kx ->
  exists s, [/\ k_matrix_patterned_b z kx ky = Val s, bcto (nshape s) A, bcto (nshape z) (nshape s), bcto (nshape kx) (nshape s) &
    forall b Z k M, bget z b = Val Z -> bget kx b = Val k.1 -> bget ky b = Val k.2 ->
      k_matrix_patterned Z k = Val M -> bget s b = Val M].
Proof.
move=> cz cx sy; have cy : bcto (nshape ky) A by rewrite sy.
rewrite /k_matrix_patterned_b /bsolve /pmap2 /brow /bmap2; cbv zeta.
set kxc := bmap _ kx; set kyc := bmap _ ky.
have cxc : bcto (nshape kxc) A by []; have cyc : bcto (nshape kyc) A by [].
set kxd := bmap _ kxc; set kyd := bmap _ kyc.
have cxd : bcto (nshape kxd) A by []; have cyd : bcto (nshape kyd) A by [].
n3 A zx hzx czx e1 e2 gzx; n3 A zy hzy czy e3 e4 gzy.
n3 A b11 h11 c11 e5 e6 g11; n3 A b12 h12 c12 e7 e8 g12; n3 A b21 h21 c21 e9 e10 g21; n3 A b22 h22 c22 e11 e12 g22.
have szy : nshape zy = nshape zx by apply: (same_broadcast hzy hzx).
have s12 : nshape b12 = nshape b11 by apply: (same_broadcast h12 h11).
have s21 : nshape b21 = nshape b11 by apply: (same_broadcast h21 h11).
have s22 : nshape b22 = nshape b11 by apply: (same_broadcast h22 h11).
have [s [-> ss gs]] := bblock_ok (erefl (nshape b11)) s12 s21 s22; exists s; split=> //.
- by rewrite ss.
- by rewrite ss; apply: bcto_trans e6; exact: e1.
- by rewrite ss.
move=> b Z k M hZ hx hy; rewrite /k_matrix_patterned; cbv zeta => H; bv H x1 k1; bv H x2 k2; case: H => <-.
rewrite gs g11 g12 g21 g22 gzx gzy hZ /kxd /kyd /kxc /kyc !bget_bmap hx hy; cbn [rmap bind lift2].
by rewrite k1 k2.
Qed.
Lemma omega_ok n (wl : nd R) (z : batch 'M[C]_n) (m : batch 'M[C]_(n + n)) (kx ky : batch 'rV[R]_n) A :
  bcto (nshape wl) A -> bcto (nshape z) A -> bcto (nshape m) A -> bcto (nshape kx) A -> nshape ky = nshape kx ->
  exists s, [/\ omega_script_k_matrix_patterned_b wl z m kx ky = Val s, bcto (nshape s) A, bcto (nshape wl) (nshape s), bcto (nshape kx) (nshape s) &
    forall b Z N k M, bget z b = Val Z -> bget m b = Val N -> bget kx b = Val k.1 -> bget ky b = Val k.2 ->
      omega_script_k_matrix_patterned (bget wl b) Z N k = Val M -> bget s b = Val M].
Proof.
move=> cw cz cm cx sy; rewrite /omega_script_k_matrix_patterned_b /bsub /bmap2.
have [sk [-> csk e1 e2 gs]] := script_ok cz cx sy; cbn [bind]; cbv zeta.
have caf : bcto (nshape (nmap angular_frequency wl)) A by [].
n3 A wm hwm cwm e3 e4 gwm.
have [s [-> cs e5 e6 g]] := nm3 (lift2 (fun A B : 'M[C]_(n + n) => A - B)%R) cwm csk; exists s; split=> //.
- exact: bcto_trans e3 e5.
- exact: bcto_trans e2 e6.
move=> b Z N k M hZ hN hx hy; rewrite /omega_script_k_matrix_patterned => H; bv H sk1 h1; bv H w h2; case: H => <-.
rewrite g gwm bget_nmap h2 hN; cbn [lift2 bind]; rewrite (gs b Z k sk1 hZ hx hy h1).
by [].
Qed.
Lemma entries_get n p (x : batch 'M[C]_(n, p)) b (i : 'I_n) (j : 'I_p) :
  bget (entries x) (b ++ [:: nat_of_ord i; nat_of_ord j]) = rmap (fun A : 'M[C]_(n, p) => A i j) (bget x b).
Proof.
rewrite /bget [nshape _]/= bindex_cat2 //; cbn [nget entries].
rewrite size_cat addnK nth_cat ltnn subnn last_cat butlast2 [nth _ _ _]/= [last _ _]/=.
case: (nget x _) => [a|] //; cbn [rmap]; congr Val; rewrite (mxgetE _ (ltn_ord i) (ltn_ord j)).
by congr (a _ _); exact: val_inj.
Qed.
Lemma ventries_get n (x : batch 'rV[C]_n) b (j : 'I_n) :
  bget (ventries x) (b ++ [:: nat_of_ord j]) = rmap (fun A : 'rV[C]_n => A 0%R j) (bget x b).
Proof.
rewrite /bget [nshape _]/= bindex_cat1 //; cbn [nget ventries].
rewrite last_cat butlast1 [last _ _]/=.
case: (nget x _) => [a|] //; cbn [rmap]; congr Val; rewrite (mxgetE _ (ltn0Sn 0) (ltn_ord j)).
by congr (a _ _); exact: val_inj.
Qed.

Lemma joint_shape A A' X Y Z : size X = size A -> bcto A' A -> bcto X A' -> bcto Y A' -> bcto Z A' ->
  (forall i, ax A i = 1 \/ ax X i = ax A i \/ ax Y i = ax A i \/ ax Z i = ax A i) -> A' = A.
Proof.
move=> es [h1 h2] [h3 h4] [_ h5] [_ h6] h; apply: ax_ext => [|i].
  by apply/eqP; rewrite eqn_leq h1 -es h3.
case: (h2 i) => // e; rewrite e; case: (h i) => [-> //|[h7|[h7|h7]]].
- by case: (h4 i); rewrite ?e -h7 => ->.
- by case: (h5 i); rewrite ?e -h7 => ->.
- by case: (h6 i); rewrite ?e -h7 => ->.
Qed.
Lemma shaped_refl T (x : nd T) s l B : nshape x = s ++ l -> bcto s B -> shaped x l B. Proof. by exists s. Qed.

Section Numeric.
Variables (eig : eig_fn) (nx ny n : nat) (wl k u v : nd R) (expn : n.-tuple (Z * Z)) (kb A P : seq nat).
Hypotheses (n0 : 0 < n) (ek : nshape k = kb ++ [:: 2]) (hu : one_lattice u) (hv : one_lattice v).
Let d := size A.
Hypotheses (cw : bcto (nshape wl) A) (ck : bcto kb A) (cu : (ndim u).-1 <= size A) (cv : (ndim v).-1 <= size A).
Hypotheses (sP : size P = size A) (cP : bcto P A) (zA : 0 \notin A).
Hypothesis hA : forall i, ax A i = 1 \/ ax (nshape wl) i = ax A i \/ ax kb i = ax A i \/ ax P i = ax A i.
Let WB := nseq (d - size (nshape wl)) 1 ++ nshape wl.
Let KB := nseq (d - size kb) 1 ++ kb.
Let CW : bcto WB A. Proof. by apply: bcto_pad => //; rewrite subnK //; case: cw. Qed.
Let CK : bcto KB A. Proof. by apply: bcto_pad => //; rewrite subnK //; case: ck. Qed.
Let sW : size WB = d. Proof. by rewrite size_cat size_nseq subnK //; case: cw. Qed.
Let sK : size KB = d. Proof. by rewrite size_cat size_nseq subnK //; case: ck. Qed.
Let ek' : nshape k = rcons kb 2. Proof. by rewrite -cats1. Qed.
Let l := Lattice (the_vector u) (the_vector v).

Lemma wave_ok : exists kt kx ky, [/\
  transverse_wavevectors_b (fin (atleast_nd k d.+1)) (fin (atleast_nd u d.+1)) (fin (atleast_nd v d.+1)) expn = Val kt,
  vectors 0%coqR n (component 0 kt) = Val kx /\ vectors 0%coqR n (component 1 kt) = Val ky,
  nshape kx = KB /\ nshape ky = KB &
  forall b k1, transverse_wavevectors (nget k (bindex kb b ++ [:: 0]), nget k (bindex kb b ++ [:: 1])) l expn = Val k1 ->
    bget kx b = Val k1.1 /\ bget ky b = Val k1.2].
Proof.
have du : size (nseq (ndim u).-1 1) <= d by rewrite size_nseq.
have dv : size (nseq (ndim v).-1 1) <= d by rewrite size_nseq.
have [kt [hk sk gk]] := wavevectors_one expn hu hv ek' (proj1 ck) du dv.
have sc c : nshape (component c kt) = KB ++ [:: n] by rewrite (component_shape c sk) cats1.
have vec c : exists kx, [/\ vectors 0%coqR n (component c kt) = Val kx, nshape kx = KB &
    forall b, bget kx b = collect 0%coqR (fun (_ : 'I_1) (j : 'I_n) => bget (component c kt) (b ++ [:: nat_of_ord j]))].
  rewrite /vectors sc size_cat addnK drop_size_cat // eqxx; cbn [check]; eexists; split; first by reflexivity.
    by rewrite [nshape _]/= butlast1.
  move=> b; rewrite /bget; cbn [nshape nget]; rewrite butlast1.
  congr collect; apply: functional_extensionality => _; apply: functional_extensionality => j.
  by rewrite sc bindex_cat1.
have [kx [hx sx gx]] := vec 0; have [ky [hy sy gy]] := vec 1; exists kt, kx, ky; split=> // b k1.
have gc c (j : 'I_n) (hc : c < 2) := gk c b j hc (ltn_ord j).
rewrite gx gy /transverse_wavevectors => H; bv H rv hr; case: H => <-; rewrite -/l hr in gc.
by split; apply: collectV => i j; rewrite (ord1 i) cats1 gc //; cbn [rmap]; congr Val; rewrite !mxE (tnth_nth (0, 0)%coqZ) !cats1.
Qed.

Variables (eps_z inv_eps_z mu_z inv_mu_z : batch 'M[C]_n) (eps_t mu_t : batch 'M[C]_(n + n)).
Variable (tvf : option (batch 'M[C]_(nx, ny) * batch 'M[C]_(nx, ny))).
Hypotheses (s1 : nshape eps_z = P) (s2 : nshape inv_eps_z = P) (s3 : nshape eps_t = P).
Hypotheses (s4 : nshape mu_z = P) (s5 : nshape inv_mu_z = P) (s6 : nshape mu_t = P) (st : field_shape P tvf).

Lemma one_atleast (w : nd R) : one_lattice w -> (ndim w).-1 <= d -> nshape (atleast_nd w d.+1) = nseq d 1 ++ [:: 2].
Proof.
move=> hw cw'; rewrite [nshape _]/= /atleast_nd_shape -hw cats1 size_rcons subSS nseq_rcons_cat -nseqD.
by rewrite size_nseq subnK // cats1.
Qed.

Lemma numeric_ok : exists r, [/\
  numerical_eigensolve_b eig (atleast_nd wl d) (atleast_nd k d.+1) (atleast_nd u d.+1) (atleast_nd v d.+1)
    eps_z inv_eps_z eps_t mu_z inv_mu_z mu_t expn (tangent_entries tvf) = Val r,
  full_batch r A,
  batched_layer r A, tangent_shaped r nx ny A &
  forall b a1 a2 a3 a4 a5 a6 t1 r1, bget eps_z b = Val a1 -> bget inv_eps_z b = Val a2 -> bget eps_t b = Val a3 ->
    bget mu_z b = Val a4 -> bget inv_mu_z b = Val a5 -> bget mu_t b = Val a6 -> field_element tvf b t1 ->
    numerical_eigensolve eig (nget wl (bindex (nshape wl) b)) (nget k (bindex kb b ++ [:: 0]), nget k (bindex kb b ++ [:: 1])) l
      a1 a2 a3 a4 a5 a6 expn (omap (fun t => GridPair t.1 t.2) t1) = Val r1 ->
    solve_element r b r1].
Proof.
have [kt [kx [ky [hk [hx hy] [sx sy] gk]]]] := wave_ok.
rewrite /numerical_eigensolve_b hk; cbn [bind]; rewrite hx hy; cbn [bind].
have cz : bcto (nshape eps_z) A by rewrite s1.
have cmz : bcto (nshape mu_z) A by rewrite s4.
have cmt : bcto (nshape mu_t) A by rewrite s6.
have cet : bcto (nshape eps_t) A by rewrite s3.
have ckx : bcto (nshape kx) A by rewrite sx.
have skk : nshape ky = nshape kx by rewrite sx.
have cwl : bcto (nshape (atleast_nd wl d)) A by [].
have [km [-> ckm e1 e2 gkm]] := kmatrix_ok cmz ckx skk; cbn [bind].
have [om [-> com e3 e4 gom]] := omega_ok cwl cz cmt ckx skk; cbn [bind].
rewrite /bmul /bsub /bmap2; n3 A x hx' cx e5 e6 gx; n3 A y hy' cy e7 e8 gy; n3 A m hm cm e9 e10 gm; cbv zeta.
have sm : nshape m = A.
  apply: (@joint_shape _ _ WB KB P) => //.
  - exact: bcto_trans (bcto_trans e3 e6) e9.
  - by rewrite -sx; exact: bcto_trans (bcto_trans e4 e6) e9.
  - by rewrite -s3; exact: bcto_trans e5 e9.
  - by move=> i; rewrite !ax_pad.
set r := BatchedResult _ _ _ _ _ _ _ _ _ _ _ _ _.
have nn : 2 * n = n + n by rewrite mul2n addnn.
have sk2 : nshape (atleast_nd k d.+1) = KB ++ [:: 2].
  by rewrite [nshape _]/= /atleast_nd_shape ek' size_rcons subSS nseq_rcons_cat cats1.
have su2 := one_atleast hu cu; have sv2 := one_atleast hv cv.
have e : shapes_of r = SolveShapes WB (KB ++ [:: 2]) (nseq d 1 ++ [:: 2]) (nseq d 1 ++ [:: 2]) n
     (A ++ [:: n + n]) (A ++ [:: n + n; n + n]) (P ++ [:: n; n]) (P ++ [:: n; n]) (P ++ [:: n; n]) (P ++ [:: n; n])
     (P ++ [:: n + n; n + n]) (omap (fun=> P ++ [:: nx; ny]) tvf).
  rewrite /shapes_of [nshape (b_in_plane_wavevector r)]sk2 [nshape (b_u r)]su2 [nshape (b_v r)]sv2.
  rewrite -[nshape (b_eigenvalues r)]/(nshape m ++ [:: n + n]) -[nshape (b_eigenvectors r)]/(nshape m ++ [:: n + n; n + n]) sm.
  rewrite -[nshape (b_z_permittivity_matrix r)]/(nshape eps_z ++ [:: n; n]) s1.
  rewrite -[nshape (b_inverse_z_permittivity_matrix r)]/(nshape inv_eps_z ++ [:: n; n]) s2.
  rewrite -[nshape (b_z_permeability_matrix r)]/(nshape mu_z ++ [:: n; n]) s4.
  rewrite -[nshape (b_inverse_z_permeability_matrix r)]/(nshape inv_mu_z ++ [:: n; n]) s5.
  rewrite -[nshape (b_transverse_permeability_matrix r)]/(nshape mu_t ++ [:: n + n; n + n]) s6.
  congr SolveShapes; rewrite -[b_tangent r]/(tangent_entries tvf) /tangent_entries.
  by case: (tvf) st => [[t1 t2]|] //= -[-> _].
have o1 : bcto (nseq d 1) A by split=> [|i]; rewrite ?size_nseq // ax_nseq1; left.
have pin : post_init (shapes_of r) = Val tt.
  have z2n : 0 < n + n by rewrite addn_gt0 n0.
  have zz1 t x' : bcto t A -> 0 < x' -> 0 \notin t ++ [:: x'].
    by move=> ct x0; rewrite mem_cat negb_or (nonempty_bcto ct zA) !inE eq_sym -lt0n x0.
  have zz2 t x' : bcto t A -> 0 < x' -> 0 \notin t ++ [:: x'; x'].
    by move=> ct x0; rewrite mem_cat negb_or (nonempty_bcto ct zA) !inE negb_or eq_sym -lt0n x0.
  have bB := bcto_refl A.
  apply/(proj1 (@C29_layer_solve_result (shapes_of r) _ _ _)); rewrite e.
  - by rewrite /= size_cat leq_addl.
  - by [].
  - move=> t; cbn [sh_wavelength sh_in_plane_wavevector sh_u sh_v sh_eigenvectors sh_z_permittivity sh_inverse_z_permittivity sh_z_permeability sh_inverse_z_permeability sh_transverse_permeability].
    rewrite !inE => h; do 9?[case/orP: h => [/eqP ->|h]]; rewrite ?(eqP h); first [by exact: nonempty_bcto CW zA | by apply: zz1 | by apply: zz2].
  - exists A, (n + n); cbn [sh_wavelength sh_in_plane_wavevector sh_u sh_v sh_num_terms sh_eigenvalues sh_eigenvectors sh_z_permittivity sh_inverse_z_permittivity sh_z_permeability sh_inverse_z_permeability sh_transverse_permeability sh_tangent].
    have c1 x' t : bcto t A -> size t = d -> consistent (t ++ [:: x']) (A ++ [:: x']).
      by move=> ct es; rewrite !cats1; apply: consistent_bcto; [apply: bcto_rcons => //; right|rewrite !size_rcons es].
    have c2 x' : consistent (P ++ [:: x'; x']) (A ++ [:: x'; x']).
      rewrite -[[:: x'; x']]/([:: x'] ++ [:: x']) !catA !cats1; apply: consistent_bcto; last by rewrite !size_rcons sP.
      by do 2!(apply: bcto_rcons; last by right).
    split; first by rewrite nn.
    split; first by split; [exact: consistent_bcto|split; [exact: c1|split; apply: c1; rewrite ?size_nseq]].
    by rewrite nn; split; [do 4!split=> //|move=> t; case: (tvf) => [?|] //= [<-]; rewrite size_cat sP].
rewrite pin; cbn [bind]; exists r; split=> //.
- split.
  + by rewrite /batch_shape -[nshape (b_eigenvectors r)]/(nshape m ++ [:: n + n; n + n]) butlast2.
  + by rewrite -sm.
  + by rewrite -sm.
  + by exists P => //; rewrite -s2.
  + by exists P => //; rewrite -s5.
- split.
  + by exists WB; rewrite ?cats0.
  + by exists KB.
  + by rewrite /one_lattice /ndim [nshape (b_u r)]su2 [nshape (b_v r)]sv2 [nshape (b_in_plane_wavevector r)]sk2 !(size_cat _ [:: 2]) !size_nseq sK !addn1.
  + by split; exists (nshape m); rewrite // sm; exact: bcto_refl.
  + by split; [exists (nshape eps_z); rewrite // s1|exists (nshape mu_t); rewrite // s6].
- rewrite /tangent_shaped -[b_tangent r]/(tangent_entries tvf); case: (tvf) st => [[t1 t2]|] //= -[q1 q2].
  by split; [exists (nshape t1); rewrite // q1|exists (nshape t2); rewrite // q2].
move=> b a1 a2 a3 a4 a5 a6 t1 r1 h1 h2 h3 h4 h5 h6 ht; rewrite /numerical_eigensolve; cbv zeta.
move=> H; bv H k1 q1; bv H k2 q2; bv H k3 q3; bv H k4 q4; case: k4 q4 H => q2' phi q4 -[<-].
have [gkx gky] := gk b k1 q1.
have gm' : bget m b = Val (a3 *m k3 - k2 *m a6)%R.
  rewrite gm gx gy h3 h6 (gkm b a4 k1 k2 h4 gkx gky q2) (gom b a1 a6 k1 k3 h1 h6 gkx gky); first by [].
  by rewrite bget_atleast.
have ge : bget (pmap (fun M : 'M[C]_(n + n) => eig M) m) b = Val (q2', phi) by rewrite bget_pmap gm'.
split.
- split.
  + split; apply/array_elementE.
    * by rewrite [b_wavelength r]/= bget_atleast.
    * rewrite /bget [nshape _]sk2 bindex_cat1 //.
      cbn [M_fmm.in_plane_wavevector fst]; have := bget_component_atleast 0 d b ek'; rewrite /bget (component_atleast_shape 0 d ek') !cats1 => <-.
      by [].
    * rewrite /bget [nshape _]sk2 bindex_cat1 //.
      cbn [M_fmm.in_plane_wavevector snd]; have := bget_component_atleast 1 d b ek'; rewrite /bget (component_atleast_shape 1 d ek') !cats1 => <-.
      by [].
  + by split=> //; rewrite [b_u r]/= [b_v r]/= !vector_atleast.
  + by split=> i; [|move=> j]; apply/array_elementE; [rewrite ventries_get|rewrite entries_get]; rewrite bget_bmap ge.
  + by split=> i j; apply/array_elementE; rewrite entries_get ?h1 ?h6.
- by move=> i j; apply/array_elementE; rewrite entries_get h2.
- by move=> i j; apply/array_elementE; rewrite entries_get h4.
- by move=> i j; apply/array_elementE; rewrite entries_get h5.
- rewrite /tangent_element -[b_tangent r]/(tangent_entries tvf); case: (tvf) t1 ht => [[t2 t3]|] [[g1 g2]|] //= -[g3 g4] i j.
  by split; apply/array_elementE; rewrite entries_get ?g3 ?g4.
Qed.
End Numeric.

(** ** Solves *)
Section Solve.
Variables (eig : eig_fn) (nx ny n : nat) (wl k u v : nd R) (expn : n.-tuple (Z * Z)) (kb pb A : seq nat).
Hypotheses (n0 : 0 < n) (ek : nshape k = kb ++ [:: 2]) (hu : one_lattice u) (hv : one_lattice v).
Hypotheses (jA : joint_batch [:: nshape wl; kb; nseq (ndim u).-1 1; nseq (ndim v).-1 1; pb] A) (zA : 0 \notin A).
Let d := size A.
Let hb s : s \in [:: nshape wl; kb; nseq (ndim u).-1 1; nseq (ndim v).-1 1; pb] -> bcto s A.
Proof. by case: jA => h _ _ /h. Qed.
Let cw : bcto (nshape wl) A. Proof. by apply: hb; rewrite !inE eqxx. Qed.
Let ck : bcto kb A. Proof. by apply: hb; rewrite !inE eqxx ?orbT. Qed.
Let cp : bcto pb A. Proof. by apply: hb; rewrite !inE eqxx ?orbT. Qed.
Let cu' : bcto (nseq (ndim u).-1 1) A. Proof. by apply: hb; rewrite !inE eqxx ?orbT. Qed.
Let cv' : bcto (nseq (ndim v).-1 1) A. Proof. by apply: hb; rewrite !inE eqxx ?orbT. Qed.
Let cu : (ndim u).-1 <= size A. Proof. by case: cu'; rewrite size_nseq. Qed.
Let cv : (ndim v).-1 <= size A. Proof. by case: cv'; rewrite size_nseq. Qed.
Let P := nseq (d - size pb) 1 ++ pb.
Let cP : bcto P A. Proof. by apply: bcto_pad => //; rewrite subnK //; case: cp. Qed.
Let sP : size P = size A. Proof. by rewrite size_cat size_nseq subnK //; case: cp. Qed.
Let hA i : ax A i = 1 \/ ax (nshape wl) i = ax A i \/ ax kb i = ax A i \/ ax P i = ax A i.
Proof.
rewrite ax_pad; case: jA => _ _ /(_ i) [s]; rewrite !inE => h es; rewrite -[ax A i]/(axis_size A i) -es.
case/orP: h => [/eqP ->|]; first by right; left.
case/orP=> [/eqP ->|]; first by right; right; left.
case/orP=> [/eqP ->|]; first by left; exact: ax_nseq1.
case/orP=> [/eqP ->|/eqP ->]; first by left; exact: ax_nseq1.
by right; right; right.
Qed.
Lemma validated_all ss : 0 < size ss -> all (fun s => s == pb ++ [:: nx; ny]) ss ->
  validate_shapes (nshape wl) (nshape k) (nshape u) (nshape v) ss = Val d.
Proof.
case: ss => [|s ss] // _ /andP [/eqP -> hs].
rewrite /validate_shapes [head _ _]/= ek last_cat [last _ _]/= eqxx; cbn [check].
have -> : all (fun p => p == pb ++ [:: nx; ny]) ((pb ++ [:: nx; ny]) :: ss) by rewrite /= eqxx.
cbn [check]; rewrite -hu -hv !butlast1 butlast2.
have zz s' : s' \in [:: nshape wl; kb; nseq (ndim u).-1 1; nseq (ndim v).-1 1; pb] -> 0 \notin s' by move=> /hb h; exact: nonempty_bcto h zA.
have [hT _] := @C27_broadcastable [:: nshape wl; kb; nseq (ndim u).-1 1; nseq (ndim v).-1 1; pb] isT zz.
have -> : batch_compatible_shapes [:: nshape wl; kb; nseq (ndim u).-1 1; nseq (ndim v).-1 1; pb] = Val true.
  apply/hT => s' t i hs' ht; have [_ /(_ i) h1] := hb hs'; have [_ /(_ i) h2] := hb ht.
  by case: h1 => h1; [left|case: h2 => h2; [right; left|right; right; rewrite -[axis_size s' i]/(ax s' i) h1]].
cbn [bind check]; congr Val; rewrite !size_cat !addnK.
apply/eqP; rewrite eqn_leq; apply/andP; split.
  by apply: max_list_le => x; rewrite !inE => h; do 4?[case/orP: h => [/eqP ->|h]]; rewrite ?(eqP h); [case: cw|case: ck|case: cu'|case: cv'|case: cp].
case: jA => _ [s' hs' es] _; rewrite /d -es; apply: max_listP; exact: (map_f size hs').
Qed.
Lemma grid_ok (p : nd C) : nshape p = pb ++ [:: nx; ny] ->
  exists x, [/\ matrices (0 : C)%R nx ny (fin (atleast_nd p d.+2)) = Val x, nshape x = P &
    forall b (a : 'M[C]_(nx, ny)), grid_element p b a -> bget x b = Val a].
Proof.
move=> ep; have es : nshape (fin (atleast_nd p d.+2)) = P ++ [:: nx; ny].
  by rewrite [nshape _]/= /atleast_nd_shape ep catA size_cat addn2 !subSS.
have [z [h1 _ h3]] := matricesV (0 : C)%R (shaped_refl es (bcto_refl P)); exists z; split=> //.
  by move: h1; rewrite /matrices es trailing2_cat eqxx; cbn [check] => -[<-]; rewrite [nshape _]/= butlast2.
move=> b a h; apply: h3 => i j; apply/array_elementE; rewrite /fin bget_nmap bget_atleast; congr Val.
exact/array_elementE/h.
Qed.
Lemma tensor_ok (p : tensor (nd C)) : tensor_shaped p (pb ++ [:: nx; ny]) ->
  exists x, [/\ tensor_mapM (fun p => matrices (0 : C)%R nx ny (fin (atleast_nd p d.+2))) p = Val x, tshape P x &
    forall b (a : tensor 'M[C]_(nx, ny)), tensor_element p b a -> tbget x b a].
Proof.
case: p => p1 p2 p3 p4 p5 [/= e1 e2 e3 e4 e5].
have [x1 [h1 s1 g1]] := grid_ok e1; have [x2 [h2 s2 g2]] := grid_ok e2; have [x3 [h3 s3 g3]] := grid_ok e3.
have [x4 [h4 s4 g4]] := grid_ok e4; have [x5 [h5 s5 g5]] := grid_ok e5.
rewrite /tensor_mapM; cbn [t_xx t_xy t_yx t_yy t_zz]; rewrite h1 h2 h3 h4 h5; cbn [bind].
exists (Tensor x1 x2 x3 x4 x5); split=> // b a [q1 q2 q3 q4 q5].
by split; [exact: g1|exact: g2|exact: g3|exact: g4|exact: g5].
Qed.
Let valP B b : bcto A B -> valid_index B b -> valid_index P (bindex P b).
Proof. by move=> c; apply: valid_bindex; exact: bcto_trans cP c. Qed.
Let one_up (w : nd R) : one_lattice w -> (ndim w).-1 <= d -> one_lattice (atleast_nd w d.+1).
Proof. by move=> h1 h2; have e := one_atleast h1 h2; rewrite /one_lattice /ndim e size_cat size_nseq addn1. Qed.
Variables (form : bformulation nx ny n) (form1 : formulation nx ny n).
Hypotheses (hf : batch_formulation expn form form1) (hr : resolves nx ny expn).
Let l := Lattice (the_vector u) (the_vector v).
Let n0' : n <> 0. Proof. by move=> e; move: n0; rewrite e. Qed.
Let K b := (nget k (bindex kb b ++ [:: 0]), nget k (bindex kb b ++ [:: 1])).
Let W b := nget wl (bindex (nshape wl) b).
Let latE : Lattice (the_vector (atleast_nd u d.+1)) (the_vector (atleast_nd v d.+1)) = l.
Proof. by rewrite !vector_atleast. Qed.

Lemma patterned_iso (eps : nd C) : nshape eps = pb ++ [:: nx; ny] ->
  exists r, [/\ eigensolve_patterned_isotropic_media_b eig wl k u v eps expn form = Val r,
    full_batch r A, batched_layer r A, tangent_shaped r nx ny A &
    forall B b e1 r1, bcto A B -> valid_index B b -> grid_element eps b e1 ->
      eigensolve_patterned_isotropic_media eig (W b) (K b) l e1 expn form1 = Val r1 -> solve_element r b r1].
Proof.
move=> ep; rewrite /eigensolve_patterned_isotropic_media_b validated_all //=; last by rewrite ep eqxx.
have [x [-> sx gx]] := grid_ok ep; cbn [bind].
have [iz [z [e [t [-> s1 s2 [s3 s4] g]]]]] := iso_ok n0' hr hf (one_up hu cu) (one_up hv cv) sx; cbn [bind]; cbv zeta.
rewrite latE in g; rewrite s2.
have so : nshape (eyes n P) = P by []; have sz : nshape (zeros n P) = P by [].
have [mt [-> smt gmt]] := bblock_ok so sz sz so; cbn [bind].
have [r [h1 h2 h3 h4 h5]] := @numeric_ok eig nx ny n wl k u v expn kb A P n0 ek hu hv cw ck cu cv sP cP zA hA _ _ _ _ _ _ _ s2 s1 s3 so so smt s4.
exists r; split=> // B b e1 r1 cB hv1 he; rewrite /eigensolve_patterned_isotropic_media => H; bv H q hq.
case: q hq H => -[[iz1 z1] et1] g1 hq H.
have [k1 k2 k3 [t1 k4 k5]] := g b e1 iz1 z1 et1 g1 (valP cB hv1) (gx b e1 he) hq.
have dz : (diag (const_mx 0) = 0 :> 'M[C]_n)%R by apply/matrixP => i j; rewrite !mxE; case: eqP.
rewrite dz k4 in H; apply: (h5 b _ _ _ _ _ _ t1 r1 k2 k1 k3 _ _ _ k5 H) => //.
by rewrite gmt.
Qed.
Lemma patterned_aniso (eps mu : tensor (nd C)) (src : nd C) : tensor_shaped eps (pb ++ [:: nx; ny]) ->
  tensor_shaped mu (pb ++ [:: nx; ny]) -> nshape src = pb ++ [:: nx; ny] ->
  exists r, [/\ eigensolve_patterned_general_anisotropic_media_b eig wl k u v eps mu expn form src = Val r,
    full_batch r A, batched_layer r A, tangent_shaped r nx ny A &
    forall B b e1 m1 s1 r1, bcto A B -> valid_index B b -> tensor_element eps b e1 -> tensor_element mu b m1 -> grid_element src b s1 ->
      eigensolve_patterned_general_anisotropic_media eig (W b) (K b) l e1 m1 expn form1 s1 = Val r1 -> solve_element r b r1].
Proof.
move=> ee em es; rewrite /eigensolve_patterned_general_anisotropic_media_b validated_all //; last first.
  case: ee => a1 a2 a3 a4 a5; case: em => b1 b2 b3 b4 b5.
  by rewrite /tensor_seq /= a1 a2 a3 a4 a5 b1 b2 b3 b4 b5 es !eqxx.
cbn [bind]; cbv zeta.
have [x [-> sx gx]] := tensor_ok ee; cbn [bind]; have [m [-> sm gm]] := tensor_ok em; cbn [bind].
have [s [-> ss gs]] := grid_ok es; cbn [bind].
have [iz [z [e [izm [zm [em' [t [-> [s1 s2 s3] [s4 s5 s6] s7 g]]]]]]]] := aniso_ok n0' hr hf (one_up hu cu) (one_up hv cv) sx sm ss; cbn [bind].
rewrite latE in g.
have [r [h1 h2 h3 h4 h5]] := @numeric_ok eig nx ny n wl k u v expn kb A P n0 ek hu hv cw ck cu cv sP cP zA hA _ _ _ _ _ _ _ s2 s1 s3 s5 s4 s6 s7.
exists r; split=> // B b e1 m1 q1 r1 cB hv1 he hm hq; rewrite /eigensolve_patterned_general_anisotropic_media => H; bv H q hq'.
case: q hq' H => -[[[[[iz1 z1] et1] iz2] z2] et2] g1 hq' H.
have [[k1 k2 k3] [k4 k5 k6] [t1 k7 k8]] := g b e1 m1 q1 iz1 z1 et1 iz2 z2 et2 g1 (valP cB hv1) (gx b e1 he) (gm b m1 hm) (gs b q1 hq) hq'.
apply: (h5 b z1 iz1 et1 z2 iz2 et2 t1 r1) => //.
by rewrite -k7.
Qed.

(** Uniform layers: all matrices have the joint shape. *)
Let axes i : (ax (nshape wl) i = 1 \/ ax (nshape wl) i = ax A i) /\ (ax kb i = 1 \/ ax kb i = ax A i) /\ (ax pb i = 1 \/ ax pb i = ax A i).
Proof. by case: cw => _ /(_ i) h1; case: ck => _ /(_ i) h2; case: cp => _ /(_ i) h3. Qed.
Lemma joint_of_three : exists2 s, broadcast_shapes (nshape (atleast_nd wl d)) (butlast 1 (nshape (atleast_nd k d.+1))) = Val s &
  broadcast_shapes s P = Val A.
Proof.
have skk : nshape (atleast_nd k d.+1) = rcons (nseq (d - size kb) 1 ++ kb) 2.
  by rewrite [nshape _]/= /atleast_nd_shape ek cats1 size_rcons subSS nseq_rcons_cat.
rewrite skk -cats1 butlast1; set KB := nseq _ _ ++ kb; set WB := nshape _.
have CW : bcto WB A by apply: bcto_pad => //; rewrite subnK //; case: cw.
have CK : bcto KB A by apply: bcto_pad => //; rewrite subnK //; case: ck.
have sW : size WB = d by rewrite size_cat size_nseq subnK //; case: cw.
have sK : size KB = d by rewrite size_cat size_nseq subnK //; case: ck.
have [s h cs] := broadcast_ok CW CK; exists s => //.
have [e1 e2 _ _] := broadcast_shapesV h.
apply: broadcast_eq => //; first by rewrite e1 sW sK sP !maxnn.
move=> i; have := hA i; rewrite e2 /bdim /WB /KB /P !ax_pad; have [h1 [h2 h3]] := axes i => h4.
by case: eqP => h5; case: eqP h5 => h6 h5; case: h1 => h1; case: h2 => h2; case: h3 => h3; rewrite ?h1 ?h2 ?h3 in h4 h5 h6 |- * => //; case: h4 => [|[|[]]] h4; rewrite ?h4 //; exfalso; congruence.
Qed.
Lemma component_ok (p : nd C) : nshape p = pb ++ [:: 1; 1] ->
  exists x : batch 'rV[C]_n, [/\ (x <- broadcast_to (fin (component 0 (atleast_nd p d.+2))) (rcons A n);; vectors (0 : C)%R n x) = Val x, nshape x = A &
    forall b a, array_element p (b ++ [:: 0; 0]) a -> bget x b = Val (const_mx a)].
Proof.
move=> ep; have ep' : nshape p = rcons (pb ++ [:: 1]) 1 by rewrite ep -cats1 -catA.
have sc : nshape (component 0 (atleast_nd p d.+2)) = rcons P 1.
  by rewrite (component_atleast_shape 0 d.+1 ep') size_cat addn1 subSS catA cats1.
have [|z hz [sz gz]] := @broadcast_to_ok _ (fin (component 0 (atleast_nd p d.+2))) (rcons A n).
  by rewrite -[nshape (fin _)]/(nshape (component 0 (atleast_nd p d.+2))) sc; apply: bcto_rcons => //; left.
rewrite hz; cbn [bind].
have [|x [hx cx gx]] := @vectorsV _ (0 : C)%R n z A; first by exists A; [rewrite sz cats1|exact: bcto_refl].
exists x; split=> //.
  by move: hx; rewrite /vectors sz size_rcons subn1 -cats1 drop_size_cat // eqxx; cbn [check] => -[<-]; rewrite [nshape _]/= butlast1.
move=> b a /array_elementE ha; rewrite gx; apply: collectV => i j; rewrite mxE cats1.
have -> : bget z (rcons b j) = bget (fin (component 0 (atleast_nd p d.+2))) (rcons b j).
  rewrite {1}/bget gz /bget sz; congr nget; apply: bindexT.
  by rewrite -[nshape (fin _)]/(nshape (component 0 (atleast_nd p d.+2))) sc; apply: bcto_rcons => //; left.
rewrite /fin bget_nmap; congr Val; rewrite -ha (bget_component_atleast 0 d.+1 (rcons b j) ep') cats1 bindex_rcons eqxx.
by rewrite /bget ep bindex_cat2 // -!cats1 -catA.
Qed.
Lemma uniform_aniso (eps mu : tensor (nd C)) : tensor_shaped eps (pb ++ [:: 1; 1]) -> tensor_shaped mu (pb ++ [:: 1; 1]) -> nx = 1 -> ny = 1 ->
  exists r, [/\ eigensolve_uniform_general_anisotropic_media_b eig wl k u v eps mu expn = Val r,
    full_batch r A, batched_layer r A, tangent_shaped r nx ny A &
    forall b (e1 m1 : tensor C), 
      [/\ array_element (t_xx eps) (b ++ [:: 0; 0]) (t_xx e1), array_element (t_xy eps) (b ++ [:: 0; 0]) (t_xy e1),
          array_element (t_yx eps) (b ++ [:: 0; 0]) (t_yx e1), array_element (t_yy eps) (b ++ [:: 0; 0]) (t_yy e1) &
          array_element (t_zz eps) (b ++ [:: 0; 0]) (t_zz e1)] ->
      [/\ array_element (t_xx mu) (b ++ [:: 0; 0]) (t_xx m1), array_element (t_xy mu) (b ++ [:: 0; 0]) (t_xy m1),
          array_element (t_yx mu) (b ++ [:: 0; 0]) (t_yx m1), array_element (t_yy mu) (b ++ [:: 0; 0]) (t_yy m1) &
          array_element (t_zz mu) (b ++ [:: 0; 0]) (t_zz m1)] ->
      forall r1, eigensolve_uniform_general_anisotropic_media eig (W b) (K b) l e1 m1 expn = Val r1 -> solve_element r b r1].
Proof.
case: eps mu => p1 p2 p3 p4 p5 [q1 q2 q3 q4 q5] [/= e1 e2 e3 e4 e5] [/= f1 f2 f3 f4 f5] x1 y1.
rewrite /eigensolve_uniform_general_anisotropic_media_b.
have -> : all (fun p : nd C => trailing2 (nshape p) == [:: 1; 1]) (tensor_seq (Tensor p1 p2 p3 p4 p5) ++ tensor_seq (Tensor q1 q2 q3 q4 q5)).
  by rewrite /tensor_seq /= e1 e2 e3 e4 e5 f1 f2 f3 f4 f5 trailing2_cat eqxx.
cbn [check]; rewrite validated_all //; last first.
  by rewrite /tensor_seq /= e1 e2 e3 e4 e5 f1 f2 f3 f4 f5 x1 y1 !eqxx.
cbn [bind]; cbv zeta.
have -> : butlast 2 (nshape (t_xx (tensor_map (fun p => atleast_nd p d.+2) (Tensor p1 p2 p3 p4 p5)))) = P.
  by rewrite -[nshape _]/(atleast_nd_shape (nshape p1) d.+2) /atleast_nd_shape e1 catA size_cat addn2 !subSS butlast2.
have [s -> hs] := joint_of_three; cbn [bind]; rewrite hs; cbn [bind].
have [a1 [h1 s1 g1]] := component_ok e1; have [a2 [h2 s2 g2]] := component_ok e2; have [a3 [h3 s3 g3]] := component_ok e3.
have [a4 [h4 s4 g4]] := component_ok e4; have [a5 [h5 s5 g5]] := component_ok e5.
have [b1 [k1 t1 u1]] := component_ok f1; have [b2 [k2 t2 u2]] := component_ok f2; have [b3 [k3 t3 u3]] := component_ok f3.
have [b4 [k4 t4 u4]] := component_ok f4; have [b5 [k5 t5 u5]] := component_ok f5.
rewrite /tensor_mapM /tensor_map; cbn [t_xx t_xy t_yx t_yy t_zz].
rewrite h1 h2 h3 h4 h5; cbn [bind]; rewrite k1 k2 k3 k4 k5; cbn [bind t_xx t_xy t_yx t_yy t_zz].
set D := bmap _; set Ng := bmap _.
have sD (x : batch 'rV[C]_n) : nshape x = A -> nshape (D x) = A by [].
have sN (x : batch 'rV[C]_n) : nshape x = A -> nshape (Ng x) = A by [].
have [et [-> set get]] := bblock_ok (sD _ s4) (sD _ (sN _ s3)) (sD _ (sN _ s2)) (sD _ s1); cbn [bind].
have [mt [-> smt gmt]] := bblock_ok (sD _ t1) (sD _ t2) (sD _ t3) (sD _ t4); cbn [bind].
have sR (x : batch 'rV[C]_n) : nshape x = A -> nshape (D (pmap (fun v => recip v) x)) = A by [].
have [|r [r1 r2 r3 r4 r5]] := @numeric_ok eig nx ny n wl k u v expn kb A A n0 ek hu hv cw ck cu cv erefl (bcto_refl A) zA _ _ _ _ _ _ _ None
   (sD _ s5) (sR _ s5) set (sD _ t5) (sR _ t5) smt I.
  by move=> i; right; right; right.
exists r; split=> // b [c1 c2 c3 c4 c5] [d1 d2 d3 d4 d5] [/= i1 i2 i3 i4 i5] [/= j1 j2 j3 j4 j5] r'.
rewrite /eigensolve_uniform_general_anisotropic_media; cbv zeta; cbn [t_xx t_xy t_yx t_yy t_zz] => H; bv H z1 w1; bv H z2 w2.
have gD x b' (a : C) : bget x b' = Val (const_mx a) -> bget (D x) b' = Val (diag (const_mx a)) by move=> h; rewrite /D bget_bmap h.
have gN x b' (a : C) : bget x b' = Val (const_mx a) -> bget (Ng x) b' = Val (const_mx (- a)%R).
  by move=> h; rewrite /Ng bget_bmap h; congr Val; apply/rowP => i; rewrite !mxE.
have gR x b' (a z : C) : bget x b' = Val (const_mx a) -> recipC a = Val z -> bget (pmap (fun v => recip v) x) b' = Val (const_mx z).
  move=> h; rewrite /recipC bget_pmap h; cbn [bind]; rewrite /recip; case: ifP => // ha [<-].
  case: ifP => [_|/negP []]; last by apply/forallP => i; rewrite mxE ha.
  by congr Val; apply/rowP => i; rewrite !mxE.
apply: (r5 b _ _ _ _ _ _ None r' _ _ _ _ _ _ _ H) => //.
- exact/gD/g5.
- by apply/gD/gR/w1/g5.
- by rewrite get (gD _ _ _ (g4 b c4 i4)) (gD _ _ _ (gN _ _ _ (g3 b c3 i3))) (gD _ _ _ (gN _ _ _ (g2 b c2 i2))) (gD _ _ _ (g1 b c1 i1)).
- exact/gD/u5.
- by apply/gD/gR/w2/u5.
- by rewrite gmt (gD _ _ _ (u1 b d1 j1)) (gD _ _ _ (u2 b d2 j2)) (gD _ _ _ (u3 b d3 j3)) (gD _ _ _ (u4 b d4 j4)).
Qed.
End Solve.

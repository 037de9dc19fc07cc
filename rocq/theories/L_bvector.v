(** Lemmas for tangent vector fields of batches of arrays. *)
From Coq Require Import Reals ZArith FunctionalExtensionality.
From mathcomp Require Import all_ssreflect all_algebra.
From Coq Require Import Lia.
From Verif Require Import Tac CField Err LinAlg M_utils M_basis M_fft M_fmm_matrices M_nd M_fmm M_vector M_batch M_bstack M_bvector
  S_utils P_utils S_fft L_fft S_batch L_batch L_broadcast S_bstack L_bstack S_bvector L_vector P_tangent.
Set Implicit Arguments. Unset Strict Implicit. Unset Printing Implicit Defensive.

(** ** Row-major order *)
Lemma valid_cons d sh i idx : valid_index (d :: sh) (i :: idx) = (i < d) && valid_index sh idx.
Proof. by rewrite /valid_index /= eqSS; case: (size idx == size sh); rewrite /= ?andbT ?andbF. Qed.
Lemma ravel_lt sh idx : valid_index sh idx -> ravel sh idx < num_elements sh.
Proof.
elim: sh idx => [|d sh IH] [|i idx] //; rewrite valid_cons => /andP [hi /IH h] /=.
apply: leq_trans (_ : i * num_elements sh + num_elements sh <= _); first by rewrite ltn_add2l.
by rewrite -mulSnr leq_mul2r hi orbT.
Qed.
Lemma unravel_ravel sh idx : valid_index sh idx -> unravel sh (ravel sh idx) = idx.
Proof.
elim: sh idx => [|d sh IH] [|i idx] //; rewrite valid_cons => /andP [hi hv]; cbn [ravel unravel].
have h := ravel_lt hv.
have p : 0 < num_elements sh by apply: leq_ltn_trans h.
by rewrite divnMDl // divn_small // addn0 modnMDl modn_small // IH.
Qed.
Lemma unravel_valid sh k : k < num_elements sh -> valid_index sh (unravel sh k).
Proof.
elim: sh k => [|d sh IH] k //= hk; rewrite valid_cons.
have p : 0 < num_elements sh by case: (num_elements sh) hk => //; rewrite muln0.
by rewrite ltn_divLR // hk IH // ltn_mod.
Qed.
Lemma ravel_unravel sh k : k < num_elements sh -> ravel sh (unravel sh k) = k.
Proof.
elim: sh k => [|d sh IH] k /=; first by case: k.
move=> hk; have p : 0 < num_elements sh by case: (num_elements sh) hk => //; rewrite muln0.
by rewrite IH ?ltn_mod // -divn_eq.
Qed.
Lemma num_elements_cat s t : num_elements (s ++ t) = num_elements s * num_elements t.
Proof. by elim: s => [|d s IH] /=; rewrite ?mul1n // IH mulnA. Qed.
Lemma num_elements_ones d : num_elements (nseq d 1) = 1.
Proof. by elim: d => //= d ->. Qed.
Lemma unravel_cat2 s k c : c < 2 -> k < num_elements s -> unravel (s ++ [:: 2]) (k * 2 + c) = unravel s k ++ [:: c].
Proof.
move=> hc; elim: s k => [|d s IH] k hk.
  by case: k hk => //= _; rewrite divn1.
cbn [cat unravel]; rewrite num_elements_cat -[num_elements [:: 2]]/2.
have p : 0 < num_elements s by move: hk; rewrite -[num_elements (d :: s)]/(d * num_elements s); case: (num_elements s) => [|m _ //]; rewrite muln0.
have e : (k * 2 + c) = (k %/ num_elements s) * (num_elements s * 2) + ((k %% num_elements s) * 2 + c).
  by rewrite {1}(divn_eq k (num_elements s)) mulnDl addnA mulnA.
have l : (k %% num_elements s) * 2 + c < num_elements s * 2.
  have h := ltn_pmod k p; apply: leq_trans (_ : (k %% num_elements s).+1 * 2 <= _); last by rewrite leq_mul2r h orbT.
  by rewrite mulSnr ltn_add2l.
rewrite {1 2}e divnMDl ?muln_gt0 ?p // (divn_small l) addn0 modnMDl (modn_small l); congr (_ :: _).
by apply: IH; rewrite ltn_mod.
Qed.
Lemma unravel_ones d : unravel (nseq d 1) 0 = nseq d 0.
Proof. by elim: d => //= d IH; rewrite num_elements_ones modn1 IH. Qed.
Lemma all_indices_size sh : size (all_indices sh) = num_elements sh.
Proof. by elim: sh => //= d sh IH; rewrite size_allpairs size_iota IH. Qed.
Lemma all_indices_mem sh idx : valid_index sh idx -> idx \in all_indices sh.
Proof.
elim: sh idx => [|d sh IH] [|i idx] //; rewrite valid_cons => /andP [hi /IH h] /=.
by apply/allpairsP; exists (i, idx); rewrite /= mem_iota.
Qed.
Lemma index_cons_map (i : nat) (t : seq nat) L : index (i :: t) (map (cons i) L) = index t L.
Proof. by apply: (@index_map _ _ (cons i)) => x y [->]. Qed.
Lemma index_pairs (t : seq nat) L a d i : t \in L -> a <= i -> i < a + d ->
  index (i :: t) [seq x :: y | x <- iota a d, y <- L] = (i - a) * size L + index t L.
Proof.
move=> ht; elim: d a => [|d IH] a ha; first by rewrite addn0 ltnNge ha.
move=> hi; cbn [iota map flatten foldr allpairs]; rewrite index_cat.
case: (ltngtP a i) ha => // [lt|->] _; last first.
  by rewrite map_f // index_cons_map subnn mul0n.
rewrite ifF; last by apply/negP => /mapP [y _ [e _]]; rewrite e ltnn in lt.
rewrite size_map IH //; last by rewrite addSnnS.
by rewrite addnA -mulSn -subSn // subSS.
Qed.
Lemma ravel_index sh idx : valid_index sh idx -> ravel sh idx = index idx (all_indices sh).
Proof.
elim: sh idx => [|d sh IH] [|i idx] //; rewrite valid_cons => /andP [hi hv].
by cbn [ravel all_indices]; rewrite index_pairs ?subn0 ?all_indices_size ?IH //; exact: all_indices_mem.
Qed.

(** ** Lattices *)
Lemma lattice_rows_ok (x : nd R) s m : nshape x = s ++ [:: 2] -> (num_elements s == 1) || (num_elements s == m) ->
  exists2 z, lattice_rows x m = Val z & forall k, k < m -> forall c, c < 2 ->
    nget z [:: k; c] = nget x (unravel s (if num_elements s == 1 then 0 else k) ++ [:: c]).
Proof.
move=> ex hm; have ne : num_elements (nshape x) = num_elements s * 2 by rewrite ex num_elements_cat.
rewrite /lattice_rows /reshape ne mulnK // /= muln1 eqxx; cbn [check bind].
rewrite /broadcast_to; cbn [nshape].
have -> : broadcast_shapes [:: num_elements s; 2] [:: m; 2] = Val [:: m; 2].
  rewrite /broadcast_shapes /= /ax /= /bdim /= !andbT.
  by case/orP: hm => /eqP ->; rewrite ?eqxx /= ?orbT //; case: eqP => [->|].
cbn [bind]; rewrite eqxx; cbn [check]; eexists; first by reflexivity.
move=> k hk c hc; rewrite /bget; cbn [nshape nget].
have -> : bindex [:: num_elements s; 2] [:: k; c] = [:: if num_elements s == 1 then 0 else k; c].
  by rewrite /bindex /= /ax /=.
rewrite ex /= !muln1 addn0; congr nget; apply: unravel_cat2 => //.
by case: ifP hm => [/eqP -> //|_ /= /eqP ->].
Qed.
Lemma lattice_rows_bad (x : nd R) s m : nshape x = s ++ [:: 2] -> num_elements s <> 1 -> num_elements s <> m ->
  lattice_rows x m = Exn ValueError.
Proof.
move=> ex /eqP h1 /eqP hm; have ne : num_elements (nshape x) = num_elements s * 2 by rewrite ex num_elements_cat.
rewrite /lattice_rows /reshape ne mulnK // /= muln1 eqxx; cbn [check bind].
rewrite /broadcast_to; cbn [nshape].
rewrite /broadcast_shapes /= /ax /= /bdim /= (negbTE h1) (negbTE hm) /= !andbT orbF.
by case: (m =P 1) => [em|] //=; rewrite eqseq_cons (negbTE hm).
Qed.

(** ** Errors *)
Lemma validE nx ny n (expn : n.-tuple (Z * Z)) : n <> 0 -> resolves nx ny expn ->
  validate_shape_for_expansion (nx, ny) expn = Val tt.
Proof. by move=> h0 hr; apply: (proj2 (validateP nx ny expn)). Qed.
Lemma invN n (A : 'M[C]_n) : nonfinite (inv A).
Proof. by move=> e; rewrite /inv; case: ifP => // _ [<-]. Qed.
Lemma wavevectorsN k n (expn : n.-tuple (Z * Z)) l : nonfinite (transverse_wavevectors k l expn).
Proof. by rewrite /transverse_wavevectors; apply: bindN => [|y]; [exact: reciprocalN|exact: ValN]. Qed.
Lemma normalized_basisN l : nonfinite (normalized_basis l).
Proof. by rewrite /normalized_basis; apply: bindN => [|y]; [exact: recipRN|exact: ValN]. Qed.
Lemma transform_gradientN nx ny B (g : vfield nx ny) : nonfinite (transform_gradient B g).
Proof. by rewrite /transform_gradient; apply: bindN => [|y]; [exact: invN|exact: ValN]. Qed.
Lemma fftN nx ny n (x : 'M[C]_(nx, ny)) (expn : n.-tuple (Z * Z)) : n <> 0 -> resolves nx ny expn -> nonfinite (fft x expn).
Proof. by move=> h0 hr; rewrite /fft validE //; exact: ValN. Qed.
Lemma ifftN nx ny n (x : 'cV[C]_n) (expn : n.-tuple (Z * Z)) : n <> 0 -> resolves nx ny expn -> nonfinite (ifft x expn nx ny).
Proof. by move=> h0 hr; rewrite /ifft validE //; exact: ValN. Qed.
Lemma ifft_fieldN nx ny n (F : 'M[C]_(n, 2)) (expn : n.-tuple (Z * Z)) : n <> 0 -> resolves nx ny expn -> nonfinite (ifft_field F expn nx ny).
Proof.
move=> h0 hr; rewrite /ifft_field; apply: bindN => [|x]; first exact: ifftN.
by apply: bindN => [|y]; [exact: ifftN|exact: ValN].
Qed.
Lemma vector_gradientN nx ny (g : vfield nx ny) l : nonfinite (vector_field_gradient g l).
Proof.
rewrite /vector_field_gradient; apply: bindN => [|B]; first exact: normalized_basisN.
by do 2!(apply: bindN => [|?]; first exact: transform_gradientN); exact: ValN.
Qed.
Lemma field_lossN nx ny n (F : 'M[C]_(n, 2)) (expn : n.-tuple (Z * Z)) l (t : vfield nx ny) w fw sw :
  n <> 0 -> resolves nx ny expn -> nonfinite (field_loss F expn l t w fw sw).
Proof.
move=> h0 hr; rewrite /field_loss; apply: bindN => [|v]; first exact: ifft_fieldN.
apply: bindN => [|a].
  case: (Rlt_dec _ _) => [?|?]; last exact: ValN.
  rewrite /fourier_loss; apply: bindN => [|f]; last exact: ValN.
  by apply: bindN => [|k]; [exact: wavevectorsN|exact: ValN].
apply: bindN => [|c]; last exact: ValN.
case: (Rlt_dec _ _) => [?|?]; last exact: ValN.
rewrite /smoothness_loss; apply: bindN => [|f]; last exact: ValN.
by apply: bindN => [|k]; [exact: vector_gradientN|exact: ValN].
Qed.
Lemma newtonN m (f : 'cV[C]_m -> R) s z : nonfinite (newton f s z).
Proof.
elim: s z => [|s IH] z; first exact: ValN.
cbn [newton]; apply: bindN => [|x]; last exact: IH.
by rewrite /newton_step; apply: bindN => [|x]; [exact: solveN|exact: ValN].
Qed.
Lemma tangentN nx ny n (arr : 'M[C]_(nx, ny)) (expn : n.-tuple (Z * Z)) l j fw sw s : n <> 0 -> resolves nx ny expn ->
  nonfinite (compute_tangent_field arr expn l j fw sw s).
Proof.
move=> h0 hr; rewrite /compute_tangent_field; have -> : n != 0 by apply/eqP.
cbn [check]; cbv zeta.
have hd := @doubled_resolves nx ny n expn h0.
apply: bindN => [|g].
  by rewrite /compute_gradient; apply: bindN => [|B]; [exact: normalized_basisN|exact: transform_gradientN].
have fN (x : 'M[C]_(nx, ny)) : nonfinite (filter_and_adjust_resolution x expn).
  by rewrite /filter_and_adjust_resolution; apply: bindN => [|y]; [exact: fftN|exact: ifftN].
apply: bindN => [|gx]; first exact: fN.
apply: bindN => [|gy]; first exact: fN.
case: is_1d_field => d a; apply: bindN => [|F].
  by rewrite /fft_field; apply: bindN => [|x]; [exact: fftN|apply: bindN => [|y]; [exact: fftN|exact: ValN]].
apply: bindN => [|_]; first exact: field_lossN.
rewrite validE //; cbn [bind]; apply: bindN => [|v]; last exact: ValN.
case: d; first exact: ValN.
by apply: bindN => [|z]; [exact: newtonN|exact: ifft_fieldN].
Qed.

(** Proofs about the Fourier matrices of the eigensolves. *)
From Coq Require Import Reals ZArith Lra Lia.
From mathcomp Require Import all_ssreflect all_algebra all_fingroup.
From Verif Require Import CField Err LinAlg M_utils M_basis M_fft M_fmm_matrices M_fmm M_scattering M_fields S_stack S_maxwell S_fft L_scattering L_stack L_maxwell L_flux L_fft P_maxwell P_fft.
Set Implicit Arguments. Unset Strict Implicit. Unset Printing Implicit Defensive.
Import GRing.Theory.
Local Open Scope ring_scope.

Definition convm nx ny n (expn : n.-tuple (Z * Z)) (x : 'M[C]_(nx, ny)) : 'M[C]_n :=
  \matrix_(i, j) fourier_coefficient x (standard_toeplitz_index expn i j).

Section Conv.
Variables (nx ny n : nat) (expn : n.-tuple (Z * Z)).
Hypotheses (n0 : n <> 0%N) (hr : resolves nx ny expn).
Implicit Types x y : 'M[C]_(nx, ny).

Lemma convE x : fourier_convolution_matrix x expn = Val (convm expn x).
Proof. by have [T hT] := conv_total x n0 hr; rewrite hT (conv_entry hT). Qed.
Lemma conv_const (c : C) : distinct expn -> convm expn (const_mx c : 'M_(nx, ny)) = c%:M.
Proof. by move=> hd; apply: (C18_constant hd (convE _)). Qed.
Lemma conv_lin a x y : convm expn (a *: x + y) = a *: convm expn x + convm expn y.
Proof. by have := C18_linear a (convE x) (convE y); rewrite convE => -[]. Qed.
Lemma conv0 : convm expn (0 : 'M_(nx, ny)) = 0.
Proof.
apply: (@addrI _ (convm expn (0 : 'M_(nx, ny)))); rewrite addr0.
by rewrite -{1}[convm expn 0]scale1r -conv_lin scaler0 addr0.
Qed.
Lemma convN x : convm expn (- x) = - convm expn x.
Proof. by rewrite -[- x]scaleN1r -[-1 *: x]addr0 conv_lin conv0 addr0 scaleN1r. Qed.
Lemma conv_conj x : convm expn (conjm x) = adjm (convm expn x).
Proof. exact: (C18_conjugate (convE x) (convE _)). Qed.
End Conv.

(** A finite convolution matrix means the grid resolves the expansion. *)
Lemma convV nx ny n (x : 'M[C]_(nx, ny)) (expn : n.-tuple (Z * Z)) T :
  fourier_convolution_matrix x expn = Val T -> n <> 0%N /\ resolves nx ny expn.
Proof.
rewrite /fourier_convolution_matrix; case: (validateE nx ny expn) => e; rewrite e //= => _.
exact/validateP.
Qed.
Lemma recipM_const nx ny (c : C) : c != 0 -> recipM (const_mx c : 'M_(nx, ny)) = Val (const_mx c^-1).
Proof.
move=> c0; rewrite /recipM; case: forallP => [_|h]; first by rewrite map_const_mx.
by case: h => i; apply/forallP => j; rewrite mxE.
Qed.
Lemma recipMV nx ny (x y : 'M[C]_(nx, ny)) : recipM x = Val y ->
  (forall i j, x i j != 0) /\ y = map_mx (fun z : C => z^-1) x.
Proof.
rewrite /recipM; case: forallP => // h [<-]; split=> // i j; exact: (forallP (h i)).
Qed.
Lemma recipMT nx ny (x : 'M[C]_(nx, ny)) : (forall i j, x i j != 0) ->
  recipM x = Val (map_mx (fun z : C => z^-1) x).
Proof.
by move=> h; rewrite /recipM; case: forallP => // -[]; move=> i; apply/forallP => j; apply: h.
Qed.
Lemma scalar_unit n (c : C) : c != 0 -> (c%:M : 'M_n) \in unitmx.
Proof. by move=> c0; rewrite unitmxE det_scalar unitrX // unitfE. Qed.
Lemma invmxS n (c : C) : c != 0 -> invmx (c%:M : 'M_n) = c^-1%:M.
Proof.
move=> c0; have u := scalar_unit n c0.
rewrite -[RHS]mul1mx -(mulVmx u) -mulmxA -scalar_mxM divff // mulmx1 //.
Qed.
Lemma invS n (c : C) : c != 0 -> inv (c%:M : 'M_n) = Val (c^-1%:M).
Proof. by move=> c0; rewrite /inv scalar_unit // invmxS. Qed.
Lemma blockS n (c : C) : block_mx c%:M 0 0 c%:M = c%:M :> 'M[C]_(n + n).
Proof. by rewrite -scalar_mx_block. Qed.
Lemma diagS n (c : C) : diag (const_mx c) = c%:M :> 'M_n.
Proof. exact: diag_const_mx. Qed.
Lemma diag0 n : diag (const_mx 0) = 0 :> 'M[C]_n.
Proof. by rewrite diag_const_mx raddf0. Qed.

(** Tangent terms at a zero field are zero. *)
Lemma isclose00 : isclose0 R0 = true.
Proof.
rewrite /isclose0; case: Rle_dec => // h; case: h; rewrite Rabs_R0.
by left; apply: Rinv_0_lt_compat; apply: pow_lt; lra.
Qed.
Lemma tangent_zero : tangent_terms 0 0 = (0, 0, 0, 0).
Proof.
have c0 : Cmod 0 = R0 by rewrite CmodE /abs2 /re /im /= !Rmult_0_l Rplus_0_l sqrt_0.
rewrite /tangent_terms c0; have -> : (0 ^ 2 + 0 ^ 2 = 0)%coqR by ring.
rewrite isclose00 rmorph0 !mul0r; have -> : (0 ^ 2 / 1 = 0)%coqR by field.
by [].
Qed.

(** ** Eigenvalues of similar matrices *)
Lemma perm_roots (s t : seq C) :
  \prod_(z <- s) ('X - z%:P) = \prod_(z <- t) ('X - z%:P) :> {poly C} -> perm_eq s t.
Proof.
elim: s t => [|x s IH] t h.
  have := congr1 (fun p : {poly C} => size p) h; rewrite !size_prod_XsubC /=.
  by case: t {h}.
have xt : x \in t by rewrite -root_prod_XsubC -h root_prod_XsubC inE eqxx.
rewrite perm_sym (permPl (perm_to_rem xt)) perm_cons perm_sym; apply: IH.
have hp := perm_to_rem xt; move: h; rewrite (perm_big _ hp) /= !big_cons.
by apply: mulfI; rewrite polyXsubC_eq0.
Qed.
Lemma char_poly_similar p (A D V : 'M[C]_p) : A *m V = V *m D -> V \in unitmx -> char_poly A = char_poly D.
Proof.
move=> h u; rewrite /char_poly /char_poly_mx.
have e : ('X%:M - map_mx polyC A) *m map_mx polyC V = map_mx polyC V *m ('X%:M - map_mx polyC D).
  by rewrite mulmxBl mulmxBr -!map_mxM h scalar_mxC.
have := congr1 determinant e; rewrite !det_mulmx mulrC; apply: mulfI.
by rewrite det_map_mx polyC_eq0 -unitfE -unitmxE.
Qed.
Lemma char_poly_diag p (v : 'rV[C]_p) : char_poly (diag v) = \prod_(z <- [tuple v 0 i | i < p]) ('X - z%:P).
Proof.
rewrite char_poly_trig ?diag_mx_is_trig // big_tuple; apply: eq_bigr => i _.
by rewrite tnth_mktuple mxE eqxx.
Qed.
Lemma diag_similar p (a v : 'rV[C]_p) (V : 'M[C]_p) : diag a *m V = V *m diag v -> V \in unitmx ->
  exists s : {perm 'I_p}, forall j, v 0 j = a 0 (s j).
Proof.
move=> h u; have := char_poly_similar h u; rewrite !char_poly_diag => /esym /perm_roots /tuple_permP [s hs].
exists s => j; have := congr1 (fun t : seq C => nth 0 t j) hs.
by rewrite -!tnth_nth !tnth_mktuple.
Qed.
Lemma fft_matrices nx ny n plv (eps : 'M[C]_(nx, ny)) (expn : n.-tuple (Z * Z)) :
  n <> 0%N -> resolves nx ny expn -> (forall i j, eps i j != 0) ->
  fourier_matrices_patterned_isotropic_media plv eps expn FFT =
  Val (convm expn (map_mx (fun z : C => z^-1) eps), convm expn eps,
       block_mx (convm expn eps) 0 0 (convm expn eps), None).
Proof.
move=> n0 hr nz; rewrite /fourier_matrices_patterned_isotropic_media /= recipMT //=.
by rewrite /transverse_permittivity_fft !convE.
Qed.

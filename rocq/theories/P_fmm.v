(** C14, C12 (patterned layers), C45: material matrices of the eigensolves. *)
From Coq Require Import Reals ZArith Lra Lia.
From mathcomp Require Import all_ssreflect all_algebra all_fingroup.
From Verif Require Import CField Err LinAlg M_utils M_basis M_fft M_fmm_matrices M_fmm M_scattering M_fields S_stack S_maxwell S_fft L_scattering L_stack L_maxwell L_flux L_fft L_example P_maxwell P_fft L_fmm.
Set Implicit Arguments. Unset Strict Implicit. Unset Printing Implicit Defensive.
Import GRing.Theory.
Local Open Scope ring_scope.

(** ** C14: constant permittivity in the patterned path *)

(** For a constant permittivity every formulation gives scalar matrices. *)
Theorem C14_constant_matrices nx ny n plv (eps : C) (expn : n.-tuple (Z * Z)) form iez ez et tvf :
  distinct expn ->
  fourier_matrices_patterned_isotropic_media plv (const_mx eps : 'M_(nx, ny)) expn form
    = Val (iez, ez, et, tvf) ->
  [/\ eps != 0, iez = eps^-1%:M, ez = eps%:M & et = eps%:M].
Proof.
move=> hd; rewrite /fourier_matrices_patterned_isotropic_media => H.
binv H tv htv; binv H ip hip; binv H z1 h1; binv H z2 h2; binv H z3 h3; case: H => <- <- <- _.
have [n0 hr] := convV h1; have [px py] := resolves_pos n0 hr.
have e0 : eps != 0.
  have [h _] := recipMV hip; have := h (Ordinal px) (Ordinal py); by rewrite mxE.
move: hip h1 h2; rewrite recipM_const // => -[<-]; rewrite !convE // !conv_const // => -[<-] [<-].
split=> //; case: tv {htv} h3 => [[tx ty]|]; last first.
  by rewrite /transverse_permittivity_fft convE //= conv_const // => -[<-]; rewrite blockS.
rewrite /transverse_permittivity_vector recipM_const // !convE //= !convE //= !conv_const //.
rewrite invS ?invr_eq0 //= invrK subrr => -[<-].
have b0 : block_mx 0 0 0 0 = 0 :> 'M[C]_(n + n) by exact: block_mx0.
by rewrite b0 mul0mx subr0 blockS.
Qed.
Print Assumptions C14_constant_matrices.

(** The patterned path, run on a constant permittivity, and the analytic uniform path return
    the same material matrices, and the same eigenvalues up to order (when the eigenvectors
    found by the numerical eigensolver are linearly independent). *)
Theorem C14_patterned_agrees (eig : eig_fn) nx ny n wl k0 plv (eps : C) (expn : n.-tuple (Z * Z)) form l l' :
  eig_spec eig -> distinct expn ->
  eigensolve_uniform_isotropic_media wl k0 plv eps expn = Val l ->
  eigensolve_patterned_isotropic_media eig wl k0 plv (const_mx eps : 'M_(nx, ny)) expn form = Val l' ->
  [/\ z_permittivity_matrix l' = z_permittivity_matrix l /\
      inverse_z_permittivity_matrix l' = inverse_z_permittivity_matrix l,
      [/\ z_permeability_matrix l' = z_permeability_matrix l,
          inverse_z_permeability_matrix l' = inverse_z_permeability_matrix l &
          transverse_permeability_matrix l' = transverse_permeability_matrix l],
      exact_modes l (eps%:M) /\ exact_modes l' (eps%:M) &
      eigenvectors l' \in unitmx -> exists s : {perm 'I_(n + n)}, forall j, eigenvalues l' 0 j = eigenvalues l 0 (s j)].
Proof.
move=> he hd hu; rewrite /eigensolve_patterned_isotropic_media => H.
binv H r hr; case: r hr H => [[[ie ez] et] tvf] hr H.
have [e0 hie hez het] := C14_constant_matrices hd hr.
have [ex hm [z1 z2] [z3 z4] [z5 z6]] := numerical_exact he H.
have [ux um _ [u1 u2] [u3 u4 u5]] := uniform_exact hu.
have mt : block_mx (diag (const_mx 1)) (diag (const_mx 0)) (diag (const_mx 0)) (diag (const_mx 1)) = 1%:M :> 'M[C]_(n + n).
  by rewrite diag1 diag0 blockS.
rewrite diagS in ux.
split; [by rewrite z1 z2 u1 u2 !diagS hez hie|by rewrite z3 z4 z5 u3 u4 u5 mt diag1| |].
  by rewrite het in ex.
move=> V; have [k [K [O [hk hK hO hex]]]] := ux; have [k' [K' [O' [hk' hK' hO' hex']]]] := ex.
have [uw [uk [ul ue]]] := um; have [mw [mk [ml me]]] := hm.
have ek : k = k'.
  by apply: Val_inj; rewrite -hk -hk' uk ul ue mk ml me.
have eK : K = K' by apply: Val_inj; rewrite -hK -hK' z3 u3 ek diag1.
have eO : O = O'.
  apply: Val_inj; rewrite -hO -hO' /omega_script_k_matrix hk hk' /= ek.
  by rewrite uw mw u1 z1 u5 z5 mt diagS hez.
have [_ _ _ _ [_ _ _]] := C14_uniform_eigensolution hu.
have hI : eigenvectors l = 1%:M.
  by move: hu; rewrite /eigensolve_uniform_isotropic_media => G; binv G a ha; binv G b hb; binv G c hc; case: G => <-.
rewrite hI mul1mx mulmx1 in hex.
move: hex'; rewrite -eK -eO z5 mt -{1}u5 het hex => hs.
have [s hs'] := diag_similar hs V; exists s => j.
have := hs' j; rewrite !mxE => q2.
have [a ha] := uniform_q hu; have [b hb] := numerical_q H.
have hq (c : C) : select_eigenvalue_sign (csqrt (select_eigenvalue_sign (csqrt c) ^+ 2)) = select_eigenvalue_sign (csqrt c).
  by rewrite select_sqr expr2 csqrt_sqr.
by rewrite hb -hq -hb q2 ha hq.
Qed.
Print Assumptions C14_patterned_agrees.

(** ** C12: patterned layers without loss *)
Lemma herm_block n (A B D E : 'M[C]_n) : hermitian A -> hermitian E -> adjm B = D ->
  hermitian (block_mx A B D E).
Proof.
move=> hA hE hB; rewrite /hermitian /adjm map_block_mx tr_block_mx -/(adjm _) -/(adjm _) -/(adjm _) -/(adjm _).
by rewrite hA hE hB -hB adjmK.
Qed.
Lemma herm0 n : hermitian (0 : 'M[C]_n).
Proof. by rewrite /hermitian; apply/matrixP=> i j; rewrite adjE !mxE rmorph0. Qed.
Lemma adjm0 n : adjm (0 : 'M[C]_n) = 0. Proof. exact: herm0. Qed.
Lemma herm_real nx ny n (expn : n.-tuple (Z * Z)) (x : 'M[C]_(nx, ny)) : n <> 0%N -> resolves nx ny expn ->
  (forall a b, im (x a b) = R0) -> hermitian (convm expn x).
Proof. by move=> n0 hr hx; apply: (C18_real_hermitian hx (convE n0 hr x)). Qed.
Lemma herm_scalar n (c : C) : im c = R0 -> hermitian (c%:M : 'M_n).
Proof.
move=> h; rewrite /hermitian; apply/matrixP=> i j; rewrite adjE !mxE rmorphMn /= eq_sym.
by congr (_ *+ _); apply/is_realP.
Qed.

(** A layer patterned in a real permittivity (of any sign), Fourier formulation. *)
Theorem C12_patterned_lossless (eig : eig_fn) nx ny n wl k0 plv (eps : 'M[C]_(nx, ny)) (expn : n.-tuple (Z * Z)) l :
  eig_spec eig -> (nx, ny) <> (1, 1)%N -> (forall a b, im (eps a b) = R0) ->
  eigensolve_isotropic_media eig wl k0 plv eps expn FFT = Val l -> lossless l.
Proof.
move=> he ne hx H; have [ie [ez [et [tvf [hf ex _ [e1 e2] [e3 e4 e5 _]]]]]] := C13_isotropic_solver he ne H.
move: hf; rewrite /fourier_matrices_patterned_isotropic_media /= => G.
binv G ip hip; binv G z1 h1; have [n0 hr] := convV h1.
move: G; rewrite /transverse_permittivity_fft !convE //= => -[_ ee et' _].
exists et; split=> //; rewrite e1 e3 e5 -ee -et'; split; last by rewrite /hermitian adjm1.
- by apply: herm_block; [exact: herm_real|exact: herm_real|rewrite adjm0].
- exact: herm_real.
- by rewrite /hermitian adjm1.
Qed.
Print Assumptions C12_patterned_lossless.

(** A Hermitian tensor field: real diagonal, conjugate off-diagonal. *)
Definition hermitian_tensor nx ny (t : tensor 'M[C]_(nx, ny)) :=
  [/\ forall a b, im (t_xx t a b) = R0, forall a b, im (t_yy t a b) = R0,
      forall a b, im (t_zz t a b) = R0 & forall a b, t_yx t a b = Cconj (t_xy t a b)].

(** A layer with Hermitian permittivity and permeability tensors (gyrotropic media included). *)
Theorem C12_anisotropic_lossless (eig : eig_fn) nx ny n wl k0 plv (eps mu : tensor 'M[C]_(nx, ny))
    (expn : n.-tuple (Z * Z)) src l :
  eig_spec eig -> hermitian_tensor eps -> hermitian_tensor mu ->
  eigensolve_general_anisotropic_media eig wl k0 plv eps mu expn FFT src = Val l -> lossless l.
Proof.
move=> he [exx eyy ezz exy] [mxx myy mzz mxy]; case: ((nx, ny) =P (1, 1)%N) => ne H; last first.
- have [src' [ie [ez [et [im' [mz [mt [tvf [hf [ex _] _ [e1 e2] [e3 e4 e5 _]]]]]]]]]] :=
    C13_general_anisotropic_solver he ne H.
  move: hf; rewrite /fourier_matrices_patterned_anisotropic_media /= => G.
  binv G ip hip; binv G z1 h1; have [n0 hr] := convV h1.
  move: G; rewrite /transverse_permittivity_fft_anisotropic /transverse_permeability_fft_anisotropic !convE //= => G.
  binv G im2 him2; move: G; rewrite !convE //= => -[_ ee et' _ em mt' _].
  exists et; split=> //; rewrite e1 e3 e5 -ee -et' -em -mt'.
  have yx : t_yx eps = conjm (t_xy eps) by apply/matrixP=> a b; rewrite exy mxE.
  have yx' : t_yx mu = conjm (t_xy mu) by apply/matrixP=> a b; rewrite mxy mxE.
  split; try by exact: herm_real.
  + apply: herm_block; [exact: herm_real|exact: herm_real|].
    rewrite yx -conv_conj //; congr (convm _ _); apply/matrixP=> a b.
    by rewrite !mxE /= rmorphN /= CconjK.
  + apply: herm_block; [exact: herm_real|exact: herm_real|].
    by rewrite yx' conv_conj.
- move: H; rewrite /eigensolve_general_anisotropic_media ne eqxx.
  rewrite /eigensolve_uniform_general_anisotropic_media => H; binv H r1 h1; binv H r2 h2.
  have [ex hm [e1 e2] [e3 e4] [e5 e6]] := numerical_exact he H.
  case: ne => nex ney; subst nx ny.
  have sq (x : 'M[C]_(1, 1)) : squeeze11 x = x 0 0.
    by rewrite /squeeze11 (mxgetE _ (isT : (0 < 1)%N) (isT : (0 < 1)%N)); congr (x _ _); apply: val_inj.
  rewrite /= !sq !diagS in ex e1 e3 e5.
  eexists; split; first exact: ex.
  have h2' (a b c d : C) : im a = R0 -> im b = R0 -> d = Cconj c ->
     hermitian (block_mx a%:M c%:M d%:M b%:M : 'M[C]_(n + n)).
    move=> ha hb hc; apply: herm_block; [exact: herm_scalar|exact: herm_scalar|].
    by apply/matrixP=> i j; rewrite adjE !mxE hc rmorphMn /= eq_sym.
  rewrite e1 e3 e5; split; try by exact: herm_scalar.
  + by apply: h2' => //; rewrite exy rmorphN /= CconjK.
  + by apply: h2'.
Qed.
Print Assumptions C12_anisotropic_lossless.

(** ** C45: reductions between the solvers *)

(** The anisotropic solver on an isotropic tensor is the isotropic solver, as a function
    (including its errors), in the Fourier formulation and for patterned arrays. *)
Theorem C45_anisotropic_is_isotropic (eig : eig_fn) nx ny n wl k0 plv (eps : 'M[C]_(nx, ny)) (expn : n.-tuple (Z * Z)) :
  (nx, ny) <> (1, 1)%N -> distinct expn -> n <> 0%N -> resolves nx ny expn ->
  eigensolve_anisotropic_media eig wl k0 plv (Tensor eps 0 0 eps eps) expn FFT =
  eigensolve_isotropic_media eig wl k0 plv eps expn FFT.
Proof.
move=> /eqP ne hd n0 hr.
rewrite /eigensolve_anisotropic_media /eigensolve_general_anisotropic_media /eigensolve_isotropic_media (negbTE ne).
rewrite /eigensolve_patterned_general_anisotropic_media /eigensolve_patterned_isotropic_media.
rewrite /fourier_matrices_patterned_anisotropic_media /fourier_matrices_patterned_isotropic_media /=.
case: (recipM eps) => [ie|e] //=.
rewrite /transverse_permittivity_fft_anisotropic /transverse_permittivity_fft !convE //=.
rewrite recipM_const ?oner_eq0 //= /transverse_permeability_fft_anisotropic !convE //= invr1.
have -> : const_mx 0 = 0 :> 'M[C]_(nx, ny) by apply/matrixP=> i j; rewrite !mxE.
by rewrite !oppr0 !conv0 // !conv_const // !diag1 !diag0.
Qed.
Print Assumptions C45_anisotropic_is_isotropic.

(** The general solver with unit permeability is the nonmagnetic one, when the tangent
    field source is the default. *)
Theorem C45_unit_permeability (eig : eig_fn) nx ny n wl k0 plv (eps : tensor 'M[C]_(nx, ny))
    (expn : n.-tuple (Z * Z)) form :
  eigensolve_general_anisotropic_media eig wl k0 plv eps
    (Tensor (const_mx 1) (const_mx 0) (const_mx 0) (const_mx 1) (const_mx 1)) expn form None =
  eigensolve_anisotropic_media eig wl k0 plv eps expn form.
Proof. by []. Qed.
Print Assumptions C45_unit_permeability.

(** A uniform isotropic medium in the uniform anisotropic path: same material matrices,
    modes of the same eigenproblem, same eigenvalues up to order. *)
Theorem C45_uniform_agrees (eig : eig_fn) n wl k0 plv (eps : C) (expn : n.-tuple (Z * Z)) form l l' :
  eig_spec eig ->
  eigensolve_isotropic_media eig wl k0 plv (const_mx eps : 'M_(1, 1)) expn form = Val l ->
  eigensolve_anisotropic_media eig wl k0 plv (Tensor (const_mx eps : 'M_(1, 1)) 0 0 (const_mx eps) (const_mx eps)) expn form = Val l' ->
  [/\ z_permittivity_matrix l' = z_permittivity_matrix l /\
      inverse_z_permittivity_matrix l' = inverse_z_permittivity_matrix l,
      [/\ z_permeability_matrix l' = z_permeability_matrix l,
          inverse_z_permeability_matrix l' = inverse_z_permeability_matrix l &
          transverse_permeability_matrix l' = transverse_permeability_matrix l],
      exact_modes l (eps%:M) /\ exact_modes l' (eps%:M) &
      eigenvectors l' \in unitmx -> exists s : {perm 'I_(n + n)}, forall j, eigenvalues l' 0 j = eigenvalues l 0 (s j)].
Proof.
move=> he; rewrite /eigensolve_anisotropic_media /eigensolve_general_anisotropic_media /eigensolve_isotropic_media eqxx.
have sq (x : 'M[C]_(1, 1)) : squeeze11 x = x 0 0.
  by rewrite /squeeze11 (mxgetE _ (isT : (0 < 1)%N) (isT : (0 < 1)%N)); congr (x _ _); apply: val_inj.
rewrite /eigensolve_uniform_general_anisotropic_media /= !sq !mxE => hu H.
binv H r1 h1; binv H r2 h2; have [e0 er1] := recipCV h1; have [_ er2] := recipCV h2.
have [ex hm [z1 z2] [z3 z4] [z5 z6]] := numerical_exact he H.
have [ux um _ [u1 u2] [u3 u4 u5]] := uniform_exact hu.
rewrite oppr0 !diagS in ex z1 z2 z3 z4 z5; rewrite raddf0 !blockS in ex z5.
rewrite diagS in ux.
split; [by rewrite z1 z2 u1 u2 !diagS er1|by rewrite z3 z4 z5 u3 u4 u5 er2 invr1|by []|].
move=> V; have [k [K [O [hk hK hO hex]]]] := ux; have [k' [K' [O' [hk' hK' hO' hex']]]] := ex.
have [uw [uk [ul ue]]] := um; have [mw [mk [ml me]]] := hm.
have ek : k = k' by apply: Val_inj; rewrite -hk -hk' uk ul ue mk ml me.
have eK : K = K' by apply: Val_inj; rewrite -hK -hK' z3 u3 ek.
have eO : O = O'.
  apply: Val_inj; rewrite -hO -hO' /omega_script_k_matrix hk hk' /= ek.
  by rewrite uw mw u1 z1 u5 z5 diagS.
have hI : eigenvectors l = 1%:M.
  by move: hu; rewrite /eigensolve_uniform_isotropic_media => G; binv G a ha; binv G b hb; binv G c hc; case: G => <-.
rewrite hI mul1mx mulmx1 in hex.
move: hex'; rewrite -eK -eO z5 -{1}u5 hex => hs.
have [s hs'] := diag_similar hs V; exists s => j.
have := hs' j; rewrite !mxE => q2.
have [a ha] := uniform_q hu; have [b hb] := numerical_q H.
have hq (c : C) : select_eigenvalue_sign (csqrt (select_eigenvalue_sign (csqrt c) ^+ 2)) = select_eigenvalue_sign (csqrt c).
  by rewrite select_sqr expr2 csqrt_sqr.
by rewrite hb -hq -hb q2 ha hq.
Qed.
Print Assumptions C45_uniform_agrees.

(** A vector formulation whose tangent field is zero everywhere uses the same matrices as the
    Fourier formulation. *)
Theorem C45_zero_tangent_field nx ny n (eps : 'M[C]_(nx, ny)) (expn : n.-tuple (Z * Z)) T T' :
  transverse_permittivity_vector eps 0 0 expn = Val T ->
  transverse_permittivity_fft eps expn = Val T' -> T = T'.
Proof.
rewrite /transverse_permittivity_vector /transverse_permittivity_fft => H G.
binv G c hc; have [n0 hr] := convV hc; case: G => <-; move: hc; rewrite convE // => -[<-].
binv H e he; move: he; rewrite convE // => -[he]; subst e.
have z (f : C * C * C * C -> C) : f (0, 0, 0, 0) = 0 ->
   \matrix_(i, j) f (tangent_terms ((0 : 'M[C]_(nx, ny)) i j) ((0 : 'M[C]_(nx, ny)) i j)) = 0 :> 'M[C]_(nx, ny).
  by move=> hf; apply/matrixP=> i j; rewrite !mxE tangent_zero.
rewrite (z (fun t => t.2)) // (z (fun t => t.1.2)) // ?(z (fun t => t.1.1.2)) // ?(z (fun t => t.1.1.1)) // in H.
binv H ie hie; binv H ih hih; binv H i2 hi2; move: H; rewrite !convE //= => -[<-].
by rewrite conv0 // block_mx0 mulmx0 subr0.
Qed.
Print Assumptions C45_zero_tangent_field.

(** ** C38: the tangent terms *)
Definition field2 (tx ty : C) : R := (Cmod tx ^ 2 + Cmod ty ^ 2)%coqR.
(** The 2x2 matrix of the terms, in the order in which the permittivity function uses them:
    it acts on [(-Ey, Ex)]. *)
Definition tangent_matrix (tx ty : C) : 'M[C]_2 :=
  let '(pxx, pxy, pyx, pyy) := tangent_terms tx ty in mx22 pyy pyx pxy pxx.
Definition col2 (a b : C) : 'cV[C]_2 := \col_i (if i == 0 then a else b).

Lemma mx22M a b c d a' b' c' d' : mx22 a b c d *m mx22 a' b' c' d' =
  mx22 (a * a' + b * c') (a * b' + b * d') (c * a' + d * c') (c * b' + d * d').
Proof. by apply/matrixP=> i j; rewrite mxE !big_ord_recl big_ord0 !mxE /= addr0; do 2!case: ifP. Qed.
Lemma mx22V a b c d x y : mx22 a b c d *m col2 x y = col2 (a * x + b * y) (c * x + d * y).
Proof. by apply/matrixP=> i j; rewrite mxE !big_ord_recl big_ord0 !mxE /= addr0; case: ifP. Qed.
Lemma mx22_adj a b c d : adjm (mx22 a b c d) = mx22 (Cconj a) (Cconj c) (Cconj b) (Cconj d).
Proof. by apply/matrixP=> i j; rewrite !mxE; do 2!case: ifP. Qed.
Lemma mx22_tr a b c d : \tr (mx22 a b c d) = a + d.
Proof. by rewrite /mxtrace !big_ord_recl big_ord0 !mxE /= addr0. Qed.
Lemma field2E tx ty : RtoC (field2 tx ty) = tx * Cconj tx + ty * Cconj ty.
Proof. by rewrite /field2 rmorphD /= !Rmult_1_r !Cmod2 !abs2E. Qed.
Lemma tangent_matrixE tx ty : (/ 10 ^ 8 < field2 tx ty)%coqR ->
  let d := (RtoC (field2 tx ty))^-1 in
  tangent_matrix tx ty = mx22 (tx * Cconj tx * d) (Cconj tx * ty * d) (tx * Cconj ty * d) (ty * Cconj ty * d).
Proof.
move=> h; rewrite /tangent_matrix /tangent_terms -/(field2 tx ty).
have p : (0 < / 10 ^ 8)%coqR by apply: Rinv_0_lt_compat; apply: pow_lt; lra.
have -> : isclose0 (field2 tx ty) = false.
  by rewrite /isclose0; case: Rle_dec => // g; exfalso; move: g; rewrite Rabs_pos_eq; lra.
have e t : RtoC (Cmod t ^ 2 / field2 tx ty)%coqR = t * Cconj t * (RtoC (field2 tx ty))^-1.
  rewrite -abs2E -fmorphV -rmorphM /=; congr RtoC; rewrite -Cmod2 /= Rmult_1_r.
  by [].
by rewrite !e.
Qed.

(** Where the field is not small the terms are the orthogonal projector onto
    [(conj tx, conj ty)], that is onto electric fields [(-Ey, Ex)] normal to the boundary. *)
Theorem C38_projector (tx ty : C) : (/ 10 ^ 8 < field2 tx ty)%coqR ->
  let P := tangent_matrix tx ty in
  [/\ adjm P = P, P *m P = P, \tr P = 1,
      P *m col2 (Cconj tx) (Cconj ty) = col2 (Cconj tx) (Cconj ty) & P *m col2 (- ty) tx = 0].
Proof.
move=> h P.
have p : (0 < / 10 ^ 8)%coqR by apply: Rinv_0_lt_compat; apply: pow_lt; lra.
have nz : RtoC (field2 tx ty) != 0 by apply: RtoC_neq0; lra.
have hd : (tx * Cconj tx + ty * Cconj ty) * (RtoC (field2 tx ty))^-1 = 1 by rewrite -field2E mulfV.
have cd : Cconj ((RtoC (field2 tx ty))^-1) = (RtoC (field2 tx ty))^-1 by rewrite -fmorphV /= Cconj_RC.
rewrite /P tangent_matrixE //; move: hd cd; move: ((RtoC (field2 tx ty))^-1) => d hd cd.
have ed x : x = x * ((tx * Cconj tx + ty * Cconj ty) * d) by rewrite hd mulr1.
split.
- rewrite mx22_adj !rmorphM /= !CconjK cd.
  by congr mx22; rewrite ?[Cconj _ * _]mulrC // -?mulrA; congr (_ * _); rewrite mulrC.
- rewrite mx22M; congr mx22; rewrite [RHS]ed; move: (Cconj tx) (Cconj ty) => cx cy; Cring.
- by rewrite mx22_tr -mulrDl hd.
- rewrite mx22V; congr col2; rewrite [RHS]ed; move: (Cconj tx) (Cconj ty) => cx cy; Cring.
- rewrite mx22V; apply/matrixP=> i j; rewrite !mxE; move: (Cconj tx) (Cconj ty) => cx cy; case: ifP => _; Cring.
Qed.
Print Assumptions C38_projector.

(** Where the field is zero all terms are zero. *)
Theorem C38_zero_field : tangent_matrix 0 0 = 0.
Proof. by rewrite /tangent_matrix tangent_zero; apply/matrixP=> i j; rewrite !mxE; do 2!case: ifP. Qed.
Print Assumptions C38_zero_field.

(** Nonzero fields with squared magnitude at most [1e-8] are not normalised: the trace is the
    squared magnitude, so the terms are not a projector there. *)
Theorem C38_small_field_refuted : exists tx ty : C, [/\ tx != 0,
  \tr (tangent_matrix tx ty) <> 1 & tangent_matrix tx ty *m tangent_matrix tx ty <> tangent_matrix tx ty].
Proof.
exists (RtoC (/ 10 ^ 5)%coqR), 0.
have q : (0 < / 10 ^ 5)%coqR by apply: Rinv_0_lt_compat; apply: pow_lt; lra.
have q1 : (/ 10 ^ 5 < 1)%coqR by rewrite -Rinv_1; apply: Rinv_lt_contravar; lra.
have c0 : Cmod 0 = R0 by rewrite CmodE /abs2 /re /im /= !Rmult_0_l Rplus_0_l sqrt_0.
have c1 : Cmod (RtoC (/ 10 ^ 5)%coqR) = (/ 10 ^ 5)%coqR.
  rewrite CmodE /abs2 reRC imRC Rmult_0_l Rplus_0_r sqrt_square; lra.
have T : tangent_matrix (RtoC (/ 10 ^ 5)%coqR) 0 = mx22 (RtoC ((/ 10 ^ 5) ^ 2)%coqR) 0 0 0.
  rewrite /tangent_matrix /tangent_terms c0 c1.
  have -> : isclose0 ((/ 10 ^ 5) ^ 2 + 0 ^ 2)%coqR = true.
    rewrite /isclose0; case: Rle_dec => // g; case: g; rewrite Rabs_pos_eq; last by nra.
    have -> : ((/ 10 ^ 5) ^ 2 + 0 ^ 2 = / 10 ^ 10)%coqR by field.
    by apply: Rinv_le_contravar; lra.
  rewrite mulr0 rmorph0 mulr0 !mul0r; congr mx22.
  + by congr RtoC; field.
  + by congr RtoC; field.
have lt1 : ((/ 10 ^ 5) ^ 2 < 1)%coqR by nra.
have gt0 : (0 < (/ 10 ^ 5) ^ 2)%coqR by nra.
move: (((/ 10 ^ 5) ^ 2)%coqR) lt1 gt0 T => x x1 x0 T.
split.
- by apply: RtoC_neq0; lra.
- by rewrite T mx22_tr addr0 => /(congr1 re) /=; rewrite /re /=; lra.
- rewrite T mx22M => /matrixP /(_ 0 0); rewrite !mxE /= mul0r addr0 -rmorphM => /(congr1 re).
  by rewrite /re /= -[GRing.mul _ _]/(x * x)%coqR; nra.
Qed.
Print Assumptions C38_small_field_refuted.

(** The blend: with a tangent field that is the same everywhere, the transverse permittivity
    acts with the inverse rule on the normal field and with the Laurent rule on the
    tangential field. *)
Definition kron2 n (a b : C) (v : 'cV[C]_n) : 'cV[C]_(n + n) := col_mx (a *: v) (b *: v).
Theorem C38_blend nx ny n (eps : 'M[C]_(nx, ny)) (tx ty : C) (expn : n.-tuple (Z * Z)) T :
  (/ 10 ^ 8 < field2 tx ty)%coqR -> distinct expn ->
  transverse_permittivity_vector eps (const_mx tx) (const_mx ty) expn = Val T ->
  exists eps_hat inv_eta_hat eta_hat,
  [/\ fourier_convolution_matrix eps expn = Val eps_hat,
      fourier_convolution_matrix (map_mx (fun z : C => z^-1) eps) expn = Val eta_hat,
      eta_hat *m inv_eta_hat = 1%:M,
      forall v, T *m kron2 (Cconj tx) (Cconj ty) v = kron2 (Cconj tx) (Cconj ty) (inv_eta_hat *m v) &
      forall v, T *m kron2 (- ty) tx v = kron2 (- ty) tx (eps_hat *m v)].
Proof.
move=> h hd; rewrite /transverse_permittivity_vector => H.
binv H e he; have [n0 hr] := convV he; binv H ie hie; binv H ih hih; binv H i2 hi2.
have z (f : C * C * C * C -> C) :
   \matrix_(i, j) f (tangent_terms ((const_mx tx : 'M[C]_(nx, ny)) i j) ((const_mx ty : 'M[C]_(nx, ny)) i j)) = const_mx (f (tangent_terms tx ty)) :> 'M[C]_(nx, ny).
  by apply/matrixP=> i j; rewrite !mxE.
rewrite (z (fun t => t.2)) (z (fun t => t.1.2)) (z (fun t => t.1.1.2)) (z (fun t => t.1.1.1)) in H.
move: H; rewrite !convE // !conv_const // /bind.
have := C38_projector h; rewrite /tangent_matrix.
case: (tangent_terms tx ty) => [[[pxx pxy] pyx] pyy]; cbn [fst snd] => -[_ _ _ p1 p2] [<-].
have [_ ei] := recipMV hie; subst ie; have [u eu] := invV hi2.
exists e, i2, ih; split; [by rewrite -he convE|by rewrite -hih convE|by rewrite eu mulmxV| |].
- move: p1; rewrite mx22V => p1 v.
  have q1 : pyy * Cconj tx + pyx * Cconj ty = Cconj tx by have := congr1 (fun M : 'cV_2 => M 0 0) p1; rewrite !mxE.
  have q2 : pxy * Cconj tx + pxx * Cconj ty = Cconj ty by have := congr1 (fun M : 'cV_2 => M 1 0) p1; rewrite !mxE.
  rewrite /kron2 mulmxBl -mulmxA !mul_block_col !mul_scalar_mx !scalerA -!scalerDl q1 q2 !mul0mx !addr0 !add0r.
  have k (X : 'cV[C]_n) : e *m X - (e - i2) *m X = i2 *m X by rewrite mulmxBl opprB addrC subrK.
  by rewrite opp_col_mx add_col_mx !k -!scalemxAr.
- move: p2; rewrite mx22V => p2 v.
  have q1 : pyy * - ty + pyx * tx = 0 by have := congr1 (fun M : 'cV_2 => M 0 0) p2; rewrite !mxE.
  have q2 : pxy * - ty + pxx * tx = 0 by have := congr1 (fun M : 'cV_2 => M 1 0) p2; rewrite !mxE.
  rewrite /kron2 mulmxBl -mulmxA !mul_block_col !mul_scalar_mx !scalerA -!scalerDl q1 q2 !mul0mx !addr0 !add0r.
  by rewrite !scale0r !mulmx0 col_mx0 subr0 -!scalemxAr.
Qed.
Print Assumptions C38_blend.

(** ** Non-vacuity *)

(** An eigensolver that handles diagonal matrices. *)
Definition diag_eig : eig_fn := fun m A =>
  if A == diag (\row_i A i i) then Val (\row_i A i i, 1%:M) else Exn NonFinite.
Lemma diag_eig_spec : eig_spec diag_eig.
Proof.
move=> m A v V; rewrite /diag_eig; case: eqP => // e [<- <-].
by rewrite mulmx1 mul1mx {1}e.
Qed.
Lemma solve_scalar p (c : C) (B : 'M[C]_p) : c != 0 -> solve (c%:M) B = Val (c^-1 *: B).
Proof. by move=> c0; rewrite /solve scalar_unit // invmxS // mul_scalar_mx. Qed.
Lemma k0_diag p : diag (vC (0 : 'rV[R]_p)) = 0.
Proof. by apply/matrixP=> i j; rewrite !mxE -[RtoC 0]/(0 : C) mul0rn. Qed.
Lemma rowscale_0 p q (M : 'M[C]_(p, q)) (v : 'rV[C]_p) : M = 0 -> rowscale v M = 0.
Proof. by move=> ->; apply/matrixP=> i j; rewrite !mxE mulr0. Qed.
Lemma ex_numerical (c d : C) (iez : 'M[C]_1) tvf : c != 0 ->
  exists l, numerical_eigensolve diag_eig ex_wl (0, 0)%coqR sq_lattice (c%:M) iez (d%:M : 'M_(1 + 1)) 1%:M 1%:M
    (1%:M : 'M_(1 + 1)) ex_expn tvf = Val l /\ eigenvectors l = 1%:M.
Proof.
move=> c0; rewrite /numerical_eigensolve ex_k /= /k_matrix_patterned /omega_script_k_matrix_patterned.
rewrite /script_k_matrix_patterned /= k0_diag !solve_scalar ?oner_eq0 //= ex_w /=.
rewrite !rowscale_0 ?scaler0 // block_mx0 mul0mx !subr0 mul_scalar_mx scalerA scalemx1.
rewrite /diag_eig; case: eqP => [_|[]]; first by eexists; split.
by apply/matrixP=> i j; rewrite !mxE eqxx.
Qed.

(** A grating with permittivity 1 on one half of the cell and 3 on the other. *)
Definition ex_grating : 'M[C]_(2, 1) := \matrix_(i, j) (if i == 0 then 1 else RtoC 3%coqR).
Lemma ex_resolves nx ny : (0 < nx)%N -> (0 < ny)%N -> resolves nx ny ex_expn.
Proof.
move=> /ltP px /ltP py i; rewrite !(tnth_nth (0, 0)%coqZ) (ord1 i) /=; lia.
Qed.
Lemma ex_distinct : distinct ex_expn.
Proof. by move=> i j _; rewrite (ord1 i) (ord1 j). Qed.
Lemma ex_scalar (M : 'M[C]_1) : M = (M 0 0)%:M.
Proof. by apply/matrixP=> i j; rewrite !mxE (ord1 i) (ord1 j) eqxx. Qed.
Lemma ex_mean (x : 'M[C]_(2, 1)) : convm ex_expn x = ((x 0 0 + x 1 0) / RtoC 2%coqR)%:M.
Proof.
rewrite [LHS]ex_scalar; congr (_%:M); rewrite mxE /fourier_coefficient /standard_toeplitz_index.
rewrite !(tnth_nth (0, 0)%coqZ) /= !big_ord_recl !big_ord0 !waveE /= !E0 rmorphM /= rmorph1 !mulr1 !addr0.
congr ((_ + _) / RtoC _); last by rewrite Rmult_1_r.
by congr (x _ _); apply: val_inj.
Qed.
Example C12_patterned_witness : exists l,
  [/\ eigensolve_isotropic_media diag_eig ex_wl (0, 0)%coqR sq_lattice ex_grating ex_expn FFT = Val l,
      eig_spec diag_eig, forall a b, im (ex_grating a b) = R0, lossless l & eigenvectors l \in unitmx].
Proof.
have n0 : 1%N <> 0%N by [].
have hr := @ex_resolves 2 1 isT isT.
have hx a b : im (ex_grating a b) = R0 by rewrite mxE; case: ifP.
have nz a b : ex_grating a b != 0.
  by rewrite mxE; case: ifP => _; [exact: oner_neq0|apply: RtoC_neq0; lra].
have m0 : (ex_grating 0 0 + ex_grating 1 0) / RtoC 2%coqR != 0.
  rewrite !mxE /=; apply/eqP => /(congr1 re); rewrite -[1]/(RtoC 1) -rmorphD -fmorphV -rmorphM /= /re /=.
  rewrite RinvE ?RaddE ?RmulE ?R0E; lra.
have [l [hl hv]] := ex_numerical ((ex_grating 0 0 + ex_grating 1 0) / RtoC 2%coqR)
   (convm ex_expn (map_mx (fun z : C => z^-1) ex_grating)) None m0.
have e : eigensolve_isotropic_media diag_eig ex_wl (0, 0)%coqR sq_lattice ex_grating ex_expn FFT = Val l.
  rewrite /eigensolve_isotropic_media /eigensolve_patterned_isotropic_media fft_matrices //.
  by rewrite /bind !diag1 !diag0 (ex_mean ex_grating) !blockS -hl.
exists l; split=> //; last by rewrite hv unitmx1.
- exact: diag_eig_spec.
- by apply: (C12_patterned_lossless diag_eig_spec _ hx e).
Qed.
(** The same solver on a constant permittivity agrees with the analytic solution. *)
Example C14_witness : exists l l',
  [/\ eigensolve_uniform_isotropic_media ex_wl (0, 0)%coqR sq_lattice (RtoC (2 * 2)%coqR) ex_expn = Val l,
      eigensolve_patterned_isotropic_media diag_eig ex_wl (0, 0)%coqR sq_lattice
        (const_mx (RtoC (2 * 2)%coqR) : 'M_(2, 1)) ex_expn FFT = Val l',
      distinct ex_expn & eigenvectors l' \in unitmx].
Proof.
have n0 : 1%N <> 0%N by [].
have hr := @ex_resolves 2 1 isT isT.
have r2 : (0 < 2)%coqR by lra.
have e0 : RtoC (2 * 2)%coqR != 0 by apply: RtoC_neq0; lra.
have [l [hl hv]] := ex_numerical (RtoC (2 * 2)%coqR)
   (convm ex_expn (const_mx (RtoC (2 * 2)%coqR)^-1 : 'M[C]_(2, 1))) None e0.
exists (ex_layer 2), l; split; [exact: ex_solve| |exact: ex_distinct|by rewrite hv unitmx1].
rewrite /eigensolve_patterned_isotropic_media fft_matrices //; last by move=> i j; rewrite mxE.
by rewrite /bind !diag1 !diag0 map_const_mx !(conv_const n0 hr _ ex_distinct) !blockS -hl !(conv_const n0 hr _ ex_distinct).
Qed.
Example C38_witness : (/ 10 ^ 8 < field2 (1%R : C) Ci)%coqR.
Proof.
rewrite /field2; have -> : Cmod 1 = 1%coqR by rewrite CmodE /abs2 re1 im1 !Rmult_0_l Rplus_0_r Rmult_1_l sqrt_1.
have p : (0 < / 10 ^ 8 < 2)%coqR.
  split; first by apply: Rinv_0_lt_compat; apply: pow_lt; lra.
  apply: (Rlt_trans _ 1); last by lra.
  by rewrite -Rinv_1; apply: Rinv_lt_contravar; lra.
have -> : Cmod Ci = 1%coqR by rewrite CmodE /abs2 reI imI !Rmult_0_l Rplus_0_l Rmult_1_l sqrt_1.
by lra.
Qed.

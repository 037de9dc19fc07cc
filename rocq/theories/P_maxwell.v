(** C11-C16: power flow, Maxwell's equations within a layer, eigenvalues, propagation. *)
From Coq Require Import Reals ZArith Lra.
From mathcomp Require Import all_ssreflect all_algebra.
From Verif Require Import CField Err LinAlg M_utils M_basis M_fft M_fmm_matrices M_fmm M_scattering M_fields S_stack S_maxwell L_scattering L_stack L_maxwell L_flux L_example P_scattering.
Set Implicit Arguments. Unset Strict Implicit. Unset Printing Implicit Defensive.
Import GRing.Theory.
Local Open Scope ring_scope.

(** ** C11 *)

(** Forward plus backward flux, per Fourier order: rows [k] and [n + k] of the reported
    arrays are the two polarizations of order [k]. *)
Theorem C11_amplitude_flux_is_poynting n m (l : layer_solve_result n) (a b : 'M[C]_(n + n, m)) F :
  fields_from_wave_amplitudes a b l = Val F ->
  exists sf sb, amplitude_poynting_flux a b l = Val (sf, sb) /\
  (forall k j, (sf (lshift n k) j + sb (lshift n k) j) + (sf (rshift n k) j + sb (rshift n k) j)
     = poynting_z F k j) /\
  (forall k j, sf (lshift n k) j + sb (lshift n k) j = - re (f_ey F k j * Cconj (f_hx F k j)) /\
               sf (rshift n k) j + sb (rshift n k) j = re (f_ex F k j * Cconj (f_hy F k j))).
Proof.
move=> hF; have := hF; rewrite /fields_from_wave_amplitudes => H; binv H M hM.
have [f] := fin_layerP hM; have [sf [sb hs]] := amplitude_flux_total f a b.
exists sf, sb; split=> //; have row := amplitude_flux_row f hs; split.
  by move=> k j; rewrite !row; exact: poynting_rows.
move: hF; rewrite (fields_fromE f) => -[<-] /= k j; rewrite !row.
move: (Et f a b) (Ht l a b) => E H'; rewrite !mxE; split.
  by case: (E _ _) (H' _ _) => [x y] [u v]; parts.
by case: (E _ _) (H' _ _) => [x y] [u v]; parts.
Qed.
Print Assumptions C11_amplitude_flux_is_poynting.

Theorem C11_directional_flux_is_poynting n m (l : layer_solve_result n) (a b : 'M[C]_(n + n, m)) F :
  fields_from_wave_amplitudes a b l = Val F ->
  exists sf sb, directional_poynting_flux a b l = Val (sf, sb) /\
  (forall k j, (sf (lshift n k) j + sb (lshift n k) j) + (sf (rshift n k) j + sb (rshift n k) j)
     = poynting_z F k j) /\
  (forall k j, sf (lshift n k) j + sb (lshift n k) j = - re (f_ey F k j * Cconj (f_hx F k j)) /\
               sf (rshift n k) j + sb (rshift n k) j = re (f_ex F k j * Cconj (f_hy F k j))).
Proof.
move=> hF; have := hF; rewrite /fields_from_wave_amplitudes => H; binv H M hM.
have [f] := fin_layerP hM; have [sf [sb hs]] := directional_flux_total f a b.
exists sf, sb; split=> //; have row := directional_flux_row f hs; split.
  by move=> k j; rewrite !row; exact: poynting_rows.
move: hF; rewrite (fields_fromE f) => -[<-] /= k j; rewrite !row.
move: (Et f a b) (Ht l a b) => E H'; rewrite !mxE; split.
  by case: (E _ _) (H' _ _) => [x y] [u v]; parts.
by case: (E _ _) (H' _ _) => [x y] [u v]; parts.
Qed.
Print Assumptions C11_directional_flux_is_poynting.

(** Without backward amplitudes there is no backward flux, and vice versa. *)
Theorem C11_one_way_flux n m (l : layer_solve_result n) (a : 'M[C]_(n + n, m)) :
  (forall sf sb, amplitude_poynting_flux a 0 l = Val (sf, sb) -> sb = 0) /\
  (forall sf sb, amplitude_poynting_flux 0 a l = Val (sf, sb) -> sf = 0).
Proof.
split=> sf sb; rewrite /amplitude_poynting_flux => H; binv H A hA; case: H => ef eb; rewrite -?ef -?eb /=;
  rewrite !mulmx0; move: (A *m a) (_ *m a) => x y; apply/matrixP=> i j; rewrite !mxE.
  by case: (x i j) (y i j) => [p q] [u v]; parts.
by case: (x i j) (y i j) => [p q] [u v]; parts.
Qed.
Print Assumptions C11_one_way_flux.

(** The eigenmode flux is the total flux of a unit forward amplitude in one mode. *)
Theorem C11_eigenmode_flux n (l : layer_solve_result n) (j : 'I_(n + n)) F :
  fields_from_wave_amplitudes (delta_mx j 0 : 'cV[C]_(n + n)) 0 l = Val F ->
  exists s, eigenmode_poynting_flux l = Val s /\ s 0 j = total_poynting_z F 0.
Proof.
move=> hF; have := hF; rewrite /fields_from_wave_amplitudes => H; binv H M hM.
have [f] := fin_layerP hM.
have [s hs] : exists s, eigenmode_poynting_flux l = Val s.
  by rewrite /eigenmode_poynting_flux (a_matrixE f) /=; eexists.
exists s; split=> //; rewrite (eigenmode_fluxE f hs) -(total_rows f 0 hF).
apply: eq_bigr => i _; rewrite /Et /Ht subr0 addr0 -!colE.
by rewrite !mxE.
Qed.
Print Assumptions C11_eigenmode_flux.

(** Where the amplitudes only excite modes whose eigenmode flux is positive, and only in the
    forward direction, the directional flux is all forward. *)
Theorem C11_directional_one_way n m (l : layer_solve_result n) (a : 'M[C]_(n + n, m)) s sf sb :
  eigenmode_poynting_flux l = Val s ->
  (forall i j, Rlt 0 (s 0 i) \/ a i j = 0) ->
  directional_poynting_flux a 0 l = Val (sf, sb) -> sb = 0.
Proof.
move=> hs pos; rewrite /directional_poynting_flux hs /= => H; binv H A hA; case: H => _ <-.
have -> : \matrix_(i, j) (if (if Rlt_dec 0 (s 0 i) then true else false) then 0 else a i j) = 0 :> 'M[C]_(n + n, m).
  apply/matrixP=> i j; rewrite !mxE; case: (pos i j) => [h|->]; last by case: ifP.
  by case: Rlt_dec.
have -> : \matrix_(i, j) (if ~~ (if Rlt_dec 0 (s 0 i) then true else false) then 0 else (0 : 'M[C]_(n + n, m)) i j) = 0.
  by apply/matrixP=> i j; rewrite !mxE; case: ifP.
rewrite /poynting_flux_subset !subr0 !addr0 !mulmx0.
by move: (_ *m a) (_ *m a) => x y; apply/matrixP=> i j; rewrite !mxE !mulr0 addr0 mulr0.
Qed.
Print Assumptions C11_directional_one_way.

(** ** C12 *)

(** The total flux is the same at every depth of every layer of a lossless stack. *)
Theorem C12_flux_conserved n m (ls : seq (layer n)) (xs : seq (layer_amplitudes n m)) :
  (forall l, List.In l ls -> lossless l.1 /\ exists M, field_conversion_matrix l.1 = Val M) ->
  stack_solution ls xs ->
  exists P : 'rV[R]_m, forall l x, List.In (l, x) (zip ls xs) -> forall z,
    let ab := colocate_amplitudes x.1 x.2 (const_mx z) l.1 l.2 in
    exists F sf sb,
    [/\ fields_from_wave_amplitudes ab.1 ab.2 l.1 = Val F,
        forall j, total_poynting_z F j = P 0 j,
        amplitude_poynting_flux ab.1 ab.2 l.1 = Val (sf, sb) &
        forall j, \sum_i (sf i j + sb i j) = P 0 j].
Proof.
move=> hl hs.
have [P hP] : exists P : 'rV[R]_m, forall l x, List.In (l, x) (zip ls xs) -> forall z F,
    reported_fields l.1 l.2 x.1 x.2 z = Val F -> forall j, total_poynting_z F j = P 0 j.
  by apply: stack_flux => // l /hl [].
exists P => l x lx z; have [l_in _] := zip_inl lx; have [_ [M hM]] := hl _ l_in.
have [f] := fin_layerP hM.
have hF := reportedE f l.2 x.1 x.2 z; move: (Fields _ _ _ _ _ _) hF => F hF.
have [sf [sb hsf]] := amplitude_flux_total f (colocate_amplitudes x.1 x.2 (const_mx z) l.1 l.2).1
  (colocate_amplitudes x.1 x.2 (const_mx z) l.1 l.2).2.
exists F, sf, sb; split=> //; first exact: hP lx _ _ hF.
move=> j; rewrite -(hP _ _ lx _ _ hF j) -(total_rows f j hF).
by apply: eq_bigr => i _; rewrite (amplitude_flux_row f hsf).
Qed.
Print Assumptions C12_flux_conserved.

Theorem C12_scattering_balance n m (wl : R) (ls : seq (layer_solve_result n)) (ts : seq R) s
    (a_0 b_0 a_N b_N : 'M[C]_(n + n, m)) z z' F F' :
  stack_s_matrix ls ts = Val s -> same_wavelength wl ls -> finite_fields ls ->
  (forall l, List.In l ls -> lossless l) ->
  scatters s a_0 b_0 a_N b_N ->
  reported_fields (start_layer_solve_result s) (start_layer_thickness s) a_0 b_0 z = Val F ->
  reported_fields (end_layer_solve_result s) (end_layer_thickness s) a_N b_N z' = Val F' ->
  forall j, total_poynting_z F j = total_poynting_z F' j.
Proof.
move=> H hw hf hl sc hF hF' j.
have [sz rel hs he] := C01_stack_s_matrix_is_field_continuity H hw hf.
have [x0 [xs [sol ex0 exl]]] := (rel _ _ _ _ _).1 sc.
case: ls sz hl {H hw hf rel} hs he sol => [|l ls].
  by move=> _ _ _ _; case: ts.
case: ts => [//|t ts] sz hl hs he sol.
have hl' k : List.In k (zip (l :: ls) (t :: ts)) -> lossless k.1.
  by case: k => k k' hk; have [h _] := zip_inl hk; apply: hl.
have [P hP] := stack_flux hl' sol.
have [h1 h2] := zip_head_last (l, t) x0 (succn_inj (esym (stack_solution_size sol))).
have e1 := hs (l, t); have e2 := he (l, t); rewrite /= in e1 e2.
have k1 := hP _ _ h1 z F; have k2 := hP _ _ h2 z' F'.
move: e1 e2 k1 k2 hF hF'; rewrite exl ex0 /=.
by case=> -> -> <- k1 k2 hF hF'; rewrite k1 // k2.
Qed.
Print Assumptions C12_scattering_balance.

(** A uniform layer of real permittivity (of either sign), at any real in-plane wavevector,
    is lossless: propagating and evanescent modes may be mixed. *)
Theorem C12_uniform_lossless n wl k0 plv (eps : R) (expn : n.-tuple (Z * Z)) l :
  eigensolve_uniform_isotropic_media wl k0 plv (RtoC eps) expn = Val l -> lossless l.
Proof.
move=> /uniform_exact [ex _ _ [ez _] [mz _ mt]].
have h p : hermitian (diag (const_mx (RtoC eps)) : 'M[C]_p).
  by rewrite /hermitian; apply/matrixP=> i j; rewrite adjE !mxE rmorphMn /= Cconj_RC eq_sym.
exists (diag (const_mx (RtoC eps))); split=> //; split=> //; rewrite ?ez ?mz ?mt /hermitian ?adjm1 //; exact: h.
Qed.
Print Assumptions C12_uniform_lossless.

(** ** C13 *)
Theorem C13_fields_solve_maxwell n m (l : layer_solve_result n) eps_t M t (a b : 'M[C]_(n + n, m)) :
  exact_modes l eps_t -> field_conversion_matrix l = Val M ->
  exists w kx ky E H D B,
  [/\ angular_frequency (wavelength l) = Val w,
      transverse_wavevectors (in_plane_wavevector l) (primitive_lattice_vectors l) (expansion l) = Val (kx, ky),
      maxwell w kx ky E H D B,
      forall z, permittivity_relation eps_t (z_permittivity_matrix l) (D z) (E z) /\
                permeability_relation (transverse_permeability_matrix l) (z_permeability_matrix l) (B z) (H z) &
      forall z, reported_fields l t a b z =
        Val (Fields (v_x (E z)) (v_y (E z)) (inverse_z_permittivity_matrix l *m v_z (D z))
                    (v_x (H z)) (v_y (H z)) (inverse_z_permeability_matrix l *m v_z (B z)))].
Proof.
move=> ex hM; have [f] := fin_layerP hM.
exists (fl_w f), (fl_kx f), (fl_ky f), (E_at f t a b), (H_at f t a b), (D_at f t a b eps_t), (B_at f t a b).
split; [exact: fl_we|exact: fl_k|exact: maxwell_at|by move=> z; split; [exact: D_E|exact: (B_H f t a b ex z)]|].
move=> z; rewrite (reportedE f) /=; congr (Val (Fields _ _ _ _ _ _)).
  exact: ez_Dz.
exact: hz_Bz.
Qed.
Print Assumptions C13_fields_solve_maxwell.

(** Where the reported inverse matrices are the inverses of the z matrices, the reported
    fields themselves are the solution. *)
Theorem C13_reported_fields_exact n m (l : layer_solve_result n) eps_t M t (a b : 'M[C]_(n + n, m)) :
  exact_modes l eps_t -> field_conversion_matrix l = Val M ->
  z_permittivity_matrix l *m inverse_z_permittivity_matrix l = 1%:M ->
  z_permeability_matrix l *m inverse_z_permeability_matrix l = 1%:M ->
  exists w kx ky E H D B,
  [/\ angular_frequency (wavelength l) = Val w,
      transverse_wavevectors (in_plane_wavevector l) (primitive_lattice_vectors l) (expansion l) = Val (kx, ky),
      maxwell w kx ky E H D B,
      forall z, permittivity_relation eps_t (z_permittivity_matrix l) (D z) (E z) /\
                permeability_relation (transverse_permeability_matrix l) (z_permeability_matrix l) (B z) (H z) &
      forall z, reported_fields l t a b z =
        Val (Fields (v_x (E z)) (v_y (E z)) (v_z (E z)) (v_x (H z)) (v_y (H z)) (v_z (H z)))].
Proof.
move=> ex hM ie im; have [w [kx [ky [E [H [D [B [h1 h2 h3 h4 h5]]]]]]]] := C13_fields_solve_maxwell t a b ex hM.
exists w, kx, ky, E, H, D, B; split=> // z; rewrite h5.
have [[_ hd] [_ hb]] := h4 z; rewrite hd hb !mulmxA.
have -> : inverse_z_permittivity_matrix l *m z_permittivity_matrix l = 1%:M by exact: mulmx1C.
have -> : inverse_z_permeability_matrix l *m z_permeability_matrix l = 1%:M by exact: mulmx1C.
by rewrite !mul1mx.
Qed.
Print Assumptions C13_reported_fields_exact.

(** The solvers return exact modes of the Fourier matrices computed from the given material
    (when the numerical eigensolver returns eigenpairs of the matrix it is given). *)
Theorem C13_isotropic_solver (eig : eig_fn) nx ny n wl k0 plv (permittivity : 'M[C]_(nx, ny))
    (expn : n.-tuple (Z * Z)) form l :
  eig_spec eig -> (nx, ny) <> (1, 1)%N ->
  eigensolve_isotropic_media eig wl k0 plv permittivity expn form = Val l ->
  exists inv_eps_z eps_z eps_t tvf,
  [/\ fourier_matrices_patterned_isotropic_media plv permittivity expn form = Val (inv_eps_z, eps_z, eps_t, tvf),
      exact_modes l eps_t,
      wavelength l = wl /\ in_plane_wavevector l = k0 /\ primitive_lattice_vectors l = plv /\ expansion l = expn,
      z_permittivity_matrix l = eps_z /\ inverse_z_permittivity_matrix l = inv_eps_z &
      [/\ z_permeability_matrix l = 1%:M, inverse_z_permeability_matrix l = 1%:M,
          transverse_permeability_matrix l = 1%:M & tangent_vector_field l = tvf]].
Proof.
move=> he /eqP ne; rewrite /eigensolve_isotropic_media (negbTE ne) /eigensolve_patterned_isotropic_media => H.
binv H r hr; case: r hr H => [[[ie ez] et] tvf] hr H.
have [ex hm [e1 e2] [e3 e4] [e5 e6]] := numerical_exact he H.
exists ie, ez, et, tvf; split=> //; split=> //; rewrite ?e3 ?e4 ?diag1 //.
rewrite e5 !diag1; have -> : diag (const_mx 0) = 0 :> 'M[C]_n by rewrite diag_const_mx raddf0.
by rewrite -scalar_mx_block.
Qed.
Print Assumptions C13_isotropic_solver.

Theorem C13_general_anisotropic_solver (eig : eig_fn) nx ny n wl k0 plv (eps mu : tensor 'M[C]_(nx, ny))
    (expn : n.-tuple (Z * Z)) form src l :
  eig_spec eig -> (nx, ny) <> (1, 1)%N ->
  eigensolve_general_anisotropic_media eig wl k0 plv eps mu expn form src = Val l ->
  exists src' inv_eps_z eps_z eps_t inv_mu_z mu_z mu_t tvf,
  [/\ fourier_matrices_patterned_anisotropic_media plv eps mu expn form src'
        = Val (inv_eps_z, eps_z, eps_t, inv_mu_z, mu_z, mu_t, tvf),
      exact_modes l eps_t /\
      (src' = odflt (map_mx (fun z : C => z / RtoC 2%coqR) (t_xx eps + t_yy eps)) src),
      wavelength l = wl /\ in_plane_wavevector l = k0 /\ primitive_lattice_vectors l = plv /\ expansion l = expn,
      z_permittivity_matrix l = eps_z /\ inverse_z_permittivity_matrix l = inv_eps_z &
      [/\ z_permeability_matrix l = mu_z, inverse_z_permeability_matrix l = inv_mu_z,
          transverse_permeability_matrix l = mu_t & tangent_vector_field l = tvf]].
Proof.
move=> he /eqP ne; rewrite /eigensolve_general_anisotropic_media (negbTE ne) /eigensolve_patterned_general_anisotropic_media => H.
binv H r hr; case: r hr H => [[[[[[ie ez] et] im] mz] mt] tvf] hr H.
have [ex hm [e1 e2] [e3 e4] [e5 e6]] := numerical_exact he H.
exists (match src with Some s => s | None => map_mx (fun z : C => z / RtoC 2%coqR) (t_xx eps + t_yy eps) end).
exists ie, ez, et, im, mz, mt, tvf; split=> //; split=> //.
Qed.
Print Assumptions C13_general_anisotropic_solver.

(** ** C14 *)
Theorem C14_uniform_eigensolution n wl k0 plv (eps : C) (expn : n.-tuple (Z * Z)) l :
  eigensolve_uniform_isotropic_media wl k0 plv eps expn = Val l ->
  [/\ exact_modes l (diag (const_mx eps)),
      wavelength l = wl /\ in_plane_wavevector l = k0 /\ primitive_lattice_vectors l = plv /\ expansion l = expn,
      eigenvectors l \in unitmx,
      [/\ z_permittivity_matrix l = eps%:M, inverse_z_permittivity_matrix l = eps^-1%:M & eps != 0] &
      [/\ z_permeability_matrix l = 1%:M, inverse_z_permeability_matrix l = 1%:M &
          transverse_permeability_matrix l = 1%:M]].
Proof.
move=> h; have := h => /uniform_exact [ex hm e0 [ez iez] [mz imz mt]].
split=> //; last by rewrite ez iez !diag_const_mx.
move: h; rewrite /eigensolve_uniform_isotropic_media => H.
binv H k hk; binv H w hw; binv H r hr; case: H => <- /=; exact: unitmx1.
Qed.
Print Assumptions C14_uniform_eigensolution.

(** The dispersion relation [q^2 = eps w^2 - kx^2 - ky^2], for both polarizations. *)
Theorem C14_uniform_dispersion n wl k0 plv (eps : C) (expn : n.-tuple (Z * Z)) l w kx ky :
  eigensolve_uniform_isotropic_media wl k0 plv eps expn = Val l ->
  angular_frequency wl = Val w -> transverse_wavevectors k0 plv expn = Val (kx, ky) ->
  forall i, let q2 := eps * RtoC (w * w)%coqR - RtoC (kx 0 i ^+ 2 + ky 0 i ^+ 2) in
    (eigenvalues l 0 (lshift n i)) ^+ 2 = q2 /\ (eigenvalues l 0 (rshift n i)) ^+ 2 = q2.
Proof.
move=> H hw' hk' i /=; rewrite /eigensolve_uniform_isotropic_media hk' /= hw' /= in H.
binv H r hr; case: H => <- /=; rewrite row_mxEl row_mxEr !mxE select_sqr expr2 csqrt_sqr.
by rewrite [RtoC (_ + _)]rmorphD /= opprD addrA.
Qed.
Print Assumptions C14_uniform_dispersion.

(** ** C15 *)
Lemma solved_q eig n (l : layer_solve_result n) : solved eig l ->
  exists q2, forall i, eigenvalues l 0 i = select_eigenvalue_sign (csqrt (q2 i)).
Proof.
case=> {l}.
- move=> nx ny wl k0 plv p expn form l; rewrite /eigensolve_isotropic_media.
  case: ifP => _; first exact: uniform_q.
  rewrite /eigensolve_patterned_isotropic_media => H; binv H r hr.
  by case: r hr H => [[[ie ez] et] tvf] _; exact: numerical_q.
- move=> nx ny wl k0 plv eps expn form l.
  rewrite /eigensolve_anisotropic_media /eigensolve_general_anisotropic_media; case: ifP => _.
    rewrite /eigensolve_uniform_general_anisotropic_media => H; binv H r hr; binv H r' hr'.
    exact: numerical_q H.
  rewrite /eigensolve_patterned_general_anisotropic_media => H; binv H r hr.
  by case: r hr H => [[[[[[ie ez] et] im] mz] mt] tvf] _; exact: numerical_q.
- move=> nx ny wl k0 plv eps mu expn form src l.
  rewrite /eigensolve_general_anisotropic_media; case: ifP => _.
    rewrite /eigensolve_uniform_general_anisotropic_media => H; binv H r hr; binv H r' hr'.
    exact: numerical_q H.
  rewrite /eigensolve_patterned_general_anisotropic_media => H; binv H r hr.
  by case: r hr H => [[[[[[ie ez] et] im] mz] mt] tvf] _; exact: numerical_q.
Qed.

Theorem C15_eigenvalue_branch eig n (l : layer_solve_result n) : solved eig l ->
  forall i, Rle 0 (im (eigenvalues l 0 i)) /\ (im (eigenvalues l 0 i) = R0 -> Rle 0 (re (eigenvalues l 0 i))).
Proof.
move=> /solved_q [q2 e] i; rewrite e; split; first exact: select_im.
exact: select_real.
Qed.
Print Assumptions C15_eigenvalue_branch.

(** The branch is determined by the square. *)
Theorem C15_branch_unique (q q' : C) : q ^+ 2 = q' ^+ 2 ->
  Rle 0 (im q) -> (im q = R0 -> Rle 0 (re q)) -> Rle 0 (im q') -> (im q' = R0 -> Rle 0 (re q')) -> q = q'.
Proof.
move=> /eqP; rewrite eqf_sqr => /orP [/eqP -> //|/eqP ->]; rewrite imN reN => h1 h2 h3 h4.
have i0 : im q' = R0 by lra.
have r0 : re q' = R0 by have := h4 i0; have := h2; rewrite i0; lra.
have -> : q' = 0 by apply: C_ext.
by rewrite oppr0.
Qed.
Print Assumptions C15_branch_unique.

Theorem C15_no_amplification eig n m (l : layer_solve_result n) (a : 'M[C]_(n + n, m)) (d : 'rV[R]_m) :
  solved eig l -> forall i j, Rle 0 (d 0 j) ->
  Rle (Cmod (propagate_amplitude a d l i j)) (Cmod (a i j)).
Proof.
move=> hs i j hd; have [h _] := C15_eigenvalue_branch hs i.
rewrite mxE !CmodE; apply: sqrt_le_1_alt; rewrite abs2M abs2_cexp.
move: (eigenvalues l 0 i) (d 0 j) h hd => q t h hd.
have -> : re (Ci * q * RtoC t) = (- (im q * t))%coqR by rewrite !reimE; ring.
have p0 := abs2_ge0 (a i j); set x := (_ + _)%coqR.
have hx : Rle x 0 by have h0 := Rmult_le_pos _ _ h hd; rewrite /x; lra.
have he : Rle (exp x) 1.
  by case: (Rle_lt_or_eq_dec _ _ hx) => [hx'|->]; [rewrite -exp_0; left; exact: exp_increasing|rewrite exp_0; right].
by nra.
Qed.
Print Assumptions C15_no_amplification.

(** The docstring of the sign selection promises a strictly positive imaginary part: not so
    for propagating waves. *)
Theorem C15_strictly_positive_refuted : exists (eig : eig_fn) (l : layer_solve_result 1) i,
  solved eig l /\ im (eigenvalues l 0 i) = R0.
Proof.
exists (fun _ _ => Exn NonFinite), (ex_layer 2), (lshift 1 ord0); split; last by rewrite mxE.
apply: (@solved_isotropic _ _ 1 1 ex_wl (0, 0)%coqR sq_lattice (const_mx (RtoC (2 * 2)%coqR)) ex_expn FFT).
rewrite /eigensolve_isotropic_media eqxx.
have -> : squeeze11 (const_mx (RtoC (2 * 2)%coqR) : 'M[C]_1) = RtoC (2 * 2)%coqR.
  by rewrite /squeeze11 /mxget; case: insubP => // i _ _; rewrite mxE.
by apply: ex_solve; lra.
Qed.
Print Assumptions C15_strictly_positive_refuted.

(** ** C16 *)
Theorem C16_propagation_group n m (l : layer_solve_result n) (a : 'M[C]_(n + n, m)) (d d' : 'rV[R]_m) :
  [/\ propagate_amplitude a 0 l = a,
      propagate_amplitude (propagate_amplitude a d l) d' l = propagate_amplitude a (d + d') l &
      propagate_amplitude (propagate_amplitude a d l) (- d) l = a].
Proof.
have z : propagate_amplitude a 0 l = a.
  by apply/matrixP=> i j; rewrite !mxE rmorph0 mulr0 cexp0 mulr1.
have g (u v : 'rV[R]_m) : propagate_amplitude (propagate_amplitude a u l) v l = propagate_amplitude a (u + v) l.
  by apply/matrixP=> i j; rewrite !mxE rmorphD mulrDr cexpD mulrA.
by split=> //; rewrite g addrN.
Qed.
Print Assumptions C16_propagation_group.

(** Colocated amplitudes at the two ends of the layer; moving the reference plane. *)
Theorem C16_colocation n m (l : layer_solve_result n) (a b : 'M[C]_(n + n, m)) (t : R) (z d : 'rV[R]_m) :
  let c z := colocate_amplitudes a b z l t in
  [/\ (c 0).1 = a /\ (c (const_mx t)).2 = b,
      (c (z + d)).1 = propagate_amplitude (c z).1 d l &
      (c z).2 = propagate_amplitude (c (z + d)).2 d l].
Proof.
have [z1 _ _] := C16_propagation_group l a 0 0; have [z2 _ _] := C16_propagation_group l b 0 0.
have [_ g1 _] := C16_propagation_group l a z d.
have [_ g2 _] := C16_propagation_group l b (const_mx t - (z + d)) d.
rewrite /colocate_amplitudes /= subrr z1 z2 g1 g2; split=> //.
by rewrite opprD addrA subrK.
Qed.
Print Assumptions C16_colocation.

(** ** Witnesses *)

(** The quarter-wave stack of C01 is lossless, and its scattering matrix relates nonzero
    amplitudes. *)
Example C12_witness :
  [/\ stack_s_matrix ex_stack ex_thickness = Val ex_smat, same_wavelength ex_wl ex_stack,
      finite_fields ex_stack, forall l, List.In l ex_stack -> lossless l &
      scatters ex_smat 1%:M (s21 ex_smat) (s11 ex_smat) 0].
Proof.
have [hw hf] := ex_hyps; split=> //; first exact: ex_stackE.
  move=> l [<-|[<-|[<-|[]]]]; apply: C12_uniform_lossless; apply: ex_solve; lra.
by split; rewrite ?mulmx1 mulmx0 addr0.
Qed.
(** The same stack as a field solution with its interior amplitudes. *)
Example C12_witness_solution : exists xs : seq (layer_amplitudes 1 (1 + 1)),
  [/\ stack_solution (zip ex_stack ex_thickness) xs, size xs = 3%N &
      forall l, List.In l (zip ex_stack ex_thickness) ->
        lossless l.1 /\ exists M, field_conversion_matrix l.1 = Val M].
Proof.
have [h1 h2 h3 h4 h5] := C12_witness.
have [sz rel _ _] := C01_stack_s_matrix_is_field_continuity h1 h2 h3.
have [x0 [xs [sol _ _]]] := (rel _ _ _ _ _).1 h5.
exists (x0 :: xs); split=> //; first by rewrite (stack_solution_size sol).
case=> l t hl; have [k _] := zip_inl hl; split; first exact: h4.
exact: h3.
Qed.

(** A uniform layer of index 2 with nonzero amplitudes. *)
Example C13_witness : exists M,
  [/\ exact_modes (ex_layer 2) (diag (const_mx (RtoC (2 * 2)%coqR))), field_conversion_matrix (ex_layer 2) = Val M,
      z_permittivity_matrix (ex_layer 2) *m inverse_z_permittivity_matrix (ex_layer 2) = 1%:M,
      z_permeability_matrix (ex_layer 2) *m inverse_z_permeability_matrix (ex_layer 2) = 1%:M &
      lossless (ex_layer 2)].
Proof.
have r2 : (0 < 2)%coqR by lra.
have [M hM] := ex_finite r2; have hs := ex_solve r2.
have [ex _ _ [ez iez e0] [mz imz mt]] := C14_uniform_eigensolution hs.
exists M; split=> //; last exact: C12_uniform_lossless hs.
  by rewrite ez iez -scalar_mxM mulfV.
by rewrite mz imz mulmx1.
Qed.
(** Its directional flux is all forward: the eigenmode flux is positive. *)
Example C11_witness : exists s F,
  [/\ eigenmode_poynting_flux (ex_layer 2) = Val s, forall i, Rlt 0 (s 0 i) &
      fields_from_wave_amplitudes (const_mx 1 : 'cV[C]_(1 + 1)) 0 (ex_layer 2) = Val F].
Proof.
have r2 : (0 < 2)%coqR by lra.
have [M hM] := ex_finite r2; have [f] := fin_layerP hM.
have [s hs] : exists s, eigenmode_poynting_flux (ex_layer 2) = Val s.
  by rewrite /eigenmode_poynting_flux (a_matrixE f) /=; eexists.
exists s; eexists; split; [exact: hs| |exact: (fields_fromE f)].
move=> i; rewrite (eigenmode_fluxE f hs).
have eO : fl_O f = 1%:M by have := fl_Oe f; rewrite ex_omega // => -[].
have ew : fl_w f = 1%coqR by have := fl_we f; rewrite ex_w => -[].
have eA j : re (Cconj (emat f j i) * eigenvectors (ex_layer 2) j i) = if j == i then (/ 2)%coqR else 0.
  rewrite /emat eO [eigenvectors _]/= !mulmx1 mul1mx [diag _ j i]mxE [_%:M j i]mxE.
  case: eqP => [->|_]; last by rewrite !mulr0n mulr0.
  rewrite !mulr1n mulr1 reJ /wq !mxE ew mul1r -[RtoC 2]/(RtoC_rmorphism 2) -fmorphV /=.
  by rewrite RinvE.
rewrite (eq_bigr _ (fun j _ => eA j)) -big_mkcond big_pred1_eq; lra.
Qed.

(** ** C01: the hypothesis [complete_modes] *)
(** Eigenvectors of an exact eigensolution that are linearly independent form complete modes. *)
Theorem C01_independent_eigenvectors_complete n (l : layer_solve_result n) eps_t :
  exact_modes l eps_t -> eigenvectors l \in unitmx -> complete_modes [:: l].
Proof. exact: exact_complete. Qed.
Print Assumptions C01_independent_eigenvectors_complete.
(** So stacks of uniform layers have complete modes, whatever their wavevectors. *)
Theorem C01_uniform_complete n (ls : seq (layer_solve_result n)) :
  (forall l, List.In l ls -> exists wl k0 plv eps expn,
     eigensolve_uniform_isotropic_media wl k0 plv eps expn = Val l) ->
  complete_modes ls.
Proof.
move=> h l hl M hM; have [wl [k0 [plv [eps [expn hs]]]]] := h l hl.
have [ex _ u _ _] := C14_uniform_eigensolution hs.
by apply: (exact_complete ex u) hM; left.
Qed.
Print Assumptions C01_uniform_complete.

(** The eigensolution exists for every nonzero wavelength and permittivity and nondegenerate
    lattice, and its fields are finite away from the cutoff of each order. *)
Theorem C14_uniform_total n wl k0 plv (eps : C) (expn : n.-tuple (Z * Z)) :
  (exists l, eigensolve_uniform_isotropic_media wl k0 plv eps expn = Val l) <->
  [/\ cross_product (lat_u plv) (lat_v plv) <> 0%coqR, wl <> 0%coqR & eps <> 0].
Proof.
rewrite /eigensolve_uniform_isotropic_media /transverse_wavevectors /reciprocal /angular_frequency /recipR /recipC.
case: (cross_product _ _ =P 0) => h1 /=; first by split=> [[]|[]].
case: (wl =P 0) => h2 /=; first by split=> [[]|[]].
case: (eps =P 0) => h3 /=; first by split=> [[]|[]].
by split=> // _; eexists.
Qed.
Print Assumptions C14_uniform_total.
Theorem C14_uniform_finite_fields n wl k0 plv (eps : C) (expn : n.-tuple (Z * Z)) l w kx ky :
  eigensolve_uniform_isotropic_media wl k0 plv eps expn = Val l ->
  angular_frequency wl = Val w -> transverse_wavevectors k0 plv expn = Val (kx, ky) ->
  ((exists M, field_conversion_matrix l = Val M) <->
   forall i, eps * RtoC (w * w)%coqR <> RtoC (kx 0 i ^+ 2 + ky 0 i ^+ 2)).
Proof.
move=> hs hw hk; have disp := C14_uniform_dispersion hs hw hk.
have [ex [wE [kE [pE eE]]] _ _ _] := C14_uniform_eigensolution hs; split.
- case=> M /fin_layerP [f] i e; have := fl_q f (lshift n i); have [h _] := disp i.
  by rewrite -sqrf_eq0 h e subrr eqxx.
- move=> hq; rewrite /field_conversion_matrix.
  case: ex => k [K [O [_ _ hO _]]]; rewrite hO wE hw /=.
  have [_ [w0 _]] := angular_frequencyV hw.
  rewrite /recip ifT; first by eexists.
  apply/forallP=> i; rewrite mxE mulf_neq0 ?RtoC_neq0 //.
  rewrite -sqrf_eq0; have nz j : eps * RtoC (w * w)%coqR - RtoC (kx 0 j ^+ 2 + ky 0 j ^+ 2) != 0.
    by rewrite subr_eq0; apply/eqP.
  by case: (splitP i) => j hj; have [h1 h2] := disp j;
     [have -> : i = lshift n j by apply: val_inj | have -> : i = rshift n j by apply: val_inj]; rewrite ?h1 ?h2.
Qed.
Print Assumptions C14_uniform_finite_fields.

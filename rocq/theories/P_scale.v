(** C46: Maxwell's equations have no length scale. *)
From Coq Require Import Reals ZArith Lra FunctionalExtensionality.
From mathcomp Require Import all_ssreflect all_algebra.
From Verif Require Import CField Err LinAlg M_utils M_basis M_fft M_fmm_matrices M_fmm M_scattering M_fields S_stack S_maxwell S_scale L_scattering L_stack L_example L_maxwell L_flux L_fft L_fmm P_scattering P_maxwell P_fmm L_scale.
Set Implicit Arguments. Unset Strict Implicit. Unset Printing Implicit Defensive.
Import GRing.Theory.
Local Open Scope ring_scope.

(** A patterned layer as the user describes it. *)
Record layer_spec n := LayerSpec { sp_nx : nat; sp_ny : nat;
  sp_permittivity : 'M[C]_(sp_nx, sp_ny); sp_formulation : formulation sp_nx sp_ny n }.

(** The four blocks of the scattering matrix of a stack, from its description: wavelength,
    wavevector, lattice, orders, layers, thicknesses. *)
Definition simulate (eig : eig_fn) n (wl : R) (k0 : R * R) (plv : lattice)
    (expn : n.-tuple (Z * Z)) (layers : seq (layer_spec n)) (thicknesses : seq R)
    : res ('M[C]_(n + n) * 'M[C]_(n + n) * 'M[C]_(n + n) * 'M[C]_(n + n)) :=
  solves <- mapM (fun sp => eigensolve_isotropic_media eig wl k0 plv (sp_permittivity sp) expn
                              (sp_formulation sp)) layers;;
  m <- stack_s_matrix solves thicknesses;;
  Val (s11 m, s12 m, s21 m, s22 m).

(** The tangent field depends on the lattice only through its shape. *)
Definition tangent_scale_free n (s : R) (plv : lattice) (expn : n.-tuple (Z * Z)) nx ny
    (form : formulation nx ny n) :=
  match form with
  | FFT => True
  | Vector f => forall x, f x expn (scale_lattice s plv) = f x expn plv
  end.

Definition uniform_spec n (eps : C) : layer_spec n := LayerSpec (const_mx eps : 'M[C]_(1, 1)) FFT.

Lemma mapM_map (A B D : Type) (f : A -> res B) (g : A -> res D) (h : B -> D) (l : seq A) :
  (forall x, List.In x l -> g x = rmap h (f x)) -> mapM g l = rmap (map h) (mapM f l).
Proof.
elim: l => [|x l IH] //= e; rewrite e; last by left.
rewrite rmap_bind bind_rmap; apply: eq_bind => y _; rewrite IH => [|z hz]; last by apply: e; right.
by rewrite rmap_bind bind_rmap.
Qed.

Theorem C46_eigensolve (s : R) eig n nx ny wl k0 plv (eps : 'M[C]_(nx, ny)) (expn : n.-tuple (Z * Z)) form :
  (0 < s)%coqR -> eig_homogeneous eig \/ (nx, ny) = (1, 1)%N -> tangent_scale_free s plv expn form ->
  eigensolve_isotropic_media eig (s * wl)%coqR (scale_wavevector s k0) (scale_lattice s plv) eps expn form =
  rmap (@scale_layer s n) (eigensolve_isotropic_media eig wl k0 plv eps expn form).
Proof.
move=> s0 he hf; rewrite /eigensolve_isotropic_media; case: eqP => [e|ne]; first exact: uniform_scale.
case: he => [he|//]; rewrite /eigensolve_patterned_isotropic_media.
have -> : fourier_matrices_patterned_isotropic_media (scale_lattice s plv) eps expn form =
          fourier_matrices_patterned_isotropic_media plv eps expn form.
  by case: form hf => //= f hf; rewrite /fourier_matrices_patterned_isotropic_media hf.
rewrite bind_rmap; apply: eq_bind => -[[[a b] d] e] _; exact: numerical_scale.
Qed.
Print Assumptions C46_eigensolve.

Theorem C46_eigensolve_anisotropic (s : R) eig n nx ny wl k0 plv (eps mu : tensor 'M[C]_(nx, ny))
    (expn : n.-tuple (Z * Z)) form src :
  (0 < s)%coqR -> eig_homogeneous eig -> tangent_scale_free s plv expn form ->
  eigensolve_general_anisotropic_media eig (s * wl)%coqR (scale_wavevector s k0) (scale_lattice s plv) eps mu expn form src =
  rmap (@scale_layer s n) (eigensolve_general_anisotropic_media eig wl k0 plv eps mu expn form src).
Proof.
move=> s0 he hf; rewrite /eigensolve_general_anisotropic_media; case: eqP => [_|_].
  rewrite /eigensolve_uniform_general_anisotropic_media bind_rmap; apply: eq_bind => r _.
  by rewrite bind_rmap; apply: eq_bind => r' _; exact: numerical_scale.
rewrite /eigensolve_patterned_general_anisotropic_media.
have e x : fourier_matrices_patterned_anisotropic_media (scale_lattice s plv) eps mu expn form x =
          fourier_matrices_patterned_anisotropic_media plv eps mu expn form x.
  by case: form hf => //= f hf; rewrite /fourier_matrices_patterned_anisotropic_media hf.
rewrite e bind_rmap; apply: eq_bind => -[[[[[[? ?] ?] ?] ?] ?] ?] _; exact: numerical_scale.
Qed.
Print Assumptions C46_eigensolve_anisotropic.

(** The scattering matrix of a stack does not change when every length is multiplied by [s]. *)
Theorem C46_scattering (s : R) eig n wl k0 plv (expn : n.-tuple (Z * Z)) layers ts :
  (0 < s)%coqR ->
  (forall sp, List.In sp layers ->
     (eig_homogeneous eig \/ (sp_nx sp, sp_ny sp) = (1, 1)%N) /\
     tangent_scale_free s plv expn (sp_formulation sp)) ->
  simulate eig (s * wl)%coqR (scale_wavevector s k0) (scale_lattice s plv) expn layers
           [seq (s * t)%coqR | t <- ts] =
  simulate eig wl k0 plv expn layers ts.
Proof.
move=> s0 h; rewrite /simulate.
rewrite (@mapM_map _ _ _ (fun sp => eigensolve_isotropic_media eig wl k0 plv (sp_permittivity sp) expn (sp_formulation sp)) _ (@scale_layer s n)); last first.
  by move=> sp hsp; have [h1 h2] := h sp hsp; exact: C46_eigensolve.
by rewrite rmap_bind; apply: eq_bind => ls _; rewrite stack_scale // rmap_bind; apply: eq_bind.
Qed.
Print Assumptions C46_scattering.

(** Stacks of uniform layers: nothing is assumed of the eigensolver (it is not used). *)
Corollary C46_uniform_scattering (s : R) eig n wl k0 plv (expn : n.-tuple (Z * Z)) (permittivities : seq C) ts :
  (0 < s)%coqR ->
  simulate eig (s * wl)%coqR (scale_wavevector s k0) (scale_lattice s plv) expn
           (map (@uniform_spec n) permittivities) [seq (s * t)%coqR | t <- ts] =
  simulate eig wl k0 plv expn (map (@uniform_spec n) permittivities) ts.
Proof.
move=> s0; apply: C46_scattering => // sp hsp.
elim: permittivities hsp => [|e es IH] //= [<-|/IH //].
by split => //; right.
Qed.
Print Assumptions C46_uniform_scattering.

(** The fields at corresponding points are the same. *)
Theorem C46_fields (s : R) n m (l : layer_solve_result n) (t z : R) (a b : 'M[C]_(n + n, m)) :
  (0 < s)%coqR ->
  reported_fields (scale_layer s l) (s * t)%coqR a b (s * z)%coqR = reported_fields l t a b z.
Proof.
move=> s0; rewrite /reported_fields.
have -> : const_mx (s * z)%coqR = s *: const_mx z :> 'rV[R]_m by apply/matrixP=> i j; rewrite !mxE.
by rewrite colocate_scale // fields_scale.
Qed.
Print Assumptions C46_fields.
Theorem C46_coordinates (s : R) n m p (f : fields6 'M[C]_(n, m)) (l : layer_solve_result n) (x y : 'I_p -> R) :
  (0 < s)%coqR ->
  rmap fst (fields_on_coordinates f (scale_layer s l) (fun i => s * x i)%coqR (fun i => s * y i)%coqR) =
  rmap fst (fields_on_coordinates f l x y).
Proof.
move=> s0; rewrite /fields_on_coordinates /= wavevectors_scale // rmap_bind !bind_rmap; apply: eq_bind => k _ /=.
congr (Val (fields6_map _ _)); apply: functional_extensionality => X.
apply: functional_extensionality => pt; apply: functional_extensionality => j.
apply: eq_bigr => i _; congr (_ * cexp (_ * RtoC _)); rewrite !mxE !RmulE.
by move: (k.1 0 i) (k.2 0 i) => a b; field; lra.
Qed.
Print Assumptions C46_coordinates.

(** The eigen-equation of any layer. *)
Theorem C46_eigen_equation (s : R) n (l : layer_solve_result n) eps_t :
  (0 < s)%coqR -> (exact_modes (scale_layer s l) eps_t <-> exact_modes l eps_t).
Proof.
move=> s0; have c0 := Rinv_0_lt_compat _ s0; have cC : RtoC (/ s)%coqR != 0 by apply: RtoC_neq0; lra.
have cc : RtoC (/ s)%coqR * RtoC (/ s)%coqR != 0 by rewrite mulf_neq0.
have d : diag (\row_i (RtoC (/ s)%coqR *: eigenvalues l) 0 i ^+ 2) =
         (RtoC (/ s)%coqR * RtoC (/ s)%coqR) *: diag (\row_i eigenvalues l 0 i ^+ 2).
  rewrite -linearZ /=; congr diag; apply/matrixP=> i j; rewrite !mxE; move: (eigenvalues _ _ _) => x.
  by rewrite !expr2; toC; ring.
split=> -[k [K [O [h1 h2 h3 h4]]]].
- move: h1 h2 h3 h4; rewrite /= wavevectors_scale //; case e1: (transverse_wavevectors _ _ _) => [k'|] //= [<-].
  rewrite kmat_scale //; case e2: (k_matrix_patterned _ _) => [K'|] //= [<-].
  rewrite omega_scale //; case e3: (omega_script_k_matrix _) => [O'|] //= [<-] h4.
  exists k', K', O'; split=> //; move: h4.
  rewrite d -scalemxAr -[in X in X *m _]scalemxAl -scalerBr -scalemxAl -scalemxAr.
  by move/(congr1 (fun X => (RtoC (/ s)%coqR * RtoC (/ s)%coqR)^-1 *: X)); rewrite !scalerA !mulVf // !scale1r.
- rewrite /exact_modes /= wavevectors_scale // h1 omega_scale // h3 /=.
  eexists; eexists; eexists; split; first by reflexivity.
  + by rewrite kmat_scale // h2 /=; reflexivity.
  + by reflexivity.
  + by rewrite d -scalemxAr -[in X in X *m _]scalemxAl -scalerBr -!scalemxAl -scalemxAr h4.
Qed.
Print Assumptions C46_eigen_equation.

(** ** Non-vacuity: an eigensolver that is homogeneous; a stack that has a scattering matrix. *)
Example C46_eig_witness : eig_homogeneous diag_eig /\ eig_spec diag_eig.
Proof.
split; last exact: diag_eig_spec.
move=> c m A c0; have cC : RtoC c != 0 by apply: RtoC_neq0; lra.
rewrite /diag_eig.
have e : (RtoC c *: A == diag (\row_i (RtoC c *: A) i i)) = (A == diag (\row_i A i i)).
  have -> : diag (\row_i (RtoC c *: A) i i) = RtoC c *: diag (\row_i A i i).
    by rewrite -linearZ /=; congr diag; apply/matrixP=> i j; rewrite !mxE.
  apply/eqP/eqP => [h|<- //].
  by rewrite -[LHS](scalerK cC) h scalerK.
rewrite e; case: eqP => //= _; congr (Val (_, _)); by apply/matrixP=> i j; rewrite !mxE.
Qed.
Example C46_witness : exists m,
  simulate diag_eig ex_wl (0, 0)%coqR sq_lattice ex_expn
    (map (@uniform_spec 1) [:: RtoC (1 * 1)%coqR; RtoC (2 * 2)%coqR; RtoC (1 * 1)%coqR]) ex_thickness = Val m.
Proof.
have r1 : (0 < 1)%coqR by lra. have r2 : (0 < 2)%coqR by lra.
have e r : (0 < r)%coqR -> eigensolve_isotropic_media diag_eig ex_wl (0, 0)%coqR sq_lattice
   (const_mx (RtoC (r * r)%coqR) : 'M[C]_(1, 1)) ex_expn FFT = Val (ex_layer r).
  move=> r0; rewrite /eigensolve_isotropic_media -ex_solve //= /squeeze11.
  by rewrite (mxgetE _ (isT : (0 < 1)%N) (isT : (0 < 1)%N)) mxE.
rewrite /simulate; cbn [map mapM sp_permittivity sp_formulation uniform_spec].
rewrite !e //; cbn [bind]; rewrite ex_stackE; cbn [bind]; by eexists.
Qed.

(** C13 for anisotropic media: the solution of Maxwell's equations is for the given tensors. *)
From Coq Require Import Reals ZArith Lra Lia.
From mathcomp Require Import all_ssreflect all_algebra all_fingroup.
From Verif Require Import CField Err LinAlg M_utils M_basis M_fft M_fmm_matrices M_fmm M_scattering M_fields S_stack S_maxwell S_fft L_scattering L_stack L_maxwell L_flux L_fft L_example P_maxwell P_fft L_fmm P_fmm.
Set Implicit Arguments. Unset Strict Implicit. Unset Printing Implicit Defensive.
Import GRing.Theory.
Local Open Scope ring_scope.

(** [D] is the tensor with the given component matrices applied to [E]. *)
Definition tensor_law n m (T : tensor 'M[C]_n) (D E : vec3 n m) :=
  [/\ v_x D = t_xx T *m v_x E + t_xy T *m v_y E, v_y D = t_yx T *m v_x E + t_yy T *m v_y E &
      v_z D = t_zz T *m v_z E].
(** Whatever the amplitudes, the fields reported at every depth are a solution of Maxwell's
    equations for the tensors [eps] and [mu]; the z components are reported through [inv_eps_z] and
    [inv_mu_z]. *)
Definition solves_media n (l : layer_solve_result n) (wl : R) (k0 : R * R) (plv : lattice) (expn : n.-tuple (Z * Z))
    (eps mu : tensor 'M[C]_n) (inv_eps_z inv_mu_z : 'M[C]_n) :=
  forall m t (a b : 'M[C]_(n + n, m)), exists w kx ky E H D B,
  [/\ angular_frequency wl = Val w, transverse_wavevectors k0 plv expn = Val (kx, ky),
      maxwell w kx ky E H D B, (forall z, tensor_law eps (D z) (E z) /\ tensor_law mu (B z) (H z)) &
      forall z, reported_fields l t a b z =
        Val (Fields (v_x (E z)) (v_y (E z)) (inv_eps_z *m v_z (D z)) (v_x (H z)) (v_y (H z)) (inv_mu_z *m v_z (B z)))].

Lemma laws n (l : layer_solve_result n) M wl k0 plv expn (eps mu : tensor 'M[C]_n) (ie im : 'M[C]_n) :
  exact_modes l (block_mx (t_yy eps) (- t_yx eps) (- t_xy eps) (t_xx eps)) -> field_conversion_matrix l = Val M ->
  wavelength l = wl /\ in_plane_wavevector l = k0 /\ primitive_lattice_vectors l = plv /\ expansion l = expn ->
  z_permittivity_matrix l = t_zz eps /\ inverse_z_permittivity_matrix l = ie ->
  z_permeability_matrix l = t_zz mu /\ inverse_z_permeability_matrix l = im ->
  transverse_permeability_matrix l = block_mx (t_xx mu) (t_xy mu) (t_yx mu) (t_yy mu) ->
  solves_media l wl k0 plv expn eps mu ie im.
Proof.
move=> ex hM [<- [<- [<- <-]]] [ez iez] [mz imz] mt m t a b.
have [w [kx [ky [E [H [D [B [h1 h2 h3 h4 h5]]]]]]]] := C13_fields_solve_maxwell t a b ex hM.
exists w, kx, ky, E, H, D, B; split=> //; last by move=> z; rewrite h5 iez imz.
move=> z; have [[hd hz] [hb hbz]] := h4 z; rewrite ez in hz; rewrite mz in hbz.
move: hd hb; rewrite mt !mul_block_col => /eq_col_mx [d1 d2] /eq_col_mx [b1 b2].
split; split=> //.
- by rewrite d2 mulNmx mulmxN opprK addrC.
- by rewrite -[v_y _]opprK d1 mulmxN mulNmx opprD !opprK addrC.
Qed.

(** A uniform layer: the tensors act on each order by their components. *)
Theorem C13_uniform_anisotropic_media (eig : eig_fn) n wl k0 plv (eps mu : tensor 'M[C]_(1, 1)) (expn : n.-tuple (Z * Z)) form src l M :
  eig_spec eig -> eigensolve_general_anisotropic_media eig wl k0 plv eps mu expn form src = Val l ->
  field_conversion_matrix l = Val M ->
  let on_orders (t : tensor 'M[C]_(1, 1)) :=
    Tensor (t_xx t 0 0)%:M (t_xy t 0 0)%:M (t_yx t 0 0)%:M (t_yy t 0 0)%:M (t_zz t 0 0)%:M in
  solves_media l wl k0 plv expn (on_orders eps) (on_orders mu) ((t_zz eps 0 0)^-1)%:M ((t_zz mu 0 0)^-1)%:M.
Proof.
move=> he; rewrite /eigensolve_general_anisotropic_media eqxx /eigensolve_uniform_general_anisotropic_media /=.
have sq (x : 'M[C]_(1, 1)) : squeeze11 x = x 0 0.
  by rewrite /squeeze11 (mxgetE _ (isT : (0 < 1)%N) (isT : (0 < 1)%N)); congr (x _ _); apply: val_inj.
rewrite !sq => H hM; binv H r1 h1; binv H r2 h2; have [_ er1] := recipCV h1; have [_ er2] := recipCV h2.
have [ex hm [e1 e2] [e3 e4] [e5 _]] := numerical_exact he H.
rewrite !diagS in ex e1 e2 e3 e4 e5.
by apply: (laws (M := M)) => //=; rewrite -?raddfN //; split=> //; rewrite ?e2 ?e4 ?er1 ?er2.
Qed.
Print Assumptions C13_uniform_anisotropic_media.

(** A patterned layer in the Fourier formulation: the tensors act by the convolution of Fourier
    coefficients, which are those of the given arrays. *)
Theorem C13_patterned_anisotropic_media (eig : eig_fn) nx ny n wl k0 plv (eps mu : tensor 'M[C]_(nx, ny)) (expn : n.-tuple (Z * Z)) src l M :
  eig_spec eig -> (nx, ny) <> (1, 1)%N -> eigensolve_general_anisotropic_media eig wl k0 plv eps mu expn FFT src = Val l ->
  field_conversion_matrix l = Val M ->
  let convolution (x : 'M[C]_(nx, ny)) : 'M[C]_n := \matrix_(i, j)
    fourier_coefficient x ((tnth expn i).1 - (tnth expn j).1, (tnth expn i).2 - (tnth expn j).2)%coqZ in
  let on_orders (t : tensor 'M[C]_(nx, ny)) := Tensor (convolution (t_xx t)) (convolution (t_xy t)) (convolution (t_yx t))
    (convolution (t_yy t)) (convolution (t_zz t)) in
  solves_media l wl k0 plv expn (on_orders eps) (on_orders mu)
    (convolution (map_mx (fun z : C => z^-1) (t_zz eps))) (convolution (map_mx (fun z : C => z^-1) (t_zz mu))).
Proof.
move=> he ne H hM.
have [src' [ie [ez [et [im' [mz [mt [tvf [hf [ex _] hm e12 [e3 e4 e5 _]]]]]]]]]] := C13_general_anisotropic_solver he ne H.
move: hf; rewrite /fourier_matrices_patterned_anisotropic_media /= => G.
binv G ip hip; binv G z1 h1; have [n0 hr] := convV h1.
move: G h1; rewrite /transverse_permittivity_fft_anisotropic /transverse_permeability_fft_anisotropic !convE //= => G [h1].
binv G im2 him2; move: G; rewrite !convE //= => -[ie' ee et' im3 em mt' _].
have [_ hi1] := recipMV hip; have [_ hi2] := recipMV him2.
apply: (laws (M := M)) => //=.
- by move: ex; rewrite -et' !convN.
- by rewrite e12.1 e12.2 -ie' -ee -h1 hi1.
- by rewrite e3 e4 -em -im3 hi2.
- by rewrite e5 -mt'.
Qed.
Print Assumptions C13_patterned_anisotropic_media.

(** A birefringent layer (permittivity 4 along x, 9 along y, 2 along z) at normal incidence. *)
Example C13_anisotropic_witness : let c (x : R) : 'M[C]_(1, 1) := const_mx (RtoC x) in
  exists l M, [/\ eigensolve_general_anisotropic_media diag_eig ex_wl (0, 0)%coqR sq_lattice
      (Tensor (c 4) (c 0) (c 0) (c 9) (c 2))%coqR (Tensor (c 1) (c 0) (c 0) (c 1) (c 1))%coqR ex_expn FFT None = Val l,
    field_conversion_matrix l = Val M & eig_spec diag_eig].
Proof.
move=> c.
have sq (x : R) : squeeze11 (c x) = RtoC x.
  by rewrite /squeeze11 (mxgetE _ (isT : (0 < 1)%N) (isT : (0 < 1)%N)) mxE.
have rc (x : R) : x <> 0%coqR -> recipC (RtoC x) = Val (RtoC x)^-1 by move=> h; rewrite /recipC ifT //; exact: RtoC_neq0.
have n2 : RtoC 2%coqR != 0 by apply: RtoC_neq0; lra.
have n1 : RtoC 1%coqR != 0 by apply: RtoC_neq0; lra.
have os (M : 'M[C]_(1 + 1)) : omega_script_k_matrix_patterned ex_wl (RtoC 2%coqR)%:M M (0, 0) = Val M.
  rewrite /omega_script_k_matrix_patterned /script_k_matrix_patterned /= !k0_diag !solve_scalar //= ex_w /=.
  rewrite !rowscale_0 ?scaler0 // block_mx0 subr0.
  by congr Val; rewrite -[RHS]scale1r; congr (_ *: _); Creim; ring.
rewrite /eigensolve_general_anisotropic_media eqxx /eigensolve_uniform_general_anisotropic_media /= !sq !rc; try lra.
cbn [bind]; rewrite !diagS /numerical_eigensolve ex_k; cbn [bind].
rewrite /k_matrix_patterned !k0_diag !solve_scalar //; cbn [bind fst snd]; rewrite !os; cbn [bind].
rewrite !rowscale_0 ?scaler0 // block_mx0 mul0mx subr0.
have -> : block_mx (RtoC 1%coqR)%:M (RtoC 0%coqR)%:M (RtoC 0%coqR)%:M (RtoC 1%coqR)%:M = 1%:M :> 'M[C]_(1 + 1).
  by rewrite -[RtoC 0]/(0 : C) -[RtoC 1]/(1 : C) raddf0 blockS.
rewrite mulmx1.
set E := block_mx _ _ _ _.
have hE : E = diag (row_mx (const_mx (RtoC 9%coqR)) (const_mx (RtoC 4%coqR))).
  apply/matrixP=> i j; rewrite /diag /E -[RtoC 0]/(0 : C) oppr0 raddf0 [RHS]mxE.
  case: (split_ordP i) => a ->; case: (split_ordP j) => b ->; rewrite ?block_mxEul ?block_mxEur ?block_mxEdl ?block_mxEdr;
    rewrite ?row_mxEl ?row_mxEr ?mxE ?eq_lshift ?eq_rshift ?eq_lrshift ?eq_rlshift ?mulr0n //.
have dE (v : 'rV[C]_(1 + 1)) : (\row_i (diag v) i i) = v.
  by apply/matrixP=> k j0; rewrite !mxE (ord1 k) eqxx mulr1n.
rewrite hE /diag_eig dE eqxx; cbn [bind].
set q := select_eigenvalues_sign _.
have hq i : q 0 i != 0.
  have : q 0 i ^+ 2 != 0.
    rewrite !mxE select_sqr expr2 csqrt_sqr; case: (fintype.split i) => a; rewrite mxE; apply: RtoC_neq0; lra.
  by rewrite expf_eq0.
match goal with |- exists l M, [/\ Val ?x = _, _ & _] => exists x end.
rewrite /field_conversion_matrix /omega_script_k_matrix; cbn [primitive_lattice_vectors in_plane_wavevector expansion wavelength z_permittivity_matrix transverse_permeability_matrix eigenvalues eigenvectors].
rewrite ex_k; cbn [bind]; rewrite os; cbn [bind]; rewrite ex_w; cbn [bind].
rewrite /recip ifT; last by apply/forallP=> i; rewrite mxE -[RtoC 1]/(1 : C) mul1r hq.
by eexists; split; [reflexivity|reflexivity|exact: diag_eig_spec].
Qed.

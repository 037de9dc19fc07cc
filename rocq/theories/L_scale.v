(** Proofs about scaling of lengths. *)
From Coq Require Import Reals ZArith Lra.
From mathcomp Require Import all_ssreflect all_algebra.
From Verif Require Import CField Err LinAlg M_utils M_basis M_fft M_fmm_matrices M_fmm M_scattering M_fields S_stack S_maxwell S_scale L_scattering L_stack L_maxwell L_flux L_fmm P_maxwell.
Set Implicit Arguments. Unset Strict Implicit. Unset Printing Implicit Defensive.
Import GRing.Theory.
Local Open Scope ring_scope.

Lemma rmap_bind (A B D : Type) (f : A -> B) (m : res A) (k : B -> res D) :
  bind (rmap f m) k = bind m (fun x => k (f x)).
Proof. by case: m. Qed.
Lemma bind_rmap (A B D : Type) (f : B -> D) (m : res A) (k : A -> res B) :
  rmap f (bind m k) = bind m (fun x => rmap f (k x)).
Proof. by case: m. Qed.
Lemma eq_bind (A B : Type) (m : res A) (k k' : A -> res B) :
  (forall x, m = Val x -> k x = k' x) -> bind m k = bind m k'.
Proof. by case: m => //= x h; apply: h. Qed.

Section Scale.
Variable s : R.
Hypothesis s0 : (0 < s)%coqR.
Let c : R := (/ s)%coqR.
Let c0 : (0 < c)%coqR. Proof. exact: Rinv_0_lt_compat. Qed.
Let sn0 : s <> R0. Proof. by lra. Qed.
Let cC : RtoC c != 0. Proof. by apply: RtoC_neq0; lra. Qed.

Lemma recipR_scale x : recipR (s * x)%coqR = rmap (fun r => (c * r)%coqR) (recipR x).
Proof.
rewrite /recipR; case: (x =P 0) => [->|nx].
  by rewrite R0E Rmult_0_r eqxx.
have nx' : x <> R0 by [].
case: eqP => [e|_] /=; last by rewrite !RinvE /c; congr Val; field.
by case: nx'; rewrite R0E in e; have := Rmult_integral _ _ e; case.
Qed.
Lemma recipC_scale (a x : C) : a != 0 -> recipC (a * x) = rmap (fun r => a^-1 * r) (recipC x).
Proof. by move=> a0; rewrite /recipC mulf_eq0 (negbTE a0) /=; case: eqP => //= _; rewrite invfM. Qed.
Lemma recip_scale n (a : C) (v : 'rV[C]_n) : a != 0 ->
  recip (a *: v) = rmap (fun r => a^-1 *: r) (recip v).
Proof.
move=> a0; rewrite /recip.
have -> : [forall i, (a *: v) 0 i != 0] = [forall i, v 0 i != 0].
  by apply: eq_forallb => i; rewrite mxE mulf_eq0 (negbTE a0).
by case: ifP => //= _; congr Val; apply/matrixP=> i j; rewrite !mxE invfM.
Qed.
Lemma angular_scale wl : angular_frequency (s * wl)%coqR = rmap (fun w => (c * w)%coqR) (angular_frequency wl).
Proof.
rewrite /angular_frequency recipR_scale rmap_bind bind_rmap; apply: eq_bind => r _ /=.
by congr Val; ring.
Qed.
Lemma reciprocal_scale l : reciprocal (scale_lattice s l) = rmap (scale_lattice c) (reciprocal l).
Proof.
case: l => [[u1 u2] [v1 v2]]; rewrite /reciprocal /cross_product /=.
have -> : ((s * u1) * (s * v2) - (s * u2) * (s * v1) = s * (s * (u1 * v2 - u2 * v1)))%coqR by ring.
rewrite !recipR_scale rmap_bind rmap_bind bind_rmap; apply: eq_bind => r _ /=.
by rewrite /scale_lattice /scale_vec /=; congr (Val (Lattice (_, _) (_, _))); rewrite /c; field.
Qed.
Lemma wavevectors_scale n k0 l (expn : n.-tuple (Z * Z)) :
  transverse_wavevectors (scale_wavevector s k0) (scale_lattice s l) expn =
  rmap (fun k => (c *: k.1, c *: k.2)) (transverse_wavevectors k0 l expn).
Proof.
rewrite /transverse_wavevectors reciprocal_scale rmap_bind bind_rmap; apply: eq_bind => r _ /=.
congr (Val (_, _)); apply/matrixP=> i j; rewrite !mxE RmulE /c; move: (IZR _) (IZR _) => a b; field; lra.
Qed.
Lemma vC_scale n (k : 'rV[R]_n) : vC (c *: k) = RtoC c *: vC k.
Proof. by apply/matrixP=> i j; rewrite !mxE rmorphM. Qed.
Lemma solve_scaleB n p (a : C) (A : 'M[C]_n) (B : 'M[C]_(n, p)) :
  solve A (a *: B) = rmap (fun X => a *: X) (solve A B).
Proof. by rewrite /solve; case: ifP => //= _; rewrite scalemxAr. Qed.
Lemma solve_scaleA n p (a : C) (A : 'M[C]_n) (B : 'M[C]_(n, p)) : a != 0 ->
  solve (a *: A) B = rmap (fun X => a^-1 *: X) (solve A B).
Proof.
move=> a0; rewrite /solve unitmxZ ?unitfE //; case: ifP => //= u.
by rewrite invmxZ ?unitmxZ ?unitfE // -scalemxAl.
Qed.
Lemma rowscaleZ n p (a b : C) (v : 'rV[C]_n) (M : 'M[C]_(n, p)) :
  rowscale (a *: v) (b *: M) = (a * b) *: rowscale v M.
Proof. by apply/matrixP=> i j; rewrite !mxE mulrACA. Qed.
Lemma colscaleZ n p (a b : C) (M : 'M[C]_(n, p)) (v : 'rV[C]_p) :
  colscale (a *: M) (b *: v) = (a * b) *: colscale M v.
Proof. by apply/matrixP=> i j; rewrite !mxE mulrACA. Qed.
Lemma script_scale n (ez : 'M[C]_n) (k : 'rV[R]_n * 'rV[R]_n) :
  script_k_matrix_patterned ez (c *: k.1, c *: k.2) =
  rmap (fun X => (RtoC c * RtoC c) *: X) (script_k_matrix_patterned ez k).
Proof.
rewrite /script_k_matrix_patterned /= !vC_scale !linearZ /= !solve_scaleB rmap_bind bind_rmap.
apply: eq_bind => x _; rewrite rmap_bind bind_rmap; apply: eq_bind => y _ /=.
by rewrite !rowscaleZ -scale_block_mx.
Qed.
Lemma kmat_scale n (mz : 'M[C]_n) (k : 'rV[R]_n * 'rV[R]_n) :
  k_matrix_patterned mz (c *: k.1, c *: k.2) =
  rmap (fun X => (RtoC c * RtoC c) *: X) (k_matrix_patterned mz k).
Proof.
rewrite /k_matrix_patterned /= !vC_scale !linearZ /= !solve_scaleB rmap_bind bind_rmap.
apply: eq_bind => x _; rewrite rmap_bind bind_rmap; apply: eq_bind => y _ /=.
by rewrite !rowscaleZ -scale_block_mx.
Qed.
Lemma omega_patterned_scale n wl (ez : 'M[C]_n) mt (k : 'rV[R]_n * 'rV[R]_n) :
  omega_script_k_matrix_patterned (s * wl)%coqR ez mt (c *: k.1, c *: k.2) =
  rmap (fun X => (RtoC c * RtoC c) *: X) (omega_script_k_matrix_patterned wl ez mt k).
Proof.
rewrite /omega_script_k_matrix_patterned script_scale rmap_bind bind_rmap.
apply: eq_bind => x _; rewrite angular_scale rmap_bind bind_rmap; apply: eq_bind => w _ /=.
rewrite scalerBr scalerA -!rmorphM /=; congr (Val (RtoC _ *: _ - _)).
by rewrite !RmulE; ring.
Qed.
Lemma omega_scale n (l : layer_solve_result n) :
  omega_script_k_matrix (scale_layer s l) =
  rmap (fun X => (RtoC c * RtoC c) *: X) (omega_script_k_matrix l).
Proof.
rewrite /omega_script_k_matrix /= wavevectors_scale rmap_bind bind_rmap.
by apply: eq_bind => k _; exact: omega_patterned_scale.
Qed.
Lemma phase_scale m (q : 'rV[C]_m) d : phase (RtoC c *: q) (s * d)%coqR = phase q d.
Proof.
apply/matrixP=> i j; rewrite !mxE; congr cexp; rewrite rmorphM /=.
have e : RtoC c * RtoC s = 1 by rewrite -rmorphM /= RmulE /c; congr RtoC; field.
rewrite mulrACA !mulrA; move: (q _ _) (RtoC d) => x y.
by transitivity (Ci * x * y * (RtoC c * RtoC s)); [toC; ring|rewrite e mulr1].
Qed.
Lemma interface_scale n (l l' : layer_solve_result n) :
  interface_matrices (scale_layer s l) (scale_layer s l') = interface_matrices l l'.
Proof.
rewrite /interface_matrices /= !omega_scale rmap_bind; apply: eq_bind => O _ /=.
rewrite rmap_bind; apply: eq_bind => O' _ /=; rewrite (recip_scale _ cC) rmap_bind; apply: eq_bind => r _ /=.
have cc : RtoC c * RtoC c != 0 by rewrite mulf_neq0.
rewrite -!scalemxAl !solve_scaleA // colscaleZ !solve_scaleB.
case: (solve _ (colscale _ _)) => //= X; case: (solve _ _) => //= Y.
rewrite !scalerA rowscaleZ.
have -> : RtoC c * ((RtoC c * RtoC c)^-1 * (RtoC c * RtoC c * (RtoC c)^-1)) = 1.
  by move/eqP: cC => h; toC; field.
by rewrite mulVf // !scale1r.
Qed.
Lemma extend_scale n B (l l' : layer_solve_result n) t t' :
  extend_s_matrix B (scale_layer s l) (s * t)%coqR (scale_layer s l') (s * t')%coqR =
  extend_s_matrix B l t l' t'.
Proof. by rewrite /extend_s_matrix interface_scale /= !phase_scale. Qed.
Lemma append_scale n (m : scattering_matrix n) l t :
  append_layer (scale_s_matrix s m) (scale_layer s l) (s * t)%coqR =
  rmap (@scale_s_matrix s n) (append_layer m l t).
Proof.
rewrite /append_layer /= extend_scale bind_rmap; apply: eq_bind => -[[[a b] d] e] _ //=.
Qed.
Lemma scan_scale n (m : scattering_matrix n) ls :
  scan_layers (scale_s_matrix s m) (map (fun lt => (scale_layer s lt.1, (s * lt.2)%coqR)) ls) =
  rmap (@scale_s_matrix s n) (scan_layers m ls).
Proof.
elim: ls m => [|[l t] ls IH] m //=; rewrite append_scale rmap_bind bind_rmap.
by apply: eq_bind => x _; exact: IH.
Qed.
Lemma zip_map2 (A B A' B' : Type) (f : A -> A') (g : B -> B') a b :
  zip (map f a) (map g b) = map (fun x => (f x.1, g x.2)) (zip a b).
Proof. by elim: a b => [|x a IH] [|y b] //=; rewrite IH. Qed.
Lemma stack_scale n (ls : seq (layer_solve_result n)) ts :
  stack_s_matrix (map (@scale_layer s n) ls) (map (fun t => (s * t)%coqR) ts) =
  rmap (@scale_s_matrix s n) (stack_s_matrix ls ts).
Proof.
rewrite -!scan_stack /stack_s_matrix_scan !size_map /check; case: eqP => // _.
rewrite zip_map2; case: (zip ls ts) => [|[l t] rest] //=.
by rewrite -scan_scale.
Qed.

(** ** Eigensolves *)
Lemma im_scale (a : R) (z : C) : im (RtoC a * z) = (a * im z)%coqR.
Proof. by rewrite !reimE; ring. Qed.
Lemma re_scale (a : R) (z : C) : re (RtoC a * z) = (a * re z)%coqR.
Proof. by rewrite !reimE; ring. Qed.
Lemma select_csqrt_scale (z : C) :
  select_eigenvalue_sign (csqrt (RtoC c * RtoC c * z)) = RtoC c * select_eigenvalue_sign (csqrt z).
Proof.
apply: C15_branch_unique.
- by rewrite exprMn !select_sqr !expr2 !csqrt_sqr.
- exact: select_im.
- exact: select_real.
- rewrite im_scale; have := select_im (csqrt z); nra.
- rewrite im_scale re_scale => h; have := @select_real z; have := select_im (csqrt z).
  move=> h1 h2; have h3 : im (select_eigenvalue_sign (csqrt z)) = R0.
    by case: (Rmult_integral _ _ h) => //; lra.
  by have := h2 h3; nra.
Qed.
Lemma uniform_scale n wl k0 plv eps (expn : n.-tuple (Z * Z)) :
  eigensolve_uniform_isotropic_media (s * wl)%coqR (scale_wavevector s k0) (scale_lattice s plv) eps expn =
  rmap (@scale_layer s n) (eigensolve_uniform_isotropic_media wl k0 plv eps expn).
Proof.
rewrite /eigensolve_uniform_isotropic_media wavevectors_scale rmap_bind bind_rmap.
apply: eq_bind => k _ /=; rewrite angular_scale rmap_bind bind_rmap; apply: eq_bind => w _ /=.
rewrite bind_rmap; apply: eq_bind => r _ /=; rewrite /scale_layer /=; congr Val.
set q' := select_eigenvalues_sign _; set q := select_eigenvalues_sign _.
have -> : q' = RtoC c *: q.
  apply/matrixP=> i j; rewrite !mxE -select_csqrt_scale; congr (select_eigenvalue_sign (csqrt _)).
  rewrite !expr2 !rmorphM /=; toC; ring.
by rewrite scale_row_mx.
Qed.
Lemma numerical_scale eig n wl k0 plv (ez iez : 'M[C]_n) et mz imz mt (expn : n.-tuple (Z * Z)) tvf :
  eig_homogeneous eig ->
  numerical_eigensolve eig (s * wl)%coqR (scale_wavevector s k0) (scale_lattice s plv) ez iez et mz imz mt expn tvf =
  rmap (@scale_layer s n) (numerical_eigensolve eig wl k0 plv ez iez et mz imz mt expn tvf).
Proof.
move=> he; rewrite /numerical_eigensolve wavevectors_scale rmap_bind bind_rmap.
apply: eq_bind => k _ /=; rewrite kmat_scale rmap_bind bind_rmap; apply: eq_bind => K _ /=.
rewrite omega_patterned_scale rmap_bind bind_rmap; apply: eq_bind => O _ /=.
rewrite -scalemxAr -scalemxAl -scalerBr -rmorphM /= he ?RmulE; last by nra.
rewrite rmap_bind bind_rmap; apply: eq_bind => -[q2 phi] _ /=.
rewrite /scale_layer /=; congr Val; congr LSR.
by apply/matrixP=> i j; rewrite !mxE -select_csqrt_scale -!rmorphM.
Qed.

(** ** Fields *)
Lemma conversion_scale n (l : layer_solve_result n) :
  field_conversion_matrix (scale_layer s l) = field_conversion_matrix l.
Proof.
rewrite /field_conversion_matrix /= omega_scale rmap_bind; apply: eq_bind => O _ /=.
rewrite angular_scale rmap_bind; apply: eq_bind => w _ /=.
have cc : RtoC c * RtoC c != 0 by rewrite mulf_neq0.
have -> : RtoC (c * w)%coqR *: (RtoC c *: eigenvalues l) = (RtoC c * RtoC c) *: (RtoC w *: eigenvalues l).
  by rewrite !scalerA rmorphM /=; congr (_ *: _); toC; ring.
rewrite recip_scale // rmap_bind; apply: eq_bind => r _ /=.
by rewrite -!scalemxAl linearZ /= -scalemxAr scalerA divff // scale1r.
Qed.
Lemma fields_scale n m (a b : 'M[C]_(n + n, m)) (l : layer_solve_result n) :
  fields_from_wave_amplitudes a b (scale_layer s l) = fields_from_wave_amplitudes a b l.
Proof.
rewrite /fields_from_wave_amplitudes conversion_scale; apply: eq_bind => M _ /=.
rewrite wavevectors_scale rmap_bind; apply: eq_bind => k _ /=.
rewrite angular_scale rmap_bind; apply: eq_bind => w _ /=.
have -> : Ci * RtoC (c * w)%coqR = RtoC c * (Ci * RtoC w) by rewrite rmorphM /=; toC; ring.
rewrite recipC_scale // rmap_bind; apply: eq_bind => r _ /=.
have sc (v : 'rV[R]_n) (X : 'M[C]_(n, m)) : rowscale (Ci *: vC (c *: v)) X = RtoC c *: rowscale (Ci *: vC v) X.
  by apply/matrixP=> i j; rewrite !mxE rmorphM /=; move: (X i j) (v _ _) => x y; toC; ring.
congr (Val (Fields _ _ _ _ _ _)); rewrite !sc -scalerBr -scalemxAr scalerA;
  by rewrite -mulrA (mulrC r) mulrA mulVf // mul1r.
Qed.
Lemma propagate_scale n m (a : 'M[C]_(n + n, m)) (d : 'rV[R]_m) (l : layer_solve_result n) :
  propagate_amplitude a (s *: d) (scale_layer s l) = propagate_amplitude a d l.
Proof.
apply/matrixP=> i j; rewrite !mxE /=; congr (_ * cexp _); rewrite rmorphM /=.
have e : RtoC c * RtoC s = 1 by rewrite -rmorphM /= RmulE /c; congr RtoC; field.
rewrite -/c; move: (eigenvalues l 0 i) (RtoC (d 0 j)) => x y.
by transitivity (Ci * x * y * (RtoC c * RtoC s)); [toC; ring|rewrite e mulr1].
Qed.
Lemma colocate_scale n m (a b : 'M[C]_(n + n, m)) z (l : layer_solve_result n) t :
  colocate_amplitudes a b (s *: z) (scale_layer s l) (s * t)%coqR =
  colocate_amplitudes a b z l t.
Proof.
rewrite /colocate_amplitudes propagate_scale; congr pair.
rewrite -[RHS]propagate_scale; congr (propagate_amplitude _ _ _).
by rewrite scalerBr; congr (_ - _); apply/matrixP=> i j; rewrite !mxE.
Qed.
End Scale.

(** Proofs about fields within a layer. *)
From Coq Require Import Reals ZArith Lra.
From mathcomp Require Import all_ssreflect all_algebra.
From Verif Require Import CField Err LinAlg M_utils M_basis M_fft M_fmm_matrices M_fmm M_scattering M_fields S_stack S_maxwell L_scattering L_stack.
Set Implicit Arguments. Unset Strict Implicit. Unset Printing Implicit Defensive.
Import GRing.Theory.
Local Open Scope ring_scope.

(** ** Derivatives *)
Lemma hd_ext f g z d : (forall x, f x = g x) -> has_derivative f z d -> has_derivative g z d.
Proof.
move=> e [h1 h2]; split.
- by move=> eps he; have [dl h] := h1 eps he; exists dl => x; rewrite -!e; exact: h.
- by move=> eps he; have [dl h] := h2 eps he; exists dl => x; rewrite -!e; exact: h.
Qed.
Lemma hd_const (c : C) z : has_derivative (fun _ => c) z 0.
Proof. by split; exact: derivable_pt_lim_const. Qed.
Lemma hdD f g z d e : has_derivative f z d -> has_derivative g z e ->
  has_derivative (fun x => f x + g x) z (d + e).
Proof. by move=> [h1 h2] [h3 h4]; split; apply: derivable_pt_lim_plus. Qed.
Lemma hdN f z d : has_derivative f z d -> has_derivative (fun x => - f x) z (- d).
Proof. by move=> [h1 h2]; split; apply: derivable_pt_lim_opp. Qed.
Lemma hdZ (c : C) f z d : has_derivative f z d -> has_derivative (fun x => c * f x) z (c * d).
Proof.
move=> [h1 h2]; split.
- by apply: derivable_pt_lim_minus; apply: derivable_pt_lim_scal.
- by apply: derivable_pt_lim_plus; apply: derivable_pt_lim_scal.
Qed.
Lemma hd_mulr (c : C) f z d : has_derivative f z d -> has_derivative (fun x => f x * c) z (d * c).
Proof. by move=> h; rewrite mulrC; apply: hd_ext (hdZ c h) => x; rewrite mulrC. Qed.
Lemma hd_sum (I : Type) (r : seq I) (f : I -> R -> C) z (d : I -> C) :
  (forall i, has_derivative (f i) z (d i)) ->
  has_derivative (fun x => \sum_(i <- r) f i x) z (\sum_(i <- r) d i).
Proof.
move=> h; elim: r => [|i r IH].
  by rewrite big_nil; apply: hd_ext (hd_const 0 z) => x; rewrite big_nil.
by rewrite big_cons; apply: hd_ext (hdD (h i) IH) => x; rewrite big_cons.
Qed.

Lemma lin_deriv (p c z : R) : derivable_pt_lim (fun x => p * x + c)%coqR z p.
Proof.
have h := derivable_pt_lim_plus _ _ z _ _
  (derivable_pt_lim_scal id p z 1 (derivable_pt_lim_id z)) (derivable_pt_lim_const c z).
by rewrite Rmult_1_r Rplus_0_r in h; exact: h.
Qed.

Lemma re_cexp c : re (cexp c) = (exp (re c) * cos (im c))%coqR. Proof. by []. Qed.
Lemma im_cexp c : im (cexp c) = (exp (re c) * sin (im c))%coqR. Proof. by []. Qed.
(** d/dz exp(c (z0 + s z)) for [s] real *)
Lemma hd_cexp (c : C) (s z0 z : R) :
  has_derivative (fun x => cexp (c * RtoC (s * x + z0)%coqR)) z
    (c * RtoC s * cexp (c * RtoC (s * z + z0)%coqR)).
Proof.
set p := (re c * s)%coqR; set q := (im c * s)%coqR.
have e1 x : re (c * RtoC (s * x + z0)%coqR) = (p * x + re c * z0)%coqR by rewrite !reimE /p; ring.
have e2 x : im (c * RtoC (s * x + z0)%coqR) = (q * x + im c * z0)%coqR by rewrite !reimE /q; ring.
have dexp : derivable_pt_lim (fun x => exp (p * x + re c * z0)%coqR) z
              (exp (p * z + re c * z0) * p)%coqR.
  exact: (derivable_pt_lim_comp _ _ _ _ _ (lin_deriv p _ z) (derivable_pt_lim_exp _)).
have dcos : derivable_pt_lim (fun x => cos (q * x + im c * z0)%coqR) z
              (- sin (q * z + im c * z0) * q)%coqR.
  exact: (derivable_pt_lim_comp _ _ _ _ _ (lin_deriv q _ z) (derivable_pt_lim_cos _)).
have dsin : derivable_pt_lim (fun x => sin (q * x + im c * z0)%coqR) z
              (cos (q * z + im c * z0) * q)%coqR.
  exact: (derivable_pt_lim_comp _ _ _ _ _ (lin_deriv q _ z) (derivable_pt_lim_sin _)).
split.
- have h := derivable_pt_lim_mult _ _ _ _ _ dexp dcos.
  rewrite reM re_cexp im_cexp e1 e2 !reimE.
  have -> : ((re c * s - im c * 0) * (exp (p * z + re c * z0) * cos (q * z + im c * z0)) -
     (re c * 0 + im c * s) * (exp (p * z + re c * z0) * sin (q * z + im c * z0)) =
     exp (p * z + re c * z0) * p * cos (q * z + im c * z0) +
     exp (p * z + re c * z0) * (- sin (q * z + im c * z0) * q))%coqR by rewrite /p /q; ring.
  move=> eps he; have [dl hd] := h eps he; exists dl => x; rewrite !(re_cexp, im_cexp) !e1 !e2; exact: hd.
- have h := derivable_pt_lim_mult _ _ _ _ _ dexp dsin.
  rewrite imM re_cexp im_cexp e1 e2 !reimE.
  have -> : ((re c * s - im c * 0) * (exp (p * z + re c * z0) * sin (q * z + im c * z0)) +
     (re c * 0 + im c * s) * (exp (p * z + re c * z0) * cos (q * z + im c * z0)) =
     exp (p * z + re c * z0) * p * sin (q * z + im c * z0) +
     exp (p * z + re c * z0) * (cos (q * z + im c * z0) * q))%coqR by rewrite /p /q; ring.
  move=> eps he; have [dl hd] := h eps he; exists dl => x; rewrite !(re_cexp, im_cexp) !e1 !e2; exact: hd.
Qed.

(** Matrix functions. *)
Definition mderiv p q (F : R -> 'M[C]_(p, q)) (z : R) (D : 'M[C]_(p, q)) :=
  forall i j, has_derivative (fun x => F x i j) z (D i j).
Lemma md_ext p q (F G : R -> 'M[C]_(p, q)) z D : (forall x, F x = G x) -> mderiv F z D -> mderiv G z D.
Proof. by move=> e h i j; apply: hd_ext (h i j) => x; rewrite e. Qed.
Lemma mdD p q (F G : R -> 'M[C]_(p, q)) z D E : mderiv F z D -> mderiv G z E ->
  mderiv (fun x => F x + G x) z (D + E).
Proof. by move=> h1 h2 i j; rewrite mxE; apply: hd_ext (hdD (h1 i j) (h2 i j)) => x; rewrite mxE. Qed.
Lemma mdN p q (F : R -> 'M[C]_(p, q)) z D : mderiv F z D -> mderiv (fun x => - F x) z (- D).
Proof. by move=> h i j; rewrite mxE; apply: hd_ext (hdN (h i j)) => x; rewrite mxE. Qed.
Lemma md_mulmx p q r (A : 'M[C]_(p, q)) (F : R -> 'M[C]_(q, r)) z D : mderiv F z D ->
  mderiv (fun x => A *m F x) z (A *m D).
Proof.
move=> h i j; rewrite mxE; apply: hd_ext (@hd_sum _ _ (fun k x => A i k * F x k j) z _ _); last first.
  by move=> k; exact: hdZ.
by move=> x; rewrite mxE.
Qed.
Lemma md_usub p q r (F : R -> 'M[C]_(p + q, r)) z D : mderiv F z D -> mderiv (fun x => usubmx (F x)) z (usubmx D).
Proof. by move=> h i j; rewrite mxE; apply: hd_ext (h (lshift q i) j) => x; rewrite mxE. Qed.
Lemma md_dsub p q r (F : R -> 'M[C]_(p + q, r)) z D : mderiv F z D -> mderiv (fun x => dsubmx (F x)) z (dsubmx D).
Proof. by move=> h i j; rewrite mxE; apply: hd_ext (h (rshift p i) j) => x; rewrite mxE. Qed.

Lemma md_phase p m (q : 'rV[C]_p) (a : 'M[C]_(p, m)) s z0 z :
  mderiv (fun x => diag (phase q (s * x + z0)%coqR) *m a) z
    (diag ((Ci * RtoC s) *: q) *m (diag (phase q (s * z + z0)%coqR) *m a)).
Proof.
move=> i j; rewrite !mul_diag_mx !mxE.
have h := hd_mulr (a i j) (hd_cexp (Ci * q 0 i) s z0 z).
have -> : Ci * RtoC s * q 0 i * (cexp (Ci * q 0 i * RtoC (s * z + z0)) * a i j) =
   Ci * q 0 i * RtoC s * cexp (Ci * q 0 i * RtoC (s * z + z0)) * a i j by Cring.
by apply: hd_ext h => x; rewrite mul_diag_mx !mxE.
Qed.

(** ** Fields in a layer *)
Section Layer.
Variables (n m : nat) (l : layer_solve_result n) (f : fin_layer l) (t : R) (a b : 'M[C]_(n + n, m)).
Notation F d := (diag (phase (eigenvalues l) d)).
Notation q := (eigenvalues l).
Notation w := (RtoC (fl_w f)).
Notation phi := (eigenvectors l).
Definition e_at z := Et f (F z *m a) (F (t - z)%coqR *m b).
Definition h_at z := Ht l (F z *m a) (F (t - z)%coqR *m b).

Lemma md_fwd z : mderiv (fun x => F x *m a) z (diag (Ci *: q) *m (F z *m a)).
Proof.
have := md_phase q a 1 0 z.
have -> : (1 * z + 0)%coqR = z by lra.
rewrite -[RtoC 1]/(1 : C) mulr1; apply: md_ext => x.
by have -> : (1 * x + 0)%coqR = x by lra.
Qed.
Lemma md_bwd z : mderiv (fun x => F (t - x)%coqR *m b) z (- (diag (Ci *: q) *m (F (t - z)%coqR *m b))).
Proof.
have := md_phase q b (-1) t z.
have -> : (-1 * z + t)%coqR = (t - z)%coqR by lra.
have -> : (Ci * RtoC (-1)) *: q = - (Ci *: q).
  have -> : RtoC (-1) = -1 by Creim; toR; ring.
  by rewrite mulrN1 scaleNr.
rewrite raddfN mulNmx; apply: md_ext => x.
by have -> : (-1 * x + t)%coqR = (t - x)%coqR by lra.
Qed.

Lemma wq_iq : diag (wq f) *m diag (Ci *: q) = (Ci / w)%:M.
Proof.
rewrite diagM -diag_const_mx; congr diag; apply/rowP=> i; rewrite !mxE invfM.
have h := fl_q f i; have h' := fin_w0 f.
by rewrite [w^-1 / _]mulrC -!mulrA [w^-1 * _]mulrC -mulrA mulrCA mulKf.
Qed.

Lemma e_deriv z : mderiv e_at z ((Ci / w) *: (fl_O f *m h_at z)).
Proof.
have -> : (Ci / w) *: (fl_O f *m h_at z) =
  emat f *m (diag (Ci *: q) *m (F z *m a) + diag (Ci *: q) *m (F (t - z)%coqR *m b)).
  rewrite -mulmxDr mulmxA /emat -[_ *m diag (wq f) *m _]mulmxA wq_iq mul_mx_scalar.
  by rewrite /h_at /Ht mulmxA -scalemxAl.
apply: md_mulmx; rewrite -[X in _ + X]opprK; apply: mdD; first exact: md_fwd.
by apply: mdN; exact: md_bwd.
Qed.
Lemma h_deriv z : mderiv h_at z (phi *m (diag (Ci *: q) *m (F z *m a - F (t - z)%coqR *m b))).
Proof.
apply: md_mulmx; rewrite mulmxBr; apply: mdD; first exact: md_fwd.
exact: md_bwd.
Qed.

Lemma reportedE z : reported_fields l t a b z =
  Val (Fields (dsubmx (e_at z)) (- usubmx (e_at z)) (ez_of f (F z *m a) (F (t - z)%coqR *m b))
              (usubmx (h_at z)) (dsubmx (h_at z)) (hz_of f (F z *m a) (F (t - z)%coqR *m b))).
Proof. by rewrite /reported_fields colocateE /= (fields_fromE f). Qed.
End Layer.

(** ** The wavevector matrices *)
Section KMat.
Variables (n : nat).
Implicit Types (kx ky : 'rV[R]_n) (Z : 'M[C]_n).
Definition kcol kx ky : 'M[C]_(n + n, n) := col_mx (diag (vC kx)) (diag (vC ky)).
Definition krow kx ky : 'M[C]_(n, n + n) := row_mx (diag (vC kx)) (diag (vC ky)).

Lemma k_matrixV Z kx ky K : k_matrix_patterned Z (kx, ky) = Val K ->
  Z \in unitmx /\ K = kcol kx ky *m (invmx Z *m krow kx ky).
Proof.
rewrite /k_matrix_patterned /= => H; binv H A hA; binv H B hB; case: H => <-.
have [u ->] := solveVE hA; have [_ ->] := solveVE hB; split=> //.
by rewrite /kcol /krow mul_mx_row mul_col_row !rowscaleE.
Qed.
Lemma script_kV Z kx ky K : script_k_matrix_patterned Z (kx, ky) = Val K ->
  Z \in unitmx /\ K = kcol ky (- kx) *m (invmx Z *m krow ky (- kx)).
Proof.
rewrite /script_k_matrix_patterned /= => H; binv H A hA; binv H B hB; case: H => <-.
have [u ->] := solveVE hA; have [_ ->] := solveVE hB; split=> //.
rewrite /kcol /krow mul_mx_row mul_col_row !rowscaleE.
have -> : vC (- kx) = - vC kx by apply/matrixP=> i j; rewrite !mxE rmorphN /=.
by rewrite !raddfN /= !mulNmx opprK.
Qed.
Lemma krow_kcol kx ky : krow kx ky *m kcol ky (- kx) = 0.
Proof.
have -> : kcol ky (- kx) = col_mx (diag (vC ky)) (- diag (vC kx)).
  by rewrite /kcol; congr col_mx; apply/matrixP=> i j; rewrite !mxE rmorphN mulNrn.
rewrite /krow mul_row_col mulmxN !diagM.
have -> : \row_j (vC ky 0 j * vC kx 0 j) = \row_j (vC kx 0 j * vC ky 0 j).
  by apply/rowP=> j; rewrite !mxE mulrC.
by rewrite subrr.
Qed.
Lemma K_script_K Z Z' kx ky K K' : k_matrix_patterned Z (kx, ky) = Val K ->
  script_k_matrix_patterned Z' (kx, ky) = Val K' -> K *m K' = 0.
Proof.
move=> /k_matrixV [_ ->] /script_kV [_ ->].
by rewrite -!mulmxA [krow kx ky *m (kcol _ _ *m _)]mulmxA krow_kcol mul0mx !mulmx0.
Qed.
End KMat.

Section Exact.
Variables (n m : nat) (l : layer_solve_result n) (f : fin_layer l) (t : R) (a b : 'M[C]_(n + n, m)).
Variables (eps_t : 'M[C]_(n + n)).
Notation w := (RtoC (fl_w f)).
Notation phi := (eigenvectors l).

(** The pieces of the omega-script-k matrix. *)
Lemma fl_OE : exists S, [/\ script_k_matrix_patterned (z_permittivity_matrix l) (fl_kx f, fl_ky f) = Val S &
  fl_O f = (w * w) *: transverse_permeability_matrix l - S].
Proof.
have := fl_Oe f; rewrite /omega_script_k_matrix (fl_k f) /= /omega_script_k_matrix_patterned => H.
binv H S hS; exists S; split=> //; rewrite (fl_we f) /= in H; case: H => <-.
by rewrite -RmulE rmorphM.
Qed.

Hypothesis (ex : exact_modes l eps_t).

Lemma exactE : exists K, [/\ k_matrix_patterned (z_permeability_matrix l) (fl_kx f, fl_ky f) = Val K &
  (eps_t *m fl_O f - K *m transverse_permeability_matrix l) *m phi
      = phi *m diag (\row_i (eigenvalues l 0 i) ^+ 2)].
Proof.
case: ex => k [K [O [hk hK hO e]]]; exists K.
move: hk; rewrite (fl_k f) => -[ek]; move: hO; rewrite (fl_Oe f) => -[eO].
by rewrite ek eO.
Qed.

Lemma h_deriv_exact K z : k_matrix_patterned (z_permeability_matrix l) (fl_kx f, fl_ky f) = Val K ->
  mderiv (h_at l t a b) z ((Ci * w) *: (eps_t *m e_at f t a b z) - (Ci / w) *: (K *m e_at f t a b z)).
Proof.
move=> hK; have [K' [hK']] := exactE; move: hK'; rewrite hK => -[<-] e.
have [S [hS eO]] := fl_OE; have KS := K_script_K hK hS.
set d := diag (phase (eigenvalues l) z) *m a - diag (phase (eigenvalues l) (t - z)%coqR) *m b.
have -> : (Ci * w) *: (eps_t *m e_at f t a b z) - (Ci / w) *: (K *m e_at f t a b z) =
   phi *m (diag (Ci *: eigenvalues l) *m d); last exact: h_deriv.
have -> : diag (Ci *: eigenvalues l) = (Ci * w) *: (diag (\row_i (eigenvalues l 0 i) ^+ 2) *m diag (wq f)).
  rewrite diagM; apply/matrixP=> i j; rewrite !mxE mulrnAr; congr (_ *+ _).
  rewrite invfM expr2; have h := fl_q f i; have h' := fin_w0 f.
  have alg (x y : C) : x != 0 -> y != 0 -> Ci * y = Ci * x * (y * y * (x^-1 / y)).
    by move=> /eqP hx /eqP hy; toC; field.
  exact: alg.
rewrite -scalemxAl -scalemxAr -!mulmxA [phi *m (_ *m _)]mulmxA -e mulmxBl mulmxBl scalerBr.
rewrite /e_at -/d /Et -/d /emat !mulmxA; congr (_ - _).
have KO : K *m fl_O f = (w * w) *: (K *m transverse_permeability_matrix l).
  by rewrite eO mulmxBr KS subr0 scalemxAr.
rewrite KO -!scalemxAl scalerA; congr (_ *: _).
by have h' := fin_w0 f; rewrite mulrA divfK.
Qed.
End Exact.

Lemma exact_total n (l : layer_solve_result n) eps_t : exact_modes l eps_t ->
  z_permeability_matrix l \in unitmx /\ z_permittivity_matrix l \in unitmx.
Proof.
case=> -[kx ky] [K [O [hk hK hO _]]]; have [u _] := k_matrixV hK; split=> //.
move: hO; rewrite /omega_script_k_matrix hk /= /omega_script_k_matrix_patterned => H.
by binv H S hS; have [] := script_kV hS.
Qed.

(** ** Maxwell's equations *)
Section Main.
Variables (n m : nat) (l : layer_solve_result n) (f : fin_layer l) (t : R) (a b : 'M[C]_(n + n, m)).
Variables (eps_t : 'M[C]_(n + n)).
Hypothesis (ex : exact_modes l eps_t).
Notation w := (RtoC (fl_w f)).
Notation kx := (fl_kx f).
Notation ky := (fl_ky f).
Notation e := (e_at f t a b).
Notation h := (h_at l t a b).
Definition Dz_at z : 'M[C]_(n, m) := w^-1 *: (krow ky (- kx) *m h z).
Definition Bz_at z : 'M[C]_(n, m) := - (w^-1 *: (krow kx ky *m e z)).
Definition E_at z := Vec3 (dsubmx (e z)) (- usubmx (e z)) (invmx (z_permittivity_matrix l) *m Dz_at z).
Definition H_at z := Vec3 (usubmx (h z)) (dsubmx (h z)) (invmx (z_permeability_matrix l) *m Bz_at z).
Definition D_at z := Vec3 (dsubmx (eps_t *m e z)) (- usubmx (eps_t *m e z)) (Dz_at z).
Definition B_at z := Vec3 (usubmx (transverse_permeability_matrix l *m h z))
                          (dsubmx (transverse_permeability_matrix l *m h z)) (Bz_at z).

Lemma krowE (k k' : 'rV[R]_n) (x : 'M[C]_(n + n, m)) i j :
  (krow k k' *m x) i j = RtoC (k 0 i) * usubmx x i j + RtoC (k' 0 i) * dsubmx x i j.
Proof. by rewrite -{1}(vsubmxK x) /krow mul_row_col !mul_diag_mx !mxE. Qed.
Lemma kcol_u (k k' : 'rV[R]_n) (x : 'M[C]_(n, m)) i j :
  usubmx (kcol k k' *m x) i j = RtoC (k 0 i) * x i j.
Proof. by rewrite /kcol mul_col_mx col_mxKu mul_diag_mx !mxE. Qed.
Lemma kcol_d (k k' : 'rV[R]_n) (x : 'M[C]_(n, m)) i j :
  dsubmx (kcol k k' *m x) i j = RtoC (k' 0 i) * x i j.
Proof. by rewrite /kcol mul_col_mx col_mxKd mul_diag_mx !mxE. Qed.

Lemma usubB c c' (A A' : 'M[C]_(n + n, m)) i j :
  usubmx (c *: A - c' *: A') i j = c * usubmx A i j - c' * usubmx A' i j.
Proof. by rewrite !mxE. Qed.
Lemma dsubB c c' (A A' : 'M[C]_(n + n, m)) i j :
  dsubmx (c *: A - c' *: A') i j = c * dsubmx A i j - c' * dsubmx A' i j.
Proof. by rewrite !mxE. Qed.

Lemma scE p r c (A : 'M[C]_(p, r)) i j : (c *: A) i j = c * A i j.
Proof. by rewrite mxE. Qed.
Lemma opE p r (A : 'M[C]_(p, r)) i j : (- A) i j = - A i j.
Proof. by rewrite mxE. Qed.
Lemma opRE p r (A : 'M[R]_(p, r)) i j : (- A) i j = - A i j.
Proof. by rewrite mxE. Qed.
Lemma CiwK (v x : C) : v != 0 -> Ci * v * (v^-1 * x) = Ci * x.
Proof. by move=> /eqP h; toC; field. Qed.
Lemma curl_E z : curl_is kx ky E_at (fun x => vec3_scale (Ci * w) (B_at x)) z.
Proof.
move=> i j /=.
have [S [hS eO]] := fl_OE f; have [u eS] := script_kV hS.
have de := e_deriv f t a b z.
have Sh : S *m h z = w *: (kcol ky (- kx) *m (invmx (z_permittivity_matrix l) *m Dz_at z)).
  by rewrite eS /Dz_at -!scalemxAr scalerA mulfV ?fin_w0 // scale1r -!mulmxA.
have eOh : (Ci / w) *: (fl_O f *m h z) = (Ci * w) *: (transverse_permeability_matrix l *m h z)
     - Ci *: (kcol ky (- kx) *m (invmx (z_permittivity_matrix l) *m Dz_at z)).
  have w0 := fin_w0 f.
  rewrite eO mulmxBl Sh -scalemxAl scalerBr !scalerA; congr (_ *: _ - _ *: _).
    by rewrite mulrA divfK.
  by rewrite divfK.
rewrite eOh in de; split.
- have d := mdN (md_usub de) i j; set T := (X in has_derivative _ _ X).
  have -> : T = (- usubmx ((Ci * w) *: (transverse_permeability_matrix l *m h z)
     - Ci *: (kcol ky (- kx) *m (invmx (z_permittivity_matrix l) *m Dz_at z)))) i j; last exact: d.
  rewrite [RHS]mxE usubB kcol_u /T scE.
  move: (usubmx _) => U; move: (_ *m _) => V; Cring.
- have d := (md_dsub de) i j; set T := (X in has_derivative _ _ X).
  have -> : T = (dsubmx ((Ci * w) *: (transverse_permeability_matrix l *m h z)
     - Ci *: (kcol ky (- kx) *m (invmx (z_permittivity_matrix l) *m Dz_at z)))) i j; last exact: d.
  rewrite dsubB kcol_d /T scE opRE rmorphN /=.
  move: (dsubmx _) => U; move: (_ *m _) => V; Cring.
- rewrite scE opE /Bz_at opE scE krowE !mulrN CiwK ?fin_w0 //; move: (usubmx _) (dsubmx _) => U V; Cring.
Qed.

Lemma curl_H z : curl_is kx ky H_at (fun x => vec3_scale (- (Ci * w)) (D_at x)) z.
Proof.
move=> i j /=.
have [K [hK _]] := exactE f ex; have [u eK] := k_matrixV hK.
have dh := h_deriv_exact t a b ex z hK.
have w0 := fin_w0 f.
have Ke : (Ci / w) *: (K *m e z) = (- Ci) *: (kcol kx ky *m (invmx (z_permeability_matrix l) *m Bz_at z)).
  by rewrite eK /Bz_at !mulmxN -!scalemxAr scalerN scaleNr opprK scalerA -!mulmxA.
rewrite Ke in dh; split.
- have d := (md_dsub dh) i j; set T := (X in has_derivative _ _ X).
  have -> : T = (dsubmx ((Ci * w) *: (eps_t *m e z)
     - (- Ci) *: (kcol kx ky *m (invmx (z_permeability_matrix l) *m Bz_at z)))) i j; last exact: d.
  rewrite dsubB kcol_d /T scE.
  move: (dsubmx _) => U; move: (_ *m _) => V; Cring.
- have d := (md_usub dh) i j; set T := (X in has_derivative _ _ X).
  have -> : T = (usubmx ((Ci * w) *: (eps_t *m e z)
     - (- Ci) *: (kcol kx ky *m (invmx (z_permeability_matrix l) *m Bz_at z)))) i j; last exact: d.
  rewrite usubB kcol_u /T scE opE.
  move: (usubmx _) => U; move: (_ *m _) => V; Cring.
- rewrite scE /Dz_at scE krowE opRE rmorphN /= mulNr CiwK //; move: (usubmx _) (dsubmx _) => U V; Cring.
Qed.

Lemma maxwell_at : maxwell (fl_w f) kx ky E_at H_at D_at B_at.
Proof. by move=> z; split; [exact: curl_E|exact: curl_H]. Qed.
Lemma D_E z : permittivity_relation eps_t (z_permittivity_matrix l) (D_at z) (E_at z).
Proof.
have [_ u] := exact_total ex.
by split; rewrite /= ?opprK ?vsubmxK // mulmxA mulmxV // mul1mx.
Qed.
Lemma B_H z : permeability_relation (transverse_permeability_matrix l) (z_permeability_matrix l) (B_at z) (H_at z).
Proof.
have [u _] := exact_total ex.
by split; rewrite /= ?vsubmxK // mulmxA mulmxV // mul1mx.
Qed.

Lemma ez_alg (v x y p r : C) : v != 0 ->
  (Ci * v)^-1 * - (Ci * x * y - Ci * p * r) = v^-1 * (p * r + - x * y).
Proof. by move=> /eqP h; have /eqP hi := Ci_neq0; toC; field. Qed.
Lemma hz_alg (v x y p r : C) : v != 0 ->
  (Ci * v)^-1 * (Ci * x * - y - Ci * p * r) = - (v^-1 * (x * y + p * r)).
Proof. by move=> /eqP h; have /eqP hi := Ci_neq0; toC; field. Qed.
Lemma ez_Dz z : ez_of f (diag (phase (eigenvalues l) z) *m a) (diag (phase (eigenvalues l) (t - z)%coqR) *m b)
  = inverse_z_permittivity_matrix l *m Dz_at z.
Proof.
rewrite /ez_of -/(h_at l t a b z) mulNmx -mulmxN scalemxAr; congr (_ *m _).
apply/matrixP=> i j; rewrite /Dz_at scE opE scE krowE opRE rmorphN /=.
move: (h_at l t a b z) => x; rewrite !mxE; apply: ez_alg; exact: fin_w0.
Qed.
Lemma hz_Bz z : hz_of f (diag (phase (eigenvalues l) z) *m a) (diag (phase (eigenvalues l) (t - z)%coqR) *m b)
  = inverse_z_permeability_matrix l *m Bz_at z.
Proof.
rewrite /hz_of -/(e_at f t a b z) scalemxAr; congr (_ *m _).
apply/matrixP=> i j; rewrite /Bz_at scE opE scE krowE.
move: (e_at f t a b z) => x; rewrite !mxE; apply: hz_alg; exact: fin_w0.
Qed.
End Main.

(** ** The solvers return exact modes *)
Lemma select_sqr (q : C) : select_eigenvalue_sign q ^+ 2 = q ^+ 2.
Proof. by rewrite /select_eigenvalue_sign; case: Rlt_dec => h //; rewrite sqrrN. Qed.
Lemma selectN (q : C) : (im q < 0)%coqR -> select_eigenvalue_sign q = - q.
Proof. by rewrite /select_eigenvalue_sign; case: Rlt_dec. Qed.
Lemma selectP (q : C) : ~ (im q < 0)%coqR -> select_eigenvalue_sign q = q.
Proof. by rewrite /select_eigenvalue_sign; case: Rlt_dec. Qed.
Lemma select_im (q : C) : (0 <= im (select_eigenvalue_sign q))%coqR.
Proof.
case: (Rlt_dec (im q) 0) => h; first by rewrite selectN // imN; lra.
by rewrite selectP //; lra.
Qed.
Lemma select_real (z : C) : im (select_eigenvalue_sign (csqrt z)) = R0 ->
  (0 <= re (select_eigenvalue_sign (csqrt z)))%coqR.
Proof.
case: (Rlt_dec (im (csqrt z)) 0) => h; first by rewrite selectN // imN; lra.
by rewrite selectP // => _; exact: csqrt_re_ge0.
Qed.

Section Solvers.
Variables (eig : eig_fn) (he : eig_spec eig).

Lemma numerical_exact n wl k0 plv (ez iez : 'M[C]_n) et mz imz mt expn tvf l :
  numerical_eigensolve eig wl k0 plv ez iez et mz imz mt expn tvf = Val l ->
  [/\ exact_modes l et,
      wavelength l = wl /\ in_plane_wavevector l = k0 /\ primitive_lattice_vectors l = plv /\ expansion l = expn,
      z_permittivity_matrix l = ez /\ inverse_z_permittivity_matrix l = iez,
      z_permeability_matrix l = mz /\ inverse_z_permeability_matrix l = imz &
      transverse_permeability_matrix l = mt /\ tangent_vector_field l = tvf].
Proof.
rewrite /numerical_eigensolve => H.
binv H k hk; binv H K hK; binv H O hO; binv H qV hV; case: qV hV H => q2 V hV [<-] /=; split=> //.
exists k, K, O; rewrite /omega_script_k_matrix /= hk /=; split=> //.
rewrite (he hV); congr (_ *m diag _); apply/rowP=> i; rewrite !mxE select_sqr expr2.
by rewrite csqrt_sqr.
Qed.
End Solvers.

Lemma numerical_q eig n wl k0 plv (ez iez : 'M[C]_n) et mz imz mt expn tvf l :
  numerical_eigensolve eig wl k0 plv ez iez et mz imz mt expn tvf = Val l ->
  exists q2, forall i, eigenvalues l 0 i = select_eigenvalue_sign (csqrt (q2 i)).
Proof.
rewrite /numerical_eigensolve => H.
binv H k hk; binv H K hK; binv H O hO; binv H qV hV; case: qV hV H => q2 V hV [<-] /=.
by exists (fun i => q2 0 i) => i; rewrite !mxE.
Qed.

Lemma uniform_q n wl k0 plv eps (expn : n.-tuple (Z * Z)) l :
  eigensolve_uniform_isotropic_media wl k0 plv eps expn = Val l ->
  exists q2, forall i, eigenvalues l 0 i = select_eigenvalue_sign (csqrt (q2 i)).
Proof.
rewrite /eigensolve_uniform_isotropic_media => H.
binv H k hk; binv H w hw; binv H r hr; case: H => <- /=.
exists (fun i => match split i with inl j | inr j =>
  eps * RtoC (w * w) - RtoC (k.1 0 j ^+ 2) - RtoC (k.2 0 j ^+ 2) end) => i.
by rewrite mxE; case: (split i) => j; rewrite !mxE.
Qed.

(** The uniform layer. *)
Lemma uniform_exact n wl k0 plv eps (expn : n.-tuple (Z * Z)) l :
  eigensolve_uniform_isotropic_media wl k0 plv eps expn = Val l ->
  [/\ exact_modes l (diag (const_mx eps)),
      wavelength l = wl /\ in_plane_wavevector l = k0 /\ primitive_lattice_vectors l = plv /\ expansion l = expn,
      eps != 0,
      z_permittivity_matrix l = diag (const_mx eps) /\ inverse_z_permittivity_matrix l = diag (const_mx eps^-1) &
      [/\ z_permeability_matrix l = 1%:M, inverse_z_permeability_matrix l = 1%:M &
      transverse_permeability_matrix l = 1%:M]].
Proof.
rewrite /eigensolve_uniform_isotropic_media => H.
binv H k hk; binv H w hw; binv H r hr; case/recipCV: hr => eps0 er; case: H => <- /=.
split; [|by []|exact: eps0|by rewrite er|by rewrite !diag_const_mx].
case: k hk => kx ky hk.
have u1 : diag (const_mx 1 : 'rV[C]_n) \in unitmx by rewrite diag_const_mx unitmx1.
have ue : diag (const_mx eps : 'rV[C]_n) \in unitmx.
  by rewrite diag_unit; apply/forallP=> i; rewrite mxE.
have hK : exists K, k_matrix_patterned (diag (const_mx 1 : 'rV[C]_n)) (kx, ky) = Val K.
  by rewrite /k_matrix_patterned /solve u1 /=; eexists.
have hS : exists S, script_k_matrix_patterned (diag (const_mx eps : 'rV[C]_n)) (kx, ky) = Val S.
  by rewrite /script_k_matrix_patterned /solve ue /=; eexists.
have [K eK] := hK; have [S eS] := hS.
exists (kx, ky), K, (RtoC (w * w) *: diag (const_mx 1) - S); split=> //=.
  by rewrite /omega_script_k_matrix /= hk /= /omega_script_k_matrix_patterned eS /= hw.
have [_ ->] := k_matrixV eK; have [_ ->] := script_kV eS.
have ie : invmx (diag (const_mx eps : 'rV[C]_n)) = eps^-1%:M.
  have e1 : diag (const_mx eps : 'rV[C]_n) *m eps^-1%:M = 1%:M.
    by rewrite diag_const_mx -scalar_mxM mulfV.
  by rewrite -[LHS]mulmx1 -e1 mulmxA mulVmx // mul1mx.
rewrite ie !diag_const_mx invmx1 !mul1mx !mul_scalar_mx !mulmx1 -scalemxAr scalerBr !scalerA mulfV // scale1r.
set d := \row_i (RtoC (kx 0 i ^+ 2) + RtoC (ky 0 i ^+ 2)).
have -> : \row_i row_mx (select_eigenvalues_sign (\row_i0 csqrt (eps * RtoC (w * w) -
    RtoC (kx 0 i0 ^+ 2) - RtoC (ky 0 i0 ^+ 2)))) (select_eigenvalues_sign (\row_i0 csqrt (eps * RtoC (w * w) -
    RtoC (kx 0 i0 ^+ 2) - RtoC (ky 0 i0 ^+ 2)))) 0 i ^+ 2 =
  row_mx (const_mx (eps * RtoC (w * w)) - d) (const_mx (eps * RtoC (w * w)) - d) :> 'rV[C]_(n + n).
  apply/rowP=> i; rewrite [LHS]mxE [RHS]mxE [row_mx _ _ _ _]mxE.
  by case: (split i) => j; rewrite !mxE select_sqr expr2 csqrt_sqr opprD addrA.
rewrite diag_mx_row !raddfB /= !diag_const_mx -addrA -opprD.
have -> : kcol ky (- kx) *m krow ky (- kx) + kcol kx ky *m krow kx ky = block_mx (diag d) 0 0 (diag d).
  have eN : vC (- kx) = - vC kx by apply/matrixP=> i j; rewrite !mxE rmorphN.
  rewrite /kcol /krow !mul_col_row !diagM add_block_mx -!raddfD eN.
  have z (v : 'rV[C]_n) : (forall i, v 0 i = 0) -> diag v = 0.
    by move=> h; apply/matrixP=> i j; rewrite !mxE h mul0rn.
  congr block_mx.
  - by congr diag; apply/rowP=> i; rewrite !mxE ?rmorphX /=; Cring.
  - by apply: z => i; rewrite !mxE; Cring.
  - by apply: z => i; rewrite !mxE; Cring.
  - by congr diag; apply/rowP=> i; rewrite !mxE ?rmorphX /=; Cring.
by rewrite scale_scalar_mx mulr1 -[block_mx (_ - _) _ _ _]addr0 scalar_mx_block opp_block_mx add_block_mx !oppr0 !addr0.
Qed.

(** ** Completeness of the modes *)
Lemma block_pm_unit n (A B : 'M[C]_n) : A \in unitmx -> B \in unitmx -> block_mx A (- A) B B \in unitmx.
Proof.
move=> uA uB.
have h2 : half + half = 1 := half2.
suff e : block_mx A (- A) B B *m block_mx (half *: invmx A) (half *: invmx B)
            (- (half *: invmx A)) (half *: invmx B) = 1%:M by case: (mulmx1_unit e).
rewrite mulmx_block [RHS]scalar_mx_block !mulmxN !mulNmx -!scalemxAr !mulmxV // opprK !addrN.
by rewrite -!scalerDl h2 !scale1r.
Qed.
Lemma exact_complete n (l : layer_solve_result n) eps_t : exact_modes l eps_t ->
  eigenvectors l \in unitmx -> complete_modes [:: l].
Proof.
move=> ex u k [<-|[]] M hM; have [f] := fin_layerP hM.
move: hM; rewrite (field_conversionE f) => -[<-]; apply: block_pm_unit => //.
have [K [hK e]] := exactE f ex; have [S [hS eO]] := fl_OE f; have KS := K_script_K hK hS.
have w0 := fin_w0 f; set w := RtoC (fl_w f) in w0.
have KO : K *m fl_O f = (w * w) *: (K *m transverse_permeability_matrix l).
  by rewrite eO mulmxBr KS subr0 scalemxAr.
have q2 : diag (\row_i (eigenvalues l 0 i) ^+ 2) \in unitmx.
  by rewrite diag_unit; apply/forallP=> i; rewrite mxE expf_neq0 //; exact: fl_q f i.
have fac : (eps_t - (w * w)^-1 *: K) *m (fl_O f *m eigenvectors l) =
   eigenvectors l *m diag (\row_i (eigenvalues l 0 i) ^+ 2).
  rewrite -e mulmxA; congr (_ *m _); rewrite mulmxBl -scalemxAl KO scalerA mulVf ?mulf_neq0 //.
  by rewrite scale1r.
have uO : fl_O f *m eigenvectors l \in unitmx.
  have : (eps_t - (w * w)^-1 *: K) *m (fl_O f *m eigenvectors l) \in unitmx by rewrite fac unitmx_mul u.
  by rewrite unitmx_mul => /andP[].
rewrite /emat unitmx_mul uO /= diag_unit; apply/forallP=> i.
by rewrite mxE invr_eq0 mulf_neq0 //; exact: fl_q f i.
Qed.

(** C41: the backward rule of the eigendecomposition. *)
From Coq Require Import Reals Lra Lia.
From mathcomp Require Import all_ssreflect all_algebra all_fingroup.
From Verif Require Import CField Err LinAlg Tac S_maxwell L_scattering L_maxwell L_flux M_eig S_eig L_vector.
Set Implicit Arguments. Unset Strict Implicit. Unset Printing Implicit Defensive.
Import GRing.Theory.
Local Open Scope ring_scope.

(** ** The broadening *)
Section Broadening.
Variables (n : nat) (r : R) (lam : 'rV[C]_n).
Lemma pairs_in (a b : 'I_n) : (a, b) \in [seq (a, b) | a <- enum 'I_n, b <- enum 'I_n].
Proof. by apply/allpairsP; exists (a, b); rewrite !mem_enum. Qed.
Lemma range_ge a b : (Cmod (delta_eig lam a b) ^ 2 <= eig_range_sq lam)%coqR.
Proof. exact: (foldr_max_ge (fun p => (Cmod (delta_eig lam p.1 p.2) ^ 2)%coqR) (pairs_in a b)). Qed.
Lemma eps_broadening : (0 <= r)%coqR -> broadening r lam (eig_eps r lam).
Proof.
move=> hr; split.
- exact: Rmax_r.
- move=> a b; apply: Rle_trans (Rmax_l _ _); apply: Rmult_le_compat_l => //; exact: range_ge.
- rewrite /eig_eps /Rmax; case: Rle_dec => h; first by left.
  case: (foldr_max_attained (fun p => (Cmod (delta_eig lam p.1 p.2) ^ 2)%coqR) [seq (a, b) | a <- enum 'I_n, b <- enum 'I_n]) => [e|[p _ e]].
    by case: h; rewrite /eig_range_sq e Rmult_0_r; apply: Rlt_le; apply: Rinv_0_lt_compat; apply: pow_lt; lra.
  by right; exists p.1, p.2; rewrite /eig_range_sq -e.
Qed.
Lemma min_pos : (0 < / 10 ^ 24)%coqR. Proof. by apply: Rinv_0_lt_compat; apply: pow_lt; lra. Qed.
Lemma eps_pos : (0 < eig_eps r lam)%coqR.
Proof. exact: (Rlt_le_trans _ _ _ min_pos (Rmax_r _ _)). Qed.
Lemma f_broadenedE : f_broadened r lam = \matrix_(a, b) if a == b then 0 else broad (eig_eps r lam) (lam 0 b - lam 0 a).
Proof. by apply/matrixP=> a b; rewrite !mxE. Qed.
End Broadening.

(** ** The adjoint *)
Lemma changeE p q (g d : 'M[C]_(p, q)) : change g d = re (\tr (g^T *m d)).
Proof.
rewrite /change /mxtrace exchange_big /=; congr re; apply: eq_bigr=> j _; rewrite mxE.
by apply: eq_bigr=> i _; rewrite mxE.
Qed.
Lemma adj_mulw n (f X W : 'M[C]_n) b : (adjm (mulw (conjm f) X) *m W) b b = (adjm X *m mulw f W) b b.
Proof.
rewrite [LHS]mxE [RHS]mxE; apply: eq_bigr=> a _; rewrite !mxE rmorphM /= CconjK.
by rewrite -mulrA mulrCA.
Qed.
Lemma re_sum (I : Type) (s : seq I) (F : I -> C) : re (\sum_(i <- s) F i) = \sum_(i <- s) re (F i).
Proof. exact: raddf_sum. Qed.
Lemma reRM (x : R) (z : C) : re (RtoC x * z) = (x * re z)%coqR.
Proof. by rewrite reM /re /im /=; ring. Qed.

(** The change of the loss, for a change of the eigenvectors [V *m T] corrected for its length. *)
Definition corrected n (V T : 'M[C]_n) : 'M[C]_n :=
  \matrix_(i, b) ((V *m T) i b - RtoC (re (\sum_k Cconj (V k b) * (V *m T) k b)) * V i b).
Lemma change_corrected n (V gV T : 'M[C]_n) : let g := adjm V *m conjm gV in
  change gV (corrected V T) =
  \sum_b (re ((adjm g *m T) b b) - re (g b b) * re ((adjm V *m V *m T) b b)).
Proof.
move=> g; rewrite changeE /mxtrace re_sum; apply: eq_bigr=> b _.
have e1 : (adjm g *m T) b b = \sum_i gV i b * (V *m T) i b.
  have -> : adjm g = gV^T *m V.
    by rewrite /g adjmM adjmK; congr (_ *m _); apply/matrixP=> i j; rewrite !mxE CconjK.
  by rewrite -mulmxA mxE; apply: eq_bigr=> i _; rewrite mxE.
have e2 : re (g b b) = re (\sum_i gV i b * V i b).
  have -> : g b b = Cconj (\sum_i gV i b * V i b); last by [].
  by rewrite mxE rmorph_sum; apply: eq_bigr=> i _; rewrite !mxE rmorphM /= mulrC.
have e3 : (adjm V *m V *m T) b b = \sum_k Cconj (V k b) * (V *m T) k b.
  by rewrite -mulmxA mxE; apply: eq_bigr=> i _; rewrite !mxE.
rewrite e1 e2 e3 mxE.
have -> : \sum_i gV^T b i * corrected V T i b =
    \sum_i gV i b * (V *m T) i b - RtoC (re (\sum_k Cconj (V k b) * (V *m T) k b)) * \sum_i gV i b * V i b.
  rewrite mulr_sumr -sumrB; apply: eq_bigr=> i _; rewrite [gV^T b i]mxE [corrected V T i b]mxE mulrBr.
  by rewrite [gV i b * (RtoC _ * _)]mulrCA.
rewrite raddfB.
set z := \sum_i _ * V i b; set x := re _; rewrite -[X in _ - X = _]/(re (RtoC x * z)) reRM; congr (_ - _); exact: Rmult_comm.
Qed.

(** The result is the transpose of the first-order change: whatever change [dA] of the matrix is
    pushed forward, the loss changes by as much as its cotangents say.  No assumption on the
    eigenvalues: the identity holds for degenerate ones too. *)
Theorem C41_adjoint n (lam : 'rV[C]_n) (V : 'M[C]_n) (r : R) (glam : 'rV[C]_n) (gV gA : 'M[C]_n) :
  (0 <= r)%coqR -> eig_bwd lam V r glam gV = Val gA ->
  exists2 eps, broadening r lam eps &
  forall dA, change gA dA = (change glam (d_eigenvalues V dA) + change gV (d_eigenvectors eps lam V dA))%coqR.
Proof.
move=> hr; rewrite /eig_bwd; case: ifP => // _.
set g := adjm V *m conjm gV; set D := \matrix_(i, j) _ => H; binv H M hM; case: H => <-.
have [u eM] := solveVE hM; exists (eig_eps r lam); first exact: eps_broadening.
move=> dA; set W := invmx V *m dA *m V; set f := f_broadened r lam in hM eM *.
have uV : V \in unitmx by move: u; rewrite /adjm unitmx_tr map_unitmx.
have eT : tilt (eig_eps r lam) lam V dA = mulw f W.
  by apply/matrixP=> a b; rewrite !mxE; case: ifP => _; rewrite ?mul0r.
have -> : d_eigenvectors (eig_eps r lam) lam V dA = corrected V (mulw f W).
  by rewrite -eT.
rewrite change_corrected -/g changeE.
have -> : (conjm M)^T = adjm M by [].
rewrite eM; set N := adjm V *m V; set X := _ + _ - _.
have -> : \tr (adjm (invmx (adjm V) *m (X *m adjm V)) *m dA) = \tr (adjm X *m W).
  rewrite !adjmM adjmK -adjmV // adjmK -!mulmxA mxtrace_mulC -!mulmxA; congr (\tr _).
  by rewrite /W !mulmxA.
have -> : change glam (d_eigenvalues V dA) = \sum_b re (glam 0 b * W b b).
  rewrite /change big_ord_recl big_ord0 addr0 re_sum; apply: eq_bigr=> b _; by rewrite [d_eigenvalues _ _ _ _]mxE.
have split (F G : 'I_n -> R) : (\sum_b F b + \sum_b G b)%coqR = \sum_b (F b + G b)%coqR by rewrite -[LHS]/(\sum_b F b + \sum_b G b)%R -big_split.
rewrite /mxtrace re_sum split; apply: eq_bigr=> b _.
have -> : adjm X = adjm (diag (conjm glam)) + adjm (mulw (conjm f) g) - adjm D *m adjm (mulw (conjm f) N).
  by rewrite /X adjmB adjmD adjmM.
have d1 : adjm (diag (conjm glam)) = diag glam.
  apply/matrixP=> i j; rewrite !mxE rmorphMn /= eq_sym; case: eqP => [->|]; by rewrite ?mulr0n ?mulr1n ?CconjK.
have d2 : adjm D = diag (\row_b RtoC (re (g b b))).
  by apply/matrixP=> i j; rewrite !mxE eq_sym; case: eqP => [->|] //=; rewrite ?mulr1n ?mulr0n ?Cconj_RC // ?rmorph0.
rewrite d1.
have dg (v : 'rV[C]_n) (Y : 'M[C]_n) : (diag v *m Y) b b = v 0 b * Y b b.
  by rewrite mul_diag_mx mxE.
have -> : ((diag glam + adjm (mulw (conjm f) g) - adjm D *m adjm (mulw (conjm f) N)) *m W) b b =
   glam 0 b * W b b + (adjm g *m mulw f W) b b - RtoC (re (g b b)) * (N *m mulw f W) b b.
  have hN : adjm N = N by rewrite /N adjmM adjmK.
  rewrite mulmxBl mulmxDl [LHS]mxE [X in X + _ = _]mxE [X in _ + X = _]mxE dg adj_mulw d2 -mulmxA dg adj_mulw hN.
  by congr (_ - _ * _); rewrite mxE.
rewrite raddfB raddfD; set x := re (g b b); rewrite -[X in _ - X = _]/(re (RtoC x * (N *m mulw f W) b b)) reRM.
by rewrite -addrA.
Qed.
Print Assumptions C41_adjoint.

(** The rule is total: finite for every matrix with independent eigenvectors, degenerate or not. *)
Theorem C41_finite n (lam : 'rV[C]_n) (V : 'M[C]_n) (r : R) (glam : 'rV[C]_n) (gV : 'M[C]_n) :
  (0 < n)%N -> V \in unitmx -> exists gA, eig_bwd lam V r glam gV = Val gA.
Proof.
move=> pn u; rewrite /eig_bwd -[n == 0%N]negbK -lt0n pn /= /solve.
have -> : adjm V \in unitmx by rewrite /adjm unitmx_tr map_unitmx.
by eexists.
Qed.
Print Assumptions C41_finite.

Lemma frac (x eps : R) : (0 < x + eps)%coqR -> ((x + eps - x) * / (x + eps) = eps / (x + eps))%coqR.
Proof. by move=> h; field; lra. Qed.
(** The broadened inverse is bounded by [1 / (2 sqrt eps)], changes sign with its argument, and
    the broadening takes away the fraction [eps / (|d|^2 + eps)] of the exact inverse. *)
Theorem C41_broadened (eps : R) (d : C) : (0 < eps)%coqR ->
  [/\ (Cmod (broad eps d) <= / (2 * sqrt eps))%coqR, broad eps (- d) = - broad eps d &
      d != 0 -> d^-1 - broad eps d = RtoC (eps / (Cmod d ^ 2 + eps))%coqR * d^-1].
Proof.
move=> e0; have m0 : (0 <= Cmod d)%coqR by exact: Complex.Cmod_ge_0.
have p : (0 < Cmod d ^ 2 + eps)%coqR by nra.
have cr x : (0 <= x)%coqR -> Cmod (RtoC x) = x.
  by move=> h; rewrite -[RtoC x]/(Complex.RtoC x) Complex.Cmod_R Rabs_pos_eq.
have ne : RtoC (Cmod d ^ 2 + eps)%coqR != 0 by apply: RtoC_neq0; lra.
split.
- have -> : Cmod (broad eps d) = (Cmod d / (Cmod d ^ 2 + eps))%coqR.
    have -> : broad eps d = Cconj d * RtoC (/ (Cmod d ^ 2 + eps))%coqR.
      by rewrite /broad; congr (_ * _); rewrite -fmorphV /=; congr RtoC; rewrite RinvE //; lra.
    rewrite -[_ * _]/(Complex.Cmult (Cconj d) (RtoC (/ (Cmod d ^ 2 + eps)))) Complex.Cmod_mult cr; last by apply: Rlt_le; apply: Rinv_0_lt_compat.
    congr (_ * _)%coqR; by rewrite !CmodE /abs2 reJ imJ; congr sqrt; ring.
  have s0 := sqrt_lt_R0 _ e0; have s2 := sqrt_sqrt _ (Rlt_le _ _ e0).
  apply: (Rmult_le_reg_r (2 * sqrt eps * (Cmod d ^ 2 + eps))); first by apply: Rmult_lt_0_compat; lra.
  have -> : (Cmod d / (Cmod d ^ 2 + eps) * (2 * sqrt eps * (Cmod d ^ 2 + eps)) = 2 * sqrt eps * Cmod d)%coqR by field; lra.
  have -> : (/ (2 * sqrt eps) * (2 * sqrt eps * (Cmod d ^ 2 + eps)) = Cmod d ^ 2 + eps)%coqR by field; lra.
  by have := Rle_0_sqr (Cmod d - sqrt eps)%coqR; rewrite /Rsqr /=; lra.
- by rewrite /broad -[- d]/(Complex.Copp d) Complex.Cmod_opp -[Complex.Copp d]/(- d) rmorphN mulNr.
- move=> d0; rewrite /broad.
  have cc : Cconj d = RtoC (Cmod d ^ 2)%coqR * d^-1.
    by rewrite /= Rmult_1_r Cmod2 abs2E mulrAC divff // mul1r.
  rewrite cc mulrAC -[X in X - _]mul1r -mulrBl; congr (_ * _).
  rewrite -(divff ne) -mulrBl -rmorphB /= -fmorphV -rmorphM /=; congr RtoC.
  have e (x y : R) : (0 < y)%coqR -> (x + eps = y)%coqR -> (y - x)%R * y^-1 = (eps / y)%coqR.
    by move=> y0 ey; subst y; exact: frac.
  exact: e.
Qed.
Print Assumptions C41_broadened.

(** ** Smooth families of eigendecompositions *)
Lemma md_mul p q m (F : R -> 'M[C]_(p, q)) (G : R -> 'M[C]_(q, m)) z D E : mderiv F z D -> mderiv G z E ->
  mderiv (fun x => F x *m G x) z (D *m G z + F z *m E).
Proof.
move=> h1 h2 i j; rewrite [X in has_derivative _ _ X]mxE [X in _ + X]mxE [X in X + _]mxE -big_split /=.
apply: hd_ext (@hd_sum _ _ (fun k x => F x i k * G x k j) z (fun k => D i k * G z k j + F z i k * E k j) _).
  by move=> x; rewrite mxE.
by move=> k; apply: hd_mul.
Qed.
Lemma hd_uniq f z d e : has_derivative f z d -> has_derivative f z e -> d = e.
Proof. by move=> [h1 h2] [h3 h4]; apply: C_ext; [exact: uniqueness_limite h1 h3|exact: uniqueness_limite h2 h4]. Qed.
Lemma md_uniq p q (F : R -> 'M[C]_(p, q)) z D E : mderiv F z D -> mderiv F z E -> D = E.
Proof. by move=> h1 h2; apply/matrixP=> i j; exact: hd_uniq (h1 i j) (h2 i j). Qed.
Lemma md_diag n (F : R -> 'rV[C]_n) z D : mderiv F z D -> mderiv (fun x => diag (F x)) z (diag D).
Proof.
move=> h i j; rewrite mxE; case: (i =P j) => [e|ne].
  by rewrite mulr1n; apply: hd_ext (h 0 i) => x; rewrite mxE e eqxx mulr1n.
by rewrite mulr0n; apply: hd_ext (hd_const 0 z) => x; rewrite mxE; case: eqP ne; rewrite ?mulr0n.
Qed.
Lemma d_eigenvectorsE n eps (lam : 'rV[C]_n) V dA : d_eigenvectors eps lam V dA = corrected V (tilt eps lam V dA).
Proof. by []. Qed.

Section Family.
Variables (n : nat) (A : R -> 'M[C]_n) (lam : R -> 'rV[C]_n) (V : R -> 'M[C]_n) (t : R).
Variables (A' : 'M[C]_n) (lam' : 'rV[C]_n) (V' : 'M[C]_n).
Hypothesis hf : eigen_family A lam V t A' lam' V'.
Hypothesis uV : V t \in unitmx.
Let W := invmx (V t) *m A' *m V t.
Let K := invmx (V t) *m V'.
Lemma family_linear : W + diag (lam t) *m K = K *m diag (lam t) + diag lam'.
Proof.
have [hE _ hA hl hV] := hf.
have d1 := md_mul hA hV; have d2 := md_mul hV (md_diag hl).
have e := md_uniq (md_ext hE d1) d2; have := congr1 (mulmx (invmx (V t))) e.
rewrite !mulmxDr !mulmxA mulVmx // mul1mx -/W -[X in W + X *m _ = _]/(invmx (V t) *m A t) => <-.
congr (_ + _ *m _).
by rewrite -[RHS]mulmx1 -(mulmxV uV) [RHS]mulmxA -(mulmxA _ (A t)) hE !mulmxA mulVmx // mul1mx.
Qed.
Lemma family_entry a b : W a b = K a b * (lam t 0 b - lam t 0 a) + (if a == b then lam' 0 b else 0).
Proof.
have := congr1 (fun M : 'M_n => M a b) family_linear.
rewrite [LHS]mxE [X in _ + X = _]mxE [RHS]mxE [X in _ = X + _]mxE [X in _ = _ + X]mxE.
have -> : \sum_j diag (lam t) a j * K j b = lam t 0 a * K a b by have := mul_diag_mx (lam t) K => /matrixP /(_ a b); rewrite !mxE.
have -> : \sum_j K a j * diag (lam t) j b = K a b * lam t 0 b by have := mul_mx_diag K (lam t) => /matrixP /(_ a b); rewrite !mxE.
have -> : (if a == b then lam' 0 b else 0) = lam' 0 a *+ (a == b) by case: eqP => [->|]; rewrite ?mulr0n ?mulr1n.
move: (W a b) (K a b) (lam t 0 a) (lam t 0 b) (_ *+ _) => w k x y z e.
by rewrite mulrBr [k * x]mulrC addrAC -e addrK.
Qed.
Lemma family_norm b : re (\sum_k Cconj (V t k b) * V' k b) = R0.
Proof.
have [_ hu _ _ hV] := hf.
have h : has_derivative (fun x => \sum_k Cconj (V x k b) * V x k b) t
   (\sum_k (Cconj (V' k b) * V t k b + Cconj (V t k b) * V' k b)).
  by apply: hd_sum => k; apply: hd_mul (hV k b); apply: hd_conj; exact: hV.
have h0 : has_derivative (fun x => \sum_k Cconj (V x k b) * V x k b) t 0.
  by apply: hd_ext (hd_const 1 t) => x; rewrite hu.
have := congr1 re (hd_uniq h h0); rewrite big_split reD.
have -> : \sum_i Cconj (V' i b) * V t i b = Cconj (\sum_k Cconj (V t k b) * V' k b).
  by rewrite rmorph_sum; apply: eq_bigr=> k _; rewrite rmorphM /= CconjK mulrC.
rewrite reJ re0; set x := re _ => h1; have {}h1 : (x + x = 0)%coqR := h1; lra.
Qed.
Hypothesis hl : forall a b, a != b -> lam t 0 a != lam t 0 b.
Lemma broad0 (d : C) : d != 0 -> broad 0 d = d^-1.
Proof.
move=> d0; rewrite /broad Rplus_0_r.
have cc : RtoC (Cmod d ^ 2)%coqR = d * Cconj d by rewrite /= Rmult_1_r Cmod2 abs2E.
have c0 : Cconj d != 0 by rewrite fmorph_eq0.
by rewrite cc invfM mulrCA divff // mulr1.
Qed.
Lemma tilt0 a b : tilt 0 (lam t) (V t) A' a b = if a == b then 0 else K a b.
Proof.
rewrite mxE -/W; case: ifP => // ne; rewrite family_entry ne addr0 broad0.
  by rewrite mulrC -mulrA divff ?mulr1 // subr_eq0 eq_sym hl // ne.
by rewrite subr_eq0 eq_sym hl // ne.
Qed.

Theorem family_differential : lam' = d_eigenvalues (V t) A' /\
  exists theta : 'I_n -> R, forall i b,
    V' i b = d_eigenvectors 0 (lam t) (V t) A' i b + Ci * RtoC (theta b) * V t i b.
Proof.
split.
  by apply/rowP=> b; rewrite mxE -/W family_entry eqxx subrr mulr0 add0r.
exists (fun b => im (K b b)) => i b.
have hT : tilt 0 (lam t) (V t) A' = K - diag (\row_b K b b).
  by apply/matrixP=> a c; rewrite tilt0 !mxE; case: eqP => [->|]; rewrite ?mulr1n ?mulr0n ?subrr ?subr0.
have hVK : V t *m K = V' by rewrite /K mulmxA mulmxV // mul1mx.
have eVT k : (V t *m tilt 0 (lam t) (V t) A') k b = V' k b - K b b * V t k b.
  by rewrite hT mulmxBr hVK mul_mx_diag !mxE [_ * V t k b]mulrC.
have r : re (\sum_k Cconj (V t k b) * (V t *m tilt 0 (lam t) (V t) A') k b) = - re (K b b).
  have -> : \sum_k Cconj (V t k b) * (V t *m tilt 0 (lam t) (V t) A') k b = (\sum_k Cconj (V t k b) * V' k b) - K b b * \sum_k Cconj (V t k b) * V t k b.
    by rewrite mulr_sumr -sumrB; apply: eq_bigr=> k _; rewrite eVT mulrBr mulrCA.
  by have [_ hu _ _ _] := hf; rewrite hu mulr1 reD reN family_norm Rplus_0_l.
rewrite d_eigenvectorsE [corrected _ _ _ _]mxE eVT r.
have e : K b b = RtoC (re (K b b)) + Ci * RtoC (im (K b b)) by case: (K b b) => p q; Creim; ring.
rewrite {1}e; move: (re (K b b)) (im (K b b)) (V t i b) (V' i b) => x y v w.
rewrite rmorphN /= mulNr opprK mulrDl opprD addrA addrAC subrK; by rewrite subrK.
Qed.
End Family.

(** The derivatives along any smooth family of matrices with distinct eigenvalues are the
    first-order changes of the specification without broadening, up to a rotation of the phases
    of the eigenvectors, which eigenvectors leave open. *)
Theorem C41_differential n (A : R -> 'M[C]_n) lam V t A' lam' V' :
  eigen_family A lam V t A' lam' V' -> V t \in unitmx -> (forall a b, a != b -> lam t 0 a != lam t 0 b) ->
  lam' = d_eigenvalues (V t) A' /\
  exists theta : 'I_n -> R, forall i b,
    V' i b = d_eigenvectors 0 (lam t) (V t) A' i b + Ci * RtoC (theta b) * V t i b.
Proof. by move=> hf uV hl; exact: (family_differential hf uV hl). Qed.
Print Assumptions C41_differential.

Lemma change_sensitivity n (V gV T : 'M[C]_n) :
  change gV (corrected V T) = re (\sum_a \sum_b sensitivity V gV a b * T a b).
Proof.
rewrite change_corrected exchange_big re_sum; apply: eq_bigr=> b _.
set g := adjm V *m conjm gV.
have hg a : Cconj (g a b) = \sum_i gV i b * V i a.
  by rewrite mxE rmorph_sum; apply: eq_bigr=> i _; rewrite !mxE rmorphM /= !CconjK mulrC.
have -> : re (g b b) = re (\sum_i gV i b * V i b) by rewrite -hg reJ.
have -> : (adjm g *m T) b b = \sum_a (\sum_i gV i b * V i a) * T a b.
  by rewrite mxE; apply: eq_bigr=> a _; rewrite -hg !mxE.
have -> : (adjm V *m V *m T) b b = \sum_a (\sum_k Cconj (V k b) * V k a) * T a b.
  by rewrite mxE; apply: eq_bigr=> a _; congr (_ * _); rewrite mxE; apply: eq_bigr=> k _; rewrite !mxE.
set x := re (\sum_i gV i b * V i b).
have -> : \sum_a sensitivity V gV a b * T a b = \sum_a (\sum_i gV i b * V i a) * T a b
   - RtoC x * \sum_a (\sum_k Cconj (V k b) * V k a) * T a b.
  by rewrite mulr_sumr -sumrB; apply: eq_bigr=> a _; rewrite /sensitivity -/x mulrBl mulrA.
by rewrite reD reN reRM.
Qed.

(** The gradient is the true one up to the broadening.  Along every smooth family of matrices with
    distinct eigenvalues, for every loss that does not depend on the phases of the eigenvectors,
    the returned cotangent gives the derivative of the loss, except that each pair of modes [a], [b]
    loses the fraction [eps / (|lam b - lam a|^2 + eps)] of its contribution. *)
Theorem C41_true_gradient n (A : R -> 'M[C]_n) lam V t A' lam' V' r glam gV gA :
  eigen_family A lam V t A' lam' V' -> V t \in unitmx -> (forall a b, a != b -> lam t 0 a != lam t 0 b) ->
  (0 <= r)%coqR -> phase_invariant (V t) gV -> eig_bwd (lam t) (V t) r glam gV = Val gA ->
  exists2 eps, broadening r (lam t) eps &
  change gA A' = (change glam lam' + change gV V' -
    re (\sum_a \sum_(b | a != b) RtoC (eps / (Cmod (lam t 0%R b - lam t 0%R a)%R ^ 2 + eps))%coqR *
        (sensitivity (V t) gV a b * (invmx (V t) *m V') a b))%R)%coqR.
Proof.
move=> hf uV hl hr hp hA.
have [eps he h] := C41_adjoint hr hA; exists eps => //.
have [e1 [theta e2]] := C41_differential hf uV hl.
have ep : (0 < eps)%coqR by have [q _ _] := he; exact: Rlt_le_trans min_pos q.
rewrite h -e1 d_eigenvectorsE.
have -> : change gV V' = change gV (corrected (V t) (tilt 0 (lam t) (V t) A')).
  have -> : V' = corrected (V t) (tilt 0 (lam t) (V t) A') + (\matrix_(i, b) (Ci * RtoC (theta b) * V t i b)).
    by apply/matrixP=> i b; rewrite e2 d_eigenvectorsE [RHS]addE [X in _ = _ + X]mxE.
  rewrite !changeE mulmxDr mxtraceD reD.
  have -> : re (\tr (gV^T *m \matrix_(i, b) (Ci * RtoC (theta b) * V t i b))) = R0; last by rewrite Rplus_0_r.
  rewrite /mxtrace re_sum big1 // => b _; rewrite mxE.
  have -> : \sum_j gV^T b j * (\matrix_(i, b) (Ci * RtoC (theta b) * V t i b)) j b = Ci * RtoC (theta b) * \sum_i gV i b * V t i b.
    by rewrite mulr_sumr; apply: eq_bigr=> i _; rewrite !mxE mulrCA.
  by rewrite -mulrA mulrCA reRM reM reI imI hp Rmult_0_l Rmult_1_l Rminus_0_r Rmult_0_r.
rewrite !change_sensitivity.
have s0 : forall F G H : C, F = G - H -> forall x : R, (x + re F = x + re G - re H)%coqR by move=> F G H ->  x; rewrite reD reN; ring.
apply: s0; rewrite -sumrB; apply: eq_bigr=> a _.
rewrite (bigID (fun b => a != b)) /= [X in _ = X - _](bigID (fun b => a != b)) /=.
rewrite [X in _ + X = _]big1 => [|b]; last by rewrite negbK => /eqP <-; rewrite mxE eqxx mulr0.
rewrite [X in _ = _ + X - _]big1 => [|b]; last by rewrite negbK => /eqP <-; rewrite mxE eqxx mulr0.
rewrite !addr0 -sumrB; apply: eq_bigr=> b ne.
rewrite (tilt0 hf uV hl) (negbTE ne) mxE (negbTE ne) (family_entry hf uV) (negbTE ne) addr0.
have d0 : lam t 0 b - lam t 0 a != 0 by rewrite subr_eq0 eq_sym hl.
have [_ _ /(_ d0) q] := C41_broadened (lam t 0 b - lam t 0 a) ep.
move: q d0; set d := lam t 0 b - lam t 0 a; set c := RtoC _; set k := (invmx _ *m V') a b; move=> q d0.
have -> : broad eps d = d^-1 - c * d^-1 by rewrite -q opprB addrC subrK.
have -> : (d^-1 - c * d^-1) * (k * d) = k - c * k.
  by rewrite mulrBl -[X in _ - X]mulrA [d^-1 * _]mulrCA mulVf // mulr1.
by rewrite mulrBr; congr (_ - _); exact: mulrCA.
Qed.
Print Assumptions C41_true_gradient.

(** ** Scale of the matrix *)
Lemma foldr_max_scale (T : Type) (f g : T -> R) (c : R) (s : seq T) : (0 <= c)%coqR -> (forall p, g p = (c * f p)%coqR) ->
  foldr Rmax 0 (map g s) = (c * foldr Rmax 0 (map f s))%coqR.
Proof.
move=> hc h; elim: s => [|p s IH] /=; first by rewrite Rmult_0_r.
by rewrite IH h RmaxRmult.
Qed.
Lemma range_scale n (lam : 'rV[C]_n) (s : R) : (0 < s)%coqR -> eig_range_sq (RtoC s *: lam) = (s ^ 2 * eig_range_sq lam)%coqR.
Proof.
move=> hs; apply: foldr_max_scale; first by nra.
move=> p; rewrite /delta_eig !mxE -mulrBr -[_ * _]/(Complex.Cmult _ _) Complex.Cmod_mult.
by rewrite -[RtoC s]/(Complex.RtoC s) Complex.Cmod_R Rabs_pos_eq; [exact: Rpow_mult_distr|lra].
Qed.
Lemma scale_alg (s x e : R) : ((s * x) ^ 2 + s ^ 2 * e = s * s * (x ^ 2 + e))%coqR. Proof. by ring. Qed.
Lemma f_scale n (lam : 'rV[C]_n) (r s : R) : (0 < s)%coqR ->
  (EIG_EPS_MINIMUM <= r * eig_range_sq lam)%coqR -> (EIG_EPS_MINIMUM <= r * eig_range_sq (RtoC s *: lam))%coqR ->
  f_broadened r (RtoC s *: lam) = RtoC (/ s)%coqR *: f_broadened r lam.
Proof.
move=> hs h1 h2; apply/matrixP=> a b; rewrite [RHS]mxE !f_broadenedE ![(\matrix_(_, _) _) a b]mxE.
case: ifP => _; first by rewrite mulr0.
have e1 : eig_eps r lam = (r * eig_range_sq lam)%coqR by rewrite /eig_eps Rmax_left.
have e2 : eig_eps r (RtoC s *: lam) = (s ^ 2 * (r * eig_range_sq lam))%coqR.
  by rewrite /eig_eps Rmax_left // range_scale //; ring.
rewrite e1 e2 ![(RtoC s *: lam) 0 _]mxE -mulrBr /broad.
move: (lam 0 b - lam 0 a) => d; set e := (r * _)%coqR.
have p : (0 < Cmod d ^ 2 + e)%coqR.
  have := min_pos; rewrite -/EIG_EPS_MINIMUM => q; have := Complex.Cmod_ge_0 d => m; rewrite /e; nra.
have -> : (Cmod (RtoC s * d)%R ^ 2 + s ^ 2 * e = s * s * (Cmod d ^ 2 + e))%coqR.
  rewrite -[(RtoC s * d)%R]/(Complex.Cmult (RtoC s) d) Complex.Cmod_mult.
  by rewrite -[RtoC s]/(Complex.RtoC s) Complex.Cmod_R Rabs_pos_eq; [exact: scale_alg|lra].
have s0 : RtoC s != 0 by apply: RtoC_neq0; lra.
have -> : RtoC (/ s)%coqR = (RtoC s)^-1 by rewrite -fmorphV.
have -> : RtoC (s * s * (Cmod d ^ 2 + e))%coqR = RtoC s * RtoC s * RtoC (Cmod d ^ 2 + e)%coqR by rewrite -!rmorphM.
rewrite rmorphM /= Cconj_RC; move: s0; move: (RtoC s) (RtoC (_ + _)%coqR) (Cconj d) => x w z x0.
by rewrite !invfM [x * z]mulrC -!mulrA mulVKf // mulrCA.
Qed.

(** A matrix scaled by [s] has its eigenvalues scaled by [s] and the same eigenvectors.  The same
    loss then has its cotangent scaled by [1 / s], provided the broadening is not the minimal one. *)
Theorem C41_scale n (lam : 'rV[C]_n) (V : 'M[C]_n) (r s : R) glam gV gA a b c d :
  (0 < s)%coqR -> (0 <= r)%coqR ->
  (/ 10 ^ 24 <= r * Cmod (lam 0%R a - lam 0%R b)%R ^ 2)%coqR -> (/ 10 ^ 24 <= r * (s * Cmod (lam 0%R c - lam 0%R d)%R) ^ 2)%coqR ->
  eig_bwd lam V r glam gV = Val gA ->
  eig_bwd (RtoC s *: lam) V r (RtoC (/ s)%coqR *: glam) gV = Val (RtoC (/ s)%coqR *: gA).
Proof.
move=> hs hr h1 h2.
have g1 : (EIG_EPS_MINIMUM <= r * eig_range_sq lam)%coqR.
  apply: Rle_trans h1 _; apply: Rmult_le_compat_l hr _; exact: range_ge.
have g2 : (EIG_EPS_MINIMUM <= r * eig_range_sq (RtoC s *: lam))%coqR.
  apply: Rle_trans h2 _; rewrite range_scale // Rpow_mult_distr; apply: Rmult_le_compat_l hr _.
  by apply: Rmult_le_compat_l; [nra|exact: range_ge].
clear h1 h2; rewrite /eig_bwd; case: (n == 0%N); first discriminate.
rewrite (f_scale hs g1 g2); clear g1 g2; set f := f_broadened r lam; set k := RtoC (/ s)%coqR.
set g := _ *m conjm gV; set D := \matrix_(i, j) _; rewrite /solve; case: ifP => // u [<-] /=.
congr Val; have ck : Cconj k = k by rewrite Cconj_RC.
have cZ p q (X : 'M[C]_(p, q)) : conjm (k *: X) = k *: conjm X by apply/matrixP=> i j; rewrite !mxE rmorphM /= ck.
have mZ (X Y : 'M[C]_n) : mulw (k *: X) Y = k *: mulw X Y by apply/matrixP=> i j; rewrite !mxE mulrA.
have dZ (v : 'rV[C]_n) : diag (k *: v) = k *: diag v by apply/matrixP=> i j; rewrite !mxE mulrnAr.
by rewrite !cZ !mZ dZ -scalemxAl -scalerDr -scalerBr -scalemxAl -scalemxAr cZ.
Qed.
Print Assumptions C41_scale.

(** ** Choice of the eigendecomposition *)
Lemma diag_mulw n (F X : 'M[C]_n) (p q : 'rV[C]_n) : mulw F (diag p *m X *m diag q) = diag p *m mulw F X *m diag q.
Proof.
apply/matrixP=> i j; rewrite !mul_mx_diag !mul_diag_mx !mxE; move: (F i j) (X i j) (p 0 i) (q 0 j) => a b c d.
by rewrite mulrA [a * _]mulrCA.
Qed.
(** Eigenvectors are determined up to phases.  With other phases, and the cotangents that the same
    loss then has, the result is the same. *)
Theorem C41_phase n (lam : 'rV[C]_n) (V : 'M[C]_n) (r : R) glam gV (ph : 'rV[C]_n) :
  (forall b, Cconj (ph 0 b) * ph 0 b = 1) ->
  eig_bwd lam (V *m diag ph) r glam (gV *m diag (conjm ph)) = eig_bwd lam V r glam gV.
Proof.
move=> hp; rewrite /eig_bwd; case: ifP => [_ //|_].
set P := diag ph; have hP : adjm P = diag (conjm ph).
  by apply/matrixP=> i j; rewrite !mxE rmorphMn /= eq_sym; case: eqP => [->|]; rewrite ?mulr0n ?mulr1n.
have PP : adjm P *m P = 1%:M.
  by rewrite hP mulmx_diag; apply/matrixP=> i j; rewrite !mxE hp.
have PP' := mulmx1C PP.
have cg : conjm (gV *m diag (conjm ph)) = conjm gV *m P.
  by rewrite /conjm map_mxM; congr (_ *m _); apply/matrixP=> i j; rewrite !mxE rmorphMn /= CconjK.
set g := adjm V *m conjm gV; set N := adjm V *m V; set f := f_broadened r lam.
have -> : adjm (V *m P) *m conjm (gV *m diag (conjm ph)) = adjm P *m g *m P by rewrite cg adjmM /g !mulmxA.
have -> : adjm (V *m P) *m (V *m P) = adjm P *m N *m P by rewrite adjmM /N !mulmxA.
have eD : \matrix_(i, j) (if i == j then RtoC (re ((adjm P *m g *m P) i j)) else 0) =
          \matrix_(i, j) (if i == j then RtoC (re (g i j)) else 0).
  apply/matrixP=> i j; rewrite [LHS]mxE [RHS]mxE; case: eqP => // <-; congr (RtoC (re _)).
  by rewrite hP mul_mx_diag mul_diag_mx [LHS]mxE [X in X * _]mxE [X in X * _ * _]mxE mulrAC hp mul1r.
rewrite eD; set D := \matrix_(i, j) _.
have uH : (adjm (V *m P) \in unitmx) = (adjm V \in unitmx).
  rewrite adjmM unitmx_mul; have [-> _] := mulmx1_unit PP; by rewrite andTb.
rewrite /solve uH; case: ifP => // u /=; congr (Val (conjm _)).
rewrite hP !diag_mulw -hP adjmM.
have dD : D = diag (\row_b RtoC (re (g b b))).
  by apply/matrixP=> i j; rewrite !mxE; case: eqP => [->|]; rewrite ?mulr1n ?mulr0n.
have PD : P *m D = D *m P by rewrite dD /P diag_mxC.
set Y := mulw (conjm f) g; set Z := mulw (conjm f) N; set dl := diag (conjm glam).
have Pd : adjm P *m dl *m P = dl by rewrite hP /dl diag_mxC -mulmxA -hP PP mulmx1.
have -> : (dl + adjm P *m Y *m P - adjm P *m Z *m P *m D) *m (adjm P *m adjm V) = adjm P *m ((dl + Y - Z *m D) *m adjm V).
  have -> : dl + adjm P *m Y *m P - adjm P *m Z *m P *m D = adjm P *m (dl + Y - Z *m D) *m P.
    by rewrite mulmxBr mulmxDr mulmxBl mulmxDl Pd; congr (_ - _); rewrite -!mulmxA PD.
  by rewrite -!mulmxA [P *m _]mulmxA PP' mul1mx.
have uP : adjm P \in unitmx by have [] := mulmx1_unit PP.
have iv : invmx (adjm P *m adjm V) *m (adjm P *m adjm V) = 1%:M by rewrite mulVmx // unitmx_mul uP.
have -> : invmx (adjm P *m adjm V) = invmx (adjm V) *m invmx (adjm P).
  by rewrite -[RHS]mul1mx -iv -!mulmxA [adjm V *m _]mulmxA mulmxV // mul1mx mulmxV // mulmx1.
by rewrite -mulmxA mulKmx.
Qed.
Print Assumptions C41_phase.

Lemma solve_mul n p (Q A : 'M[C]_n) (B : 'M[C]_(n, p)) : Q \in unitmx -> solve (Q *m A) (Q *m B) = solve A B.
Proof.
move=> uQ; rewrite /solve unitmx_mul uQ /=; case: ifP => // u; congr Val.
have u' : Q *m A \in unitmx by rewrite unitmx_mul uQ.
by apply: (can_inj (mulKmx u')); rewrite mulKVmx // -mulmxA mulKVmx.
Qed.
Lemma eps_perm n r (lam : 'rV[C]_n) (s : {perm 'I_n}) : (0 <= r)%coqR -> eig_eps r (col_perm s lam) = eig_eps r lam.
Proof.
move=> hr; rewrite /eig_eps; congr (Rmax (_ * _) _).
have le (l : 'rV[C]_n) (u : {perm 'I_n}) : (eig_range_sq (col_perm u l) <= eig_range_sq l)%coqR.
  case: (foldr_max_attained (fun p => (Cmod (delta_eig (col_perm u l) p.1 p.2) ^ 2)%coqR) [seq (a, b) | a <- enum 'I_n, b <- enum 'I_n]) => [e|[p _ e]].
    by rewrite {1}/eig_range_sq e; exact: foldr_max_ge0.
  by rewrite {1}/eig_range_sq -e /delta_eig !mxE; exact: range_ge.
apply: Rle_antisym; first exact: le.
have := le (col_perm s lam) s^-1%g; rewrite -col_permM.
by rewrite mulVg col_perm1.
Qed.

(** The order in which the eigenvalues come does not matter either. *)
Theorem C41_order n (lam : 'rV[C]_n) (V : 'M[C]_n) (r : R) glam gV (s : {perm 'I_n}) : (0 <= r)%coqR ->
  eig_bwd (col_perm s lam) (col_perm s V) r (col_perm s glam) (col_perm s gV) = eig_bwd lam V r glam gV.
Proof.
move=> hr; rewrite /eig_bwd; case: (n == 0%N) => //.
set g := adjm V *m conjm gV; set N := adjm V *m V; set f := f_broadened r lam.
set D := \matrix_(i, j) (if i == j then RtoC (re (g i j)) else 0).
pose sub (X : 'M[C]_n) : 'M[C]_n := \matrix_(a, b) X (s a) (s b).
have e1 : adjm (col_perm s V) *m conjm (col_perm s gV) = sub g.
  by apply/matrixP=> a b; rewrite !mxE; apply: eq_bigr=> k _; rewrite !mxE.
have e2 : adjm (col_perm s V) *m col_perm s V = sub N.
  by apply/matrixP=> a b; rewrite !mxE; apply: eq_bigr=> k _; rewrite !mxE.
have e3 : f_broadened r (col_perm s lam) = sub f.
  by apply/matrixP=> a b; rewrite /f !f_broadenedE eps_perm // !mxE (inj_eq perm_inj).
rewrite e1 e2 e3.
have -> : \matrix_(i, j) (if i == j then RtoC (re (sub g i j)) else 0) = sub D.
  by apply/matrixP=> a b; rewrite [LHS]mxE [RHS]mxE [D _ _]mxE (inj_eq perm_inj) [sub g _ _]mxE.
have eM (X Y : 'M[C]_n) : sub X *m sub Y = sub (X *m Y).
  by apply/matrixP=> a b; rewrite !mxE [RHS](reindex_inj (@perm_inj _ s)); apply: eq_bigr=> k _; rewrite !mxE.
have ew (X Y : 'M[C]_n) : mulw (conjm (sub X)) (sub Y) = sub (mulw (conjm X) Y).
  by apply/matrixP=> a b; rewrite !mxE.
have ed : diag (conjm (col_perm s glam)) = sub (diag (conjm glam)).
  by apply/matrixP=> a b; rewrite !mxE (inj_eq perm_inj).
have eD (X Y : 'M[C]_n) : sub X + sub Y = sub (X + Y) by apply/matrixP=> a b; rewrite !mxE.
have eB (X Y : 'M[C]_n) : sub X - sub Y = sub (X - Y) by apply/matrixP=> a b; rewrite !mxE.
rewrite ed !ew eM eD eB; set X := _ + _ - _.
have ea : adjm (col_perm s V) = row_perm s (adjm V) by apply/matrixP=> a b; rewrite !mxE.
have ex : sub X *m row_perm s (adjm V) = row_perm s (X *m adjm V).
  by apply/matrixP=> a b; rewrite !mxE [RHS](reindex_inj (@perm_inj _ s)); apply: eq_bigr=> k _; rewrite !mxE.
by rewrite ea ex !row_permE solve_mul // unitmx_perm.
Qed.
Print Assumptions C41_order.

(** ** Non-vacuity: eigenvectors that turn, eigenvalues that move *)
Definition turn (x : R) : 'M[C]_2 :=
  \matrix_(i, j) RtoC (if i == j then cos x else if i == 0%R then - sin x else sin x)%coqR.
Definition turn' (x : R) : 'M[C]_2 :=
  \matrix_(i, j) RtoC (if i == j then - sin x else if i == 0%R then - cos x else cos x)%coqR.
Definition moving (x : R) : 'rV[C]_2 := \row_j RtoC (if j == 0%R then x else 2)%coqR.
Definition moving' : 'rV[C]_2 := \row_j RtoC (if j == 0%R then 1 else 0)%coqR.
Lemma hd_real (f : R -> R) x d : derivable_pt_lim f x d -> has_derivative (fun y => RtoC (f y)) x (RtoC d).
Proof. by move=> h; split=> //=; exact: derivable_pt_lim_const. Qed.
Lemma turn_deriv x : mderiv turn x (turn' x).
Proof.
move=> i j; rewrite [turn' _ _ _]mxE.
apply: (@hd_ext (fun y => RtoC (if i == j then cos y else if i == 0%R then - sin y else sin y)%coqR)) => [y|]; first by rewrite mxE.
case: ifP => _; first by apply: hd_real; exact: derivable_pt_lim_cos.
case: ifP => _; apply: hd_real; last exact: derivable_pt_lim_sin.
by apply: derivable_pt_lim_opp; exact: derivable_pt_lim_sin.
Qed.
Lemma moving_deriv x : mderiv moving x moving'.
Proof.
move=> i j; rewrite [moving' _ _]mxE.
apply: (@hd_ext (fun y => RtoC (if j == 0%R then y else 2)%coqR)) => [y|]; first by rewrite mxE.
case: ifP => _; apply: hd_real; [exact: derivable_pt_lim_id|exact: derivable_pt_lim_const].
Qed.
Lemma sumC2 (F : 'I_2 -> C) : \sum_i F i = F 0 + F 1.
Proof. by rewrite !big_ord_recl big_ord0 addr0; congr (_ + F _); apply: val_inj. Qed.
Lemma turn_unit x : adjm (turn x) *m turn x = 1%:M.
Proof.
have h := sin2_cos2 x; rewrite /Rsqr in h.
apply/matrixP=> a b; rewrite mxE sumC2 !mxE.
case: a => [[|[|//]] ?]; case: b => [[|[|//]] ?] /=; Creim; rewrite ?mulr1n ?mulr0n ?reimE; try lra; rewrite /re /im /=; lra.
Qed.
Example ex_C41 : let V := turn in let lam := moving in let A x := turn x *m diag (moving x) *m adjm (turn x) in
  exists A' gA, [/\ eigen_family A lam V 1 A' moving' (turn' 1),
    V 1%coqR \in unitmx, (forall a b, a != b -> lam 1%coqR 0 a != lam 1%coqR 0 b),
    phase_invariant (V 1%coqR) (turn 0) & eig_bwd (lam 1%coqR) (V 1%coqR) EIG_EPS_RELATIVE moving' (turn 0) = Val gA].
Proof.
move=> V lam A.
have u : V 1%coqR \in unitmx by have [_ h] := mulmx1_unit (turn_unit 1).
pose gA := 0 : 'M[C]_2.
have [g hg] := @C41_finite 2 (lam 1%coqR) (V 1%coqR) EIG_EPS_RELATIVE moving' (turn 0) isT u.
have hadj : mderiv (fun x => adjm (turn x)) 1 (adjm (turn' 1)).
  move=> i j; rewrite [adjm _ _ _]mxE [map_mx _ _ _ _]mxE.
  by apply: hd_ext (hd_conj (turn_deriv 1 j i)) => x; rewrite !mxE.
exists (((turn' 1 *m diag (moving 1)) + turn 1 *m diag moving') *m adjm (turn 1) + turn 1 *m diag (moving 1) *m adjm (turn' 1)), g.
split=> //.
- split.
  + by move=> x; rewrite /A -[LHS]mulmxA turn_unit mulmx1.
  + by move=> x b; have := congr1 (fun M : 'M_2 => M b b) (turn_unit x); rewrite mxE [X in _ = X]mxE eqxx mulr1n => <-; apply: eq_bigr=> i _; rewrite [adjm _ _ _]mxE [map_mx _ _ _ _]mxE.
  + exact: md_mul (md_mul (turn_deriv 1) (md_diag (moving_deriv 1))) hadj.
  + exact: moving_deriv.
  + exact: turn_deriv.
- move=> a b; case: a => [[|[|//]] ?]; case: b => [[|[|//]] ?] // _; rewrite !mxE /=; apply/eqP=> /(congr1 re); rewrite !reRC; lra.
- move=> b; rewrite sumC2 !mxE imD !imM !imRC; ring.
Qed.

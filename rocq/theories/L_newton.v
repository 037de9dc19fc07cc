(** Lemmas: Newton's method on a weighted least-squares problem in complex variables. *)
From Coq Require Import Reals ZArith Lra Lia ClassicalEpsilon.
From mathcomp Require Import all_ssreflect all_algebra.
From Verif Require Import CField Err LinAlg Tac M_utils M_basis M_fft M_fmm_matrices M_fmm M_fields M_nd M_farfield M_vector L_flux P_flux.
Set Implicit Arguments. Unset Strict Implicit. Unset Printing Implicit Defensive.
Import GRing.Theory.
Local Open Scope ring_scope.

Lemma derivative_quadratic (c d e : R) (g : R -> R) :
  (forall t, g t = c + d * t + e * (t * t))%coqR -> derivative g 0 = d.
Proof.
move=> h; have hd : derivable_pt_lim g 0 d.
  move=> eps he; have hd : (0 < eps / (1 + Rabs e))%coqR.
    by apply: Rdiv_lt_0_compat => //; have := Rabs_pos e; lra.
  exists (mkposreal _ hd) => x x0 hx; rewrite !h /= in hx *.
  have -> : ((c + d * (0 + x) + e * ((0 + x) * (0 + x)) - (c + d * 0 + e * (0 * 0))) / x - d = e * x)%coqR by field.
  rewrite Rabs_mult; have ea := Rabs_pos e.
  have h1 : (Rabs x * (1 + Rabs e) < eps)%coqR.
    have := Rmult_lt_compat_r (1 + Rabs e) _ _ ltac:(lra) hx.
    by rewrite /Rdiv Rmult_assoc Rinv_l ?Rmult_1_r //; lra.
  by have := Rabs_pos x; nra.
apply: (uniqueness_limite g 0%coqR) => //.
by apply: (epsilon_spec (inhabits 0%coqR) (derivable_pt_lim g 0)); exists d.
Qed.

(** A term [w |a z - t|^2]. *)
Record term m := Term { weight_of : R; row_of : 'rV[C]_m; target_of : C }.
Definition residual m (p : term m) (z : 'cV[C]_m) : C := (row_of p *m z) 0 0 - target_of p.
Definition lsq m (s : seq (term m)) (z : 'cV[C]_m) : R := \sum_(p <- s) weight_of p * abs2 (residual p z).
Definition lsq_form m (s : seq (term m)) (z : 'cV[C]_m) : R := \sum_(p <- s) weight_of p * abs2 ((row_of p *m z) 0 0).
Definition normal_matrix m (s : seq (term m)) : 'M[C]_m :=
  \sum_(p <- s) RtoC (weight_of p) *: (adjm (row_of p) *m row_of p).
Definition normal_rhs m (s : seq (term m)) : 'cV[C]_m :=
  \sum_(p <- s) (RtoC (weight_of p) * target_of p) *: adjm (row_of p).

Section Lsq.
Variable m : nat.
Implicit Types (s : seq (term m)) (z : 'cV[C]_m).
Lemma row_shift (a : 'rV[C]_m) z (c : C) k : (a *m (z + c *: unit_col k)) 0 0 = (a *m z) 0 0 + c * a 0 k.
Proof.
rewrite mulmxDr -scalemxAr mxE; congr (_ + _); rewrite mxE; congr (_ * _).
by rewrite /unit_col -colE mxE.
Qed.
Lemma sum_seqD (T : Type) (s : seq T) (f g : T -> R) :
  (\sum_(p <- s) (f p + g p) = \sum_(p <- s) f p + \sum_(p <- s) g p)%R.
Proof. exact: big_split. Qed.
(** The conjugated jacobian is twice the residual of the normal equations. *)
Lemma normal_residual s z k :
  (normal_matrix s *m z - normal_rhs s) k 0 =
  \sum_(p <- s) RtoC (weight_of p) * (residual p z * Cconj (row_of p 0 k)).
Proof.
rewrite /normal_matrix /normal_rhs mulmx_suml !(mxE, summxE) -sumrB; apply: eq_bigr => p _.
rewrite -scalemxAl -mulmxA !mxE big_ord1 /residual !mxE; Cring.
Qed.
Lemma lsq_line s z k (c : C) : lsq s (z + c *: unit_col k) =
  (lsq s z + 2 * re (Cconj c * (normal_matrix s *m z - normal_rhs s) k 0)%R
   + (\sum_(p <- s) weight_of p * abs2 (row_of p 0 k))%R * abs2 c)%coqR.
Proof.
rewrite normal_residual mulr_sumr raddf_sum /lsq -!RaddE -!RmulE mulr_sumr mulr_suml -!big_split /=.
apply: eq_bigr => p _; rewrite /residual row_shift.
move: (weight_of p) ((row_of p *m z) 0 0) (target_of p) (row_of p 0 k) => w x t a.
rewrite /abs2 !RaddE !RmulE !reimE /re /im; ring.
Qed.
Lemma jacobianE s z : conjm (jacobian (lsq s) z) = RtoC 2 *: (normal_matrix s *m z - normal_rhs s).
Proof.
apply/colP => k; rewrite [LHS]mxE [X in Cconj X]mxE [RHS]mxE /wirtinger.
set y := (normal_matrix s *m z - normal_rhs s) k 0; set q := (\sum_(p <- s) weight_of p * abs2 (row_of p 0 k))%R.
have -> : derivative (fun t => lsq s (z + RtoC t *: unit_col k)) 0 = (2 * re y)%coqR.
  by apply: (@derivative_quadratic (lsq s z) _ q) => t; rewrite lsq_line -/y -/q /abs2 !reimE; ring.
have -> : derivative (fun t => lsq s (z + (Ci * RtoC t) *: unit_col k)) 0 = (2 * im y)%coqR.
  by apply: (@derivative_quadratic (lsq s z) _ q) => t; rewrite lsq_line -/y -/q /abs2 !reimE; ring.
by Creim; ring.
Qed.
Lemma jacobian_entry s z k : jacobian (lsq s) z k 0 = Cconj (RtoC 2 * (normal_matrix s *m z - normal_rhs s) k 0).
Proof.
have := congr1 (fun M : 'cV[C]_m => M k 0) (jacobianE s z); rewrite [in LHS]mxE [in RHS]mxE => <-.
by rewrite CconjK.
Qed.
Lemma hessianE s z : hessian (lsq s) z = RtoC 2 *: normal_matrix s.
Proof.
apply/matrixP => k l; rewrite [LHS]mxE [RHS]mxE /wirtinger.
set M := normal_matrix s; set y := (M *m z - normal_rhs s) k 0.
have A (c : C) : re (jacobian (lsq s) (z + c *: unit_col l) k 0) = (2 * re y + 2 * re (c * M k l)%R)%coqR.
  rewrite jacobian_entry -/M.
  have -> : (M *m (z + c *: unit_col l) - normal_rhs s) k 0 = y + c * M k l.
    rewrite mulmxDr -scalemxAr addrAC mxE; congr (_ + _); rewrite mxE; congr (_ * _).
    by rewrite /unit_col -colE mxE.
  by rewrite !reimE; ring.
have -> : derivative (fun t => re (jacobian (lsq s) (z + RtoC t *: unit_col l) k 0)) 0 = (2 * re (M k l))%coqR.
  by apply: (@derivative_quadratic (2 * re y) _ 0) => t; rewrite A !reimE; ring.
have -> : derivative (fun t => re (jacobian (lsq s) (z + (Ci * RtoC t) *: unit_col l) k 0)) 0 = (- (2 * im (M k l)))%coqR.
  by apply: (@derivative_quadratic (2 * re y) _ 0) => t; rewrite A !reimE; ring.
by Creim; ring.
Qed.
(** The quadratic form of the normal matrix. *)
Lemma normal_form s z : (adjm z *m (normal_matrix s *m z)) 0 0 = RtoC (lsq_form s z).
Proof.
rewrite /normal_matrix /lsq_form mulmx_suml mulmx_sumr summxE rmorph_sum /=; apply: eq_bigr => p _.
rewrite -scalemxAl -scalemxAr mxE rmorphM /=; congr (_ * _).
set x := row_of p *m z; rewrite -mulmxA -/x mulmxA -adjmM -/x abs2E mulrC.
by rewrite mxE big_ord1 /adjm !mxE.
Qed.
Lemma definite_unit s : (forall z, lsq_form s z = 0%coqR -> z = 0) -> normal_matrix s \in unitmx.
Proof.
move=> h; rewrite -[X in is_true X]negbK; apply/negP => hn.
have [z z0 hz] : exists2 z : 'cV[C]_m, z != 0 & normal_matrix s *m z = 0.
  move: hn; rewrite -unitmx_tr unitmxE unitfE negbK => /det0P [v v0 hv].
  exists v^T; first by rewrite trmx_eq0.
  by rewrite -[normal_matrix s]trmxK -trmx_mul hv trmx0.
case/eqP: z0; apply: h; have := normal_form s z; rewrite hz mulmx0 mxE.
by move=> e; apply: RtoC_inj; rewrite -e.
Qed.
(** One Newton step from anywhere gives the solution of the normal equations. *)
Lemma newton_stepE s z : normal_matrix s \in unitmx ->
  newton_step (lsq s) z = Val (invmx (normal_matrix s) *m normal_rhs s).
Proof.
move=> hu; rewrite /newton_step hessianE jacobianE /solve.
have u2 : RtoC 2 \is a GRing.unit by rewrite unitfE RtoC_neq0 //; lra.
have hu2 : RtoC 2 *: normal_matrix s \in unitmx by rewrite unitmxZ.
rewrite hu2 /=; congr Val.
rewrite invmxZ // -scalemxAr -scalemxAl scalerA mulfV ?scale1r; last by rewrite -unitfE.
by rewrite mulmxBr mulKmx // opprB addrCA subrr addr0.
Qed.
Lemma newtonE s n z : normal_matrix s \in unitmx ->
  newton (lsq s) n.+1 z = Val (invmx (normal_matrix s) *m normal_rhs s).
Proof. by move=> hu; elim: n z => [|n IH] z; rewrite /= newton_stepE //=; exact: IH. Qed.
(** The solution of the normal equations is the unique minimiser. *)
Lemma lsq_min s z : normal_matrix s \in unitmx ->
  let zs := invmx (normal_matrix s) *m normal_rhs s in
  (lsq s z = lsq s zs + lsq_form s (z - zs))%coqR.
Proof.
move=> hu zs; have hz : normal_matrix s *m zs = normal_rhs s by rewrite /zs mulKVmx.
have key (d : 'cV[C]_m) : (lsq s (zs + d) = lsq s zs + lsq_form s d)%coqR.
  have cross : (\sum_(p <- s) weight_of p * (2%coqR * re (residual p zs * Cconj ((row_of p *m d) 0 0))))%R = 0%coqR.
    have e : (adjm d *m (normal_matrix s *m zs - normal_rhs s)) 0 0 = 0 by rewrite hz subrr mulmx0 mxE.
    have E : (adjm d *m (normal_matrix s *m zs - normal_rhs s)) 0 0 =
      \sum_(p <- s) RtoC (weight_of p) * (residual p zs * Cconj ((row_of p *m d) 0 0)).
      rewrite mxE; under eq_bigr => k _ do rewrite normal_residual mulr_sumr.
      rewrite exchange_big /=; apply: eq_bigr => p _.
      rewrite [in RHS]mxE rmorph_sum !mulr_sumr; apply: eq_bigr => k _; rewrite /= rmorphM /= !mxE; Cring.
    move: e; rewrite E => /(congr1 re); rewrite raddf_sum => e.
    transitivity (2 * (\sum_(p <- s) re (RtoC (weight_of p) * (residual p zs * Cconj ((row_of p *m d) 0 0)))%R)%R)%coqR.
      rewrite -RmulE mulr_sumr; apply: eq_bigr => p _.
      move: (weight_of p) (residual p zs) (Cconj _) => w x y; rewrite !RmulE !reimE /re /im; eqR; ring.
    by rewrite e /=; eqR; ring.
  suff -> : lsq s (zs + d) = (lsq s zs + lsq_form s d
      + (\sum_(p <- s) weight_of p * (2%coqR * re (residual p zs * Cconj ((row_of p *m d) 0 0))))%R)%coqR by rewrite cross; ring.
  rewrite /lsq /lsq_form -!RaddE -!big_split /=; apply: eq_bigr => p _.
  rewrite /residual mulmxDr [in LHS]mxE.
  move: (weight_of p) ((row_of p *m zs) 0 0) ((row_of p *m d) 0 0) (target_of p) => w x y t.
  by rewrite /abs2 !RaddE !RmulE !reimE /re /im; ring.
by rewrite -{1}(subrK zs z) addrC key.
Qed.
End Lsq.

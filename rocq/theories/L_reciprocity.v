(** Proofs about reciprocity. *)
From Coq Require Import Reals ZArith Lra Lia.
From mathcomp Require Import all_ssreflect all_algebra perm.
From Verif Require Import CField Err LinAlg Tac M_utils M_basis M_fft M_fmm_matrices M_fmm M_scattering M_fields S_stack S_maxwell S_fft S_modes S_reciprocity.
From Verif Require Import L_scattering L_stack L_maxwell L_flux L_fft L_modes.
Set Implicit Arguments. Unset Strict Implicit. Unset Printing Implicit Defensive.
Import GRing.Theory.
Local Open Scope ring_scope.

Section Pair.
Variables (n : nat) (s : 'S_n).
Notation J := (perm_mx s : 'M[C]_n).
Definition JJ : 'M[C]_(n + n) := block_mx J 0 0 J.

(** [A] transposed is [A'], with the orders of the second expansion paired by [s]. *)
Definition tp (A A' : 'M[C]_n) := A^T *m J = J *m A'.
Definition tpD (A A' : 'M[C]_(n + n)) := A^T *m JJ = JJ *m A'.
Lemma tp_block a b c e a' b' c' e' : tp a a' -> tp c b' -> tp b c' -> tp e e' ->
  tpD (block_mx a b c e) (block_mx a' b' c' e').
Proof.
by rewrite /tp /tpD /JJ tr_block_mx !mulmx_block !mulmx0 !mul0mx !addr0 !add0r => -> -> -> ->.
Qed.
Lemma tp0 : tp 0 0. Proof. by rewrite /tp trmx0 mul0mx mulmx0. Qed.
Lemma tp_scalar c : tp (diag (const_mx c)) (diag (const_mx c)).
Proof. by rewrite /tp !diag_const_mx tr_scalar_mx mul_scalar_mx mul_mx_scalar. Qed.
Lemma tp_inv A A' : tp A A' -> A \in unitmx -> A' \in unitmx -> tp (invmx A) (invmx A').
Proof.
rewrite /tp => e u u'; rewrite trmx_inv.
have ut : A^T \in unitmx by rewrite unitmx_tr.
apply: (can_inj (mulKmx ut)); rewrite mulmxA mulmxV // mul1mx mulmxA e -mulmxA mulmxV // mulmx1 //.
Qed.
Lemma tpD_sub A A' B B' : tpD A A' -> tpD B B' -> tpD (A - B) (A' - B').
Proof. by rewrite /tpD linearB /= mulmxBl mulmxBr => -> ->. Qed.
Lemma tpD_scale c A A' : tpD A A' -> tpD (c *: A) (c *: A').
Proof. by rewrite /tpD linearZ /= -scalemxAl -scalemxAr => ->. Qed.

Definition anti (k k' : 'rV[R]_n) := forall i, k' ord0 (s i) = (- k ord0 i)%coqR.
Lemma anti_diag k k' : anti k k' -> diag (vC k) *m J = - (J *m diag (vC k')).
Proof.
move=> h; apply/matrixP=> i j; rewrite mul_diag_mx [RHS]mxE mul_mx_diag !mxE.
case: eqP => [<-|_]; last by rewrite mulr0 mul0r oppr0.
by rewrite mulr1 mul1r h -rmorphN /=; congr RtoC; rewrite -[RHS]/(- - _)%coqR Ropp_involutive.
Qed.
Lemma anti_opp k k' : anti k k' -> anti (- k) (- k').
Proof. by move=> h i; rewrite !mxE h. Qed.
Lemma kT kx ky : (krow kx ky)^T = kcol kx ky :> 'M[C]_(n + n, n).
Proof. by rewrite /krow /kcol tr_row_mx !tr_diag_mx. Qed.
Lemma kT' kx ky : (kcol kx ky)^T = krow kx ky :> 'M[C]_(n, n + n).
Proof. by rewrite -kT trmxK. Qed.
Lemma kmat_tp kx ky kx' ky' A A' : anti kx kx' -> anti ky ky' -> tp A A' ->
  tpD (kcol kx ky *m (A *m krow kx ky)) (kcol kx' ky' *m (A' *m krow kx' ky')).
Proof.
move=> hx hy e; rewrite /tpD !trmx_mul kT kT'.
have r : krow kx ky *m JJ = - (J *m krow kx' ky').
  by rewrite /krow /JJ mul_row_block !mulmx0 addr0 add0r (anti_diag hx) (anti_diag hy) mul_mx_row -opp_row_mx.
have c : kcol kx ky *m J = - (JJ *m kcol kx' ky').
  by rewrite /kcol /JJ mul_col_mx mul_block_col !mul0mx addr0 add0r (anti_diag hx) (anti_diag hy) -opp_col_mx.
rewrite -!mulmxA r !mulmxN (mulmxA A^T) e -!mulmxA (mulmxA _ J) c mulNmx opprK -!mulmxA //.
Qed.

Record rpair (l l' : layer_solve_result n) : Prop := Rpair {
  rc_wl : wavelength l' = wavelength l;
  rc_k : forall kx ky kx' ky',
    transverse_wavevectors (in_plane_wavevector l) (primitive_lattice_vectors l) (expansion l) = Val (kx, ky) ->
    transverse_wavevectors (in_plane_wavevector l') (primitive_lattice_vectors l') (expansion l') = Val (kx', ky') ->
    anti kx kx' /\ anti ky ky';
  rc_ez : tp (z_permittivity_matrix l) (z_permittivity_matrix l');
  rc_mz : tp (z_permeability_matrix l) (z_permeability_matrix l');
  rc_mt : tpD (transverse_permeability_matrix l) (transverse_permeability_matrix l');
  rc_modes : exists e e', [/\ exact_modes l e, exact_modes l' e' & tpD e e'];
  rc_q : forall i, forward_root (eigenvalues l 0 i);
  rc_q' : forall i, forward_root (eigenvalues l' 0 i) }.

Section One.
Variables (l : layer_solve_result n) (f : fin_layer l).
Notation w := (RtoC (fl_w f)).
Lemma one_e : fl_O f *m eigenvectors l = w *: (emat f *m diag (eigenvalues l)).
Proof.
have w0 := fin_w0 f; have q0 := fl_q f.
rewrite /emat -mulmxA diagM; have -> : (\row_j (wq f 0 j * eigenvalues l 0 j)) = w^-1 *: const_mx 1.
  by apply/rowP=> i; rewrite !mxE mulr1 invfM -mulrA mulVf ?q0 // mulr1.
by rewrite linearZ /= diag1 -scalemxAr mulmx1 scalerA divff // scale1r.
Qed.
Lemma one_h e K : exact_modes l e ->
  k_matrix_patterned (z_permeability_matrix l) (fl_kx f, fl_ky f) = Val K ->
  ((w * w) *: e - K) *m emat f = w *: (eigenvectors l *m diag (eigenvalues l)).
Proof.
have w0 := fin_w0 f; have q0 := fl_q f.
move=> x hK; have [K' [hK' hM]] := exactE f x; move: hK'; rewrite hK => -[eK]; subst K'.
have KO : K *m fl_O f = (w * w) *: (K *m transverse_permeability_matrix l).
  have [S [hS ->]] := fl_OE f; have [_ ->] := k_matrixV hK; have [_ ->] := script_kV hS.
  by rewrite mulmxBr -scalemxAr -!mulmxA (mulmxA (krow _ _) (kcol _ _)) krow_kcol mul0mx !mulmx0 subr0.
rewrite /emat !mulmxA mulmxBl -scalemxAl KO -scalerBr -scalemxAl hM -!scalemxAl -mulmxA diagM.
rewrite scalemxAr [RHS]scalemxAr; congr (_ *m _); rewrite -!linearZ /=; congr diag.
apply/rowP=> i; rewrite !mxE invfM expr2 -!mulrA; congr (_ * _).
by rewrite (mulrCA _ w^-1) mulfV ?q0 // mulr1 mulrCA mulfV // mulr1.
Qed.
End One.

Section Layer.
Variables (l l' : layer_solve_result n) (f : fin_layer l) (f' : fin_layer l').
Hypothesis rp : rpair l l'.
Notation phi := (eigenvectors l). Notation phi' := (eigenvectors l').
Notation q := (eigenvalues l). Notation q' := (eigenvalues l').
Definition X : 'M[C]_(n + n) := (emat f)^T *m (JJ *m phi').
Definition Y : 'M[C]_(n + n) := phi^T *m (JJ *m emat f').
Lemma same_w : fl_w f' = fl_w f.
Proof. by have := fl_we f'; rewrite (rc_wl rp) (fl_we f) => -[]. Qed.
Lemma antiK : anti (fl_kx f) (fl_kx f') /\ anti (fl_ky f) (fl_ky f').
Proof. exact: (rc_k rp (fl_k f) (fl_k f')). Qed.
Lemma tO : tpD (fl_O f) (fl_O f').
Proof.
have [a b] := antiK; have [S [hS ->]] := fl_OE f; have [S' [hS' ->]] := fl_OE f'.
have [u ->] := script_kV hS; have [u' ->] := script_kV hS'.
rewrite same_w; apply: tpD_sub; first exact: tpD_scale (rc_mt rp).
by apply: kmat_tp => //; [exact: anti_opp|exact: tp_inv (rc_ez rp) u u'].
Qed.
Lemma XY1 : diag q *m X = Y *m diag q'.
Proof.
have w0 := fin_w0 f; apply: (scalerI w0).
have -> : RtoC (fl_w f) *: (diag q *m X) = (fl_O f *m phi)^T *m (JJ *m phi').
  by rewrite (one_e f) linearZ /= trmx_mul tr_diag_mx /X -scalemxAl mulmxA.
rewrite trmx_mul -!mulmxA (mulmxA (fl_O f)^T) tO -!mulmxA (one_e f') same_w.
by rewrite /Y -!scalemxAr -!mulmxA.
Qed.
Lemma XY2 : diag q *m Y = X *m diag q'.
Proof.
have [a b] := antiK; have w0 := fin_w0 f; apply: (scalerI w0).
have [e [e' [x x' te]]] := rc_modes rp.
have [K [hK _]] := exactE f x; have [K' [hK' _]] := exactE f' x'.
have tK : tpD K K'.
  have [u ->] := k_matrixV hK; have [u' ->] := k_matrixV hK'.
  by apply: kmat_tp => //; exact: tp_inv (rc_mz rp) u u'.
have tN : tpD ((RtoC (fl_w f) * RtoC (fl_w f)) *: e - K) ((RtoC (fl_w f) * RtoC (fl_w f)) *: e' - K').
  by apply: tpD_sub => //; exact: tpD_scale.
have h := one_h x hK; have h' := one_h x' hK'; rewrite same_w in h'.
rewrite scalemxAl.
have -> : RtoC (fl_w f) *: diag q *m Y = (RtoC (fl_w f) *: (phi *m diag q))^T *m (JJ *m emat f').
  by rewrite linearZ /= trmx_mul tr_diag_mx -!scalemxAl /Y mulmxA.
rewrite -h trmx_mul -mulmxA (mulmxA _ JJ) tN -mulmxA h' /X -!scalemxAr -!mulmxA //.
Qed.
Lemma Xq i j : X i j != 0 -> q' 0 j = q 0 i.
Proof.
move=> x0; have /matrixP/(_ i j) := XY1; rewrite mul_diag_mx mul_mx_diag [LHS]mxE [RHS]mxE => h1.
have /matrixP/(_ i j) := XY2; rewrite mul_diag_mx mul_mx_diag [LHS]mxE [RHS]mxE => h2.
apply: forward_root_uniq; [exact: (rc_q' rp)|exact: (rc_q rp)|].
by apply: (mulfI x0); rewrite !expr2 mulrA -h2 -mulrA -h1 mulrA mulrC.
Qed.
Lemma XY : Y = X.
Proof.
apply/matrixP=> i j; have /matrixP/(_ i j) := XY1.
rewrite mul_diag_mx mul_mx_diag [LHS]mxE [RHS]mxE.
have [->|x0] := eqVneq (X i j) 0.
  by rewrite mulr0 => /esym/eqP; rewrite mulf_eq0 (negbTE (fl_q f' j)) orbF => /eqP.
by rewrite (Xq x0) mulrC => h; apply: (mulIf (fl_q f i)).
Qed.
Lemma X_phase z : diag (phase q z) *m X = X *m diag (phase q' z).
Proof.
apply/matrixP=> i j; rewrite mul_diag_mx mul_mx_diag [LHS]mxE [RHS]mxE.
have [->|x0] := eqVneq (X i j) 0; first by rewrite mulr0 mul0r.
by rewrite mulrC; congr (_ * _); rewrite !mxE (Xq x0).
Qed.

Variables (m m' : nat).
Definition rmat (E H : 'M[C]_(n + n, m)) (E' H' : 'M[C]_(n + n, m')) : 'M[C]_(m, m') :=
  E^T *m (JJ *m H') - H^T *m (JJ *m E').
Lemma rmatE (a b : 'M[C]_(n + n, m)) (a' b' : 'M[C]_(n + n, m')) :
  rmat (Et f a b) (Ht l a b) (Et f' a' b') (Ht l' a' b') = (a^T *m X *m b' - b^T *m X *m a') *+ 2.
Proof.
rewrite /rmat /Et /Ht (trmx_mul (emat f)) (trmx_mul phi).
have e1 (c : 'M[C]_(n + n, m')) (e : 'M[C]_(m, n + n)) : e *m (emat f)^T *m (JJ *m (phi' *m c)) = e *m X *m c.
  by rewrite /X !mulmxA.
have e2 (c : 'M[C]_(n + n, m')) (e : 'M[C]_(m, n + n)) : e *m phi^T *m (JJ *m (emat f' *m c)) = e *m X *m c.
  by rewrite -XY /Y !mulmxA.
rewrite e1 e2 [(a - b)^T]linearB [(a + b)^T]linearD /=; clear e1 e2.
rewrite !(mulmxDr, mulmxDl, mulmxBr, mulmxBl, mulmxN, mulNmx) mulr2n.
mxab.
Qed.

Lemma rmat_depth t z (a b : 'M[C]_(n + n, m)) (a' b' : 'M[C]_(n + n, m')) :
  let A := diag (phase q z) *m a in let B := diag (phase q (t - z)%coqR) *m b in
  let A' := diag (phase q' z) *m a' in let B' := diag (phase q' (t - z)%coqR) *m b' in
  rmat (Et f A B) (Ht l A B) (Et f' A' B') (Ht l' A' B')
  = (a^T *m X *m (diag (phase q' t) *m b') - b^T *m X *m (diag (phase q' t) *m a')) *+ 2.
Proof.
have e p1 p2 (c : 'M[C]_(n + n, m)) (c' : 'M[C]_(n + n, m')) : (p1 + p2 = t)%coqR ->
    (diag (phase q p1) *m c)^T *m X *m (diag (phase q' p2) *m c') = c^T *m X *m (diag (phase q' t) *m c').
  move=> <-; rewrite (trmx_mul (diag _)) tr_diag_mx -(mulmxA _ _ X) X_phase -phaseD !mulmxA //.
by rewrite /= rmatE !e //; lra.
Qed.
End Layer.

(** The reaction of reported fields. *)
Lemma JJmul p (A : 'M[C]_(n + n, p)) i j : (JJ *m A) (lshift n i) j = A (lshift n (s i)) j /\
  (JJ *m A) (rshift n i) j = A (rshift n (s i)) j.
Proof.
have -> : JJ *m A = col_mx (row_perm s (usubmx A)) (row_perm s (dsubmx A)).
  by rewrite -{1}[A]vsubmxK /JJ mul_block_col !mul0mx addr0 add0r !row_permE.
by rewrite col_mxEu col_mxEd !mxE.
Qed.
Lemma reactionE m m' (E H : 'M[C]_(n + n, m)) (E' H' : 'M[C]_(n + n, m')) ez hz ez' hz' i j :
  reaction s (Fields (dsubmx E) (- usubmx E) ez (usubmx H) (dsubmx H) hz)
             (Fields (dsubmx E') (- usubmx E') ez' (usubmx H') (dsubmx H') hz') i j = rmat E H E' H' i j.
Proof.
have e (A : 'M[C]_(n + n, m)) (B : 'M[C]_(n + n, m')) : (A^T *m B) i j =
    \sum_k (A (lshift n k) i * B (lshift n k) j + A (rshift n k) i * B (rshift n k) j).
  by rewrite mxE big_split_ord /= -big_split; apply: eq_bigr => k _; rewrite !mxE.
have -> : rmat E H E' H' i j = (E^T *m (JJ *m H')) i j - (H^T *m (JJ *m E')) i j by rewrite /rmat [LHS]mxE [Y in _ + Y = _]mxE.
rewrite /reaction /= !e -sumrB; apply: eq_bigr => k _.
rewrite !(proj1 (JJmul _ _ _)) !(proj2 (JJmul _ _ _)) !mxE.
mxnorm; Cring.
Qed.
End Pair.

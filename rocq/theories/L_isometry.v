(** Proofs about structures in turned coordinates. *)
From Coq Require Import Reals ZArith Lra.
From mathcomp Require Import all_ssreflect all_algebra.
From Verif Require Import CField Err LinAlg Tac M_utils M_basis M_fft M_fmm_matrices M_fmm M_scattering M_fields S_stack S_maxwell S_modes S_isometry.
From Verif Require Import L_scattering L_stack L_maxwell L_modes.
Set Implicit Arguments. Unset Strict Implicit. Unset Printing Implicit Defensive.
Import GRing.Theory.
Local Open Scope ring_scope.

(** ** 2x2 matrices acting on the two components of every order *)
Section Blocks.
Variable n : nat.
Definition bl (a b c d : R) : 'M[C]_(n + n) := block_mx (RtoC a)%:M (RtoC b)%:M (RtoC c)%:M (RtoC d)%:M.
Lemma bl_mul a b c d a' b' c' d' : bl a b c d *m bl a' b' c' d' =
  bl (a * a' + b * c') (a * b' + b * d') (c * a' + d * c') (c * b' + d * d')%coqR.
Proof.
rewrite /bl mulmx_block -!scalar_mxM -!raddfD /=.
by congr block_mx; congr scalar_mx; Creim; ring.
Qed.
Lemma bl_tr a b c d : (bl a b c d)^T = bl a c b d.
Proof. by rewrite /bl tr_block_mx !tr_scalar_mx. Qed.
Lemma bl1 : bl 1 0 0 1 = 1%:M.
Proof.
rewrite /bl scalar_mx_block; congr block_mx; rewrite ?raddf0 //.
all: by rewrite -[RtoC 0%coqR]/(0 : C) raddf0.
Qed.
Lemma bl_u m a b c d (X : 'M[C]_(n + n, m)) : usubmx (bl a b c d *m X) = RtoC a *: usubmx X + RtoC b *: dsubmx X.
Proof. by rewrite -{1}[X]vsubmxK /bl mul_block_col !mul_scalar_mx col_mxKu. Qed.
Lemma bl_d m a b c d (X : 'M[C]_(n + n, m)) : dsubmx (bl a b c d *m X) = RtoC c *: usubmx X + RtoC d *: dsubmx X.
Proof. by rewrite -{1}[X]vsubmxK /bl mul_block_col !mul_scalar_mx col_mxKd. Qed.
Lemma bl_block a b c d (A : 'M[C]_n) : block_mx A 0 0 A *m bl a b c d = bl a b c d *m block_mx A 0 0 A.
Proof. by rewrite /bl !mulmx_block !mul_mx_scalar !mul_scalar_mx !scaler0 !addr0 !add0r. Qed.
End Blocks.

Lemma RtoCM (x y : R) : RtoC (x * y)%coqR = RtoC x * RtoC y.
Proof. by Creim; ring. Qed.

Section Turn.
Variables (q : axes) (hq : orthogonal q).
Local Notation δ := (det q).
Lemma det2 : (δ * δ = 1)%coqR.
Proof.
have [h1 h2 h3] := hq; have -> : (δ * δ = (q_xx q * q_xx q + q_yx q * q_yx q) * (q_xy q * q_xy q + q_yy q * q_yy q)
  - (q_xx q * q_xy q + q_yx q * q_yy q) * (q_xx q * q_xy q + q_yx q * q_yy q))%coqR by rewrite /det; ring.
by rewrite h1 h2 h3; ring.
Qed.
Lemma det_xx : (δ * q_xx q = q_yy q)%coqR.
Proof.
have [h1 h2 h3] := hq.
have -> : (δ * q_xx q = (q_xx q * q_xx q + q_yx q * q_yx q) * q_yy q - (q_xx q * q_xy q + q_yx q * q_yy q) * q_yx q)%coqR by rewrite /det; ring.
by rewrite h1 h3; ring.
Qed.
Lemma det_xy : (δ * q_xy q = - q_yx q)%coqR.
Proof.
have [h1 h2 h3] := hq.
have -> : (δ * q_xy q = (q_xx q * q_xy q + q_yx q * q_yy q) * q_yy q - (q_xy q * q_xy q + q_yy q * q_yy q) * q_yx q)%coqR by rewrite /det; ring.
by rewrite h2 h3; ring.
Qed.
Lemma det_yx : (δ * q_yx q = - q_xy q)%coqR.
Proof. have -> : q_yx q = (- (δ * q_xy q))%coqR by rewrite det_xy; ring. by rewrite -Ropp_mult_distr_r -Rmult_assoc det2; ring. Qed.
Lemma det_yy : (δ * q_yy q = q_xx q)%coqR.
Proof. by rewrite -det_xx -Rmult_assoc det2; ring. Qed.
Lemma row_xx : (q_xx q * q_xx q + q_xy q * q_xy q = 1)%coqR.
Proof.
have [h1 _ _] := hq; rewrite -h1; congr (_ + _)%coqR.
have e := det_xy; have -> : q_yx q = (- (δ * q_xy q))%coqR by rewrite e; ring.
have -> : (- (δ * q_xy q) * - (δ * q_xy q) = (δ * δ) * (q_xy q * q_xy q))%coqR by ring.
by rewrite det2; ring.
Qed.

Section N.
Variable n : nat.
Definition Qm : 'M[C]_(n + n) := bl n (q_xx q) (q_xy q) (q_yx q) (q_yy q).
Definition Um : 'M[C]_(n + n) := bl n (q_yy q) (- q_yx q)%coqR (- q_xy q)%coqR (q_xx q).
Lemma UE : Um = RtoC δ *: Qm.
Proof.
rewrite /Um /Qm /bl scale_block_mx !scale_scalar_mx -!RtoCM det_xx det_xy det_yx det_yy.
by [].
Qed.
Lemma QE : Qm = RtoC δ *: Um.
Proof. by rewrite UE scalerA -RtoCM det2 scale1r. Qed.
Lemma QtQ : Qm^T *m Qm = 1%:M.
Proof.
have [h1 h2 h3] := hq; rewrite /Qm bl_tr bl_mul h1 h2 h3 [(q_xy q * q_xx q)%coqR]Rmult_comm [(q_yy q * q_yx q)%coqR]Rmult_comm h3.
exact: bl1.
Qed.
Lemma UtU : Um^T *m Um = 1%:M.
Proof.
have e : (RtoC δ *: Qm)^T = RtoC δ *: Qm^T by apply/matrixP=> i j; rewrite [LHS]mxE [LHS]mxE [RHS]mxE [Qm^T _ _]mxE.
by rewrite UE e -scalemxAl -scalemxAr scalerA -RtoCM det2 scale1r QtQ.
Qed.
Lemma UUt : Um *m Um^T = 1%:M.
Proof. exact: mulmx1C UtU. Qed.
Lemma U_unit : Um \in unitmx.
Proof. by case/mulmx1_unit: UUt. Qed.

(** Conjugation. *)
Lemma conjU (A A' : 'M[C]_(n + n)) : A' = Um *m A *m Um^T -> A' *m Um = Um *m A.
Proof. by move=> ->; rewrite -mulmxA UtU mulmx1. Qed.
Lemma conjQ (A A' : 'M[C]_(n + n)) : A' = Qm *m A *m Qm^T -> A' *m Um = Um *m A.
Proof. by move=> ->; rewrite UE -!scalemxAr -!scalemxAl -!mulmxA QtQ mulmx1. Qed.

Definition turn_row (kx ky : 'rV[R]_n) : 'rV[R]_n * 'rV[R]_n :=
  (\row_i (q_xx q * kx ord0 i + q_xy q * ky ord0 i)%coqR, \row_i (q_yx q * kx ord0 i + q_yy q * ky ord0 i)%coqR).
Lemma vC_lin (a b : R) (x y z : 'rV[R]_n) : (forall i, z ord0 i = (a * x ord0 i + b * y ord0 i)%coqR) ->
  vC z = RtoC a *: vC x + RtoC b *: vC y.
Proof. by move=> h; apply/rowP=> i; rewrite !mxE -[z _ _]/(z ord0 i) h -[x _ _]/(x ord0 i) -[y _ _]/(y ord0 i); Creim; ring. Qed.
Lemma kcol_bl a b c d (x y x' y' : 'rV[R]_n) : (forall i, x' ord0 i = (a * x ord0 i + b * y ord0 i)%coqR) ->
  (forall i, y' ord0 i = (c * x ord0 i + d * y ord0 i)%coqR) -> kcol x' y' = bl n a b c d *m kcol x y.
Proof.
move=> /vC_lin hx /vC_lin hy; rewrite /kcol hx hy /bl mul_block_col !mul_scalar_mx.
by rewrite !linearD !linearZ.
Qed.
Lemma krowE (x y : 'rV[R]_n) : krow x y = (kcol x y)^T.
Proof. by rewrite /krow /kcol tr_col_mx !tr_diag_mx. Qed.
Lemma krow_bl a b c d (x y x' y' : 'rV[R]_n) : (forall i, x' ord0 i = (a * x ord0 i + b * y ord0 i)%coqR) ->
  (forall i, y' ord0 i = (c * x ord0 i + d * y ord0 i)%coqR) -> krow x' y' = krow x y *m (bl n a b c d)^T.
Proof. by move=> hx hy; rewrite !krowE (kcol_bl hx hy) trmx_mul. Qed.

(** The medium of [l'] is the one of [l] in turned coordinates. *)
Record turned (l l' : layer_solve_result n) : Prop := Turned {
  t_wl : wavelength l' = wavelength l;
  t_k0 : in_plane_wavevector l' = turn q (in_plane_wavevector l);
  t_plv : primitive_lattice_vectors l' = turn_lattice q (primitive_lattice_vectors l);
  t_exp : expansion l' = expansion l;
  t_k : forall kx ky, transverse_wavevectors (in_plane_wavevector l) (primitive_lattice_vectors l) (expansion l) = Val (kx, ky) ->
        transverse_wavevectors (in_plane_wavevector l') (primitive_lattice_vectors l') (expansion l') = Val (turn_row kx ky);
  t_ez : z_permittivity_matrix l' = z_permittivity_matrix l;
  t_iez : inverse_z_permittivity_matrix l' = inverse_z_permittivity_matrix l;
  t_mz : z_permeability_matrix l' = z_permeability_matrix l;
  t_imz : inverse_z_permeability_matrix l' = inverse_z_permeability_matrix l;
  t_mt : transverse_permeability_matrix l' *m Um = Um *m transverse_permeability_matrix l;
  t_modes : exists e e', [/\ exact_modes l e, exact_modes l' e' & e' *m Um = Um *m e];
  t_q : forall i, forward_root (eigenvalues l 0 i);
  t_q' : forall i, forward_root (eigenvalues l' 0 i) }.

Variables (l l' : layer_solve_result n).
Hypothesis (rel : turned l l').
Variables (f : fin_layer l) (f' : fin_layer l').
Hypothesis (V' : eigenvectors l' \in unitmx).

Lemma tn_kx i : fl_kx f' ord0 i = (q_xx q * fl_kx f ord0 i + q_xy q * fl_ky f ord0 i)%coqR.
Proof. by have := fl_k f'; rewrite (t_k rel (fl_k f)) => -[<- _]; rewrite mxE. Qed.
Lemma tn_ky i : fl_ky f' ord0 i = (q_yx q * fl_kx f ord0 i + q_yy q * fl_ky f ord0 i)%coqR.
Proof. by have := fl_k f'; rewrite (t_k rel (fl_k f)) => -[_ <-]; rewrite mxE. Qed.
Lemma tn_w : fl_w f' = fl_w f.
Proof. by have := fl_we f'; rewrite (t_wl rel) (fl_we f) => -[->]. Qed.
Lemma tn_O : fl_O f' *m Um = Um *m fl_O f.
Proof.
have [S [hS ->]] := fl_OE f; have [S' [hS' ->]] := fl_OE f'.
have [u ->] := script_kV hS; have [u' ->] := script_kV hS'.
rewrite tn_w mulmxBl mulmxBr -scalemxAl -scalemxAr (t_mt rel); congr (_ - _).
have e1 i : fl_ky f' ord0 i = (q_yy q * fl_ky f ord0 i + - q_yx q * (- fl_kx f)%R ord0 i)%coqR by rewrite tn_ky mxE RoppE -[fl_kx f 0 i]/(fl_kx f ord0 i); ring.
have e2 i : @eq R ((- fl_kx f') ord0 i) (- q_xy q * fl_ky f ord0 i + q_xx q * (- fl_kx f)%R ord0 i)%coqR by rewrite mxE -[fl_kx f' 0 i]/(fl_kx f' ord0 i) tn_kx mxE !RoppE -[fl_kx f 0 i]/(fl_kx f ord0 i); ring.
rewrite (kcol_bl e1 e2) (krow_bl e1 e2) -/Um (t_ez rel).
by apply: conjU; rewrite !mulmxA.
Qed.

(** The amplitudes in [l'] of the mode amplitudes in [l]. *)
Definition turn_map := locked (invmx (eigenvectors l') *m Um *m eigenvectors l).
Notation T := turn_map.
Lemma tn_phi : eigenvectors l' *m T = Um *m eigenvectors l.
Proof. by rewrite /turn_map -lock !mulmxA mulmxV // mul1mx. Qed.
Lemma tn_q i j : T i j != 0 -> eigenvalues l' 0 i = eigenvalues l 0 j.
Proof.
move=> t0; apply: forward_root_uniq; [exact: (t_q' rel)|exact: (t_q rel)|].
have [e [e' [ex ex' ee]]] := t_modes rel.
have [K [hK h]] := exactE f ex; have [K' [hK' h']] := exactE f' ex'.
have [u eK] := k_matrixV hK; have [u' eK'] := k_matrixV hK'.
have KD : K' *m Um = Um *m K.
  rewrite eK eK' (kcol_bl tn_kx tn_ky) (krow_bl tn_kx tn_ky) -/Qm (t_mz rel).
  by apply: conjQ; rewrite !mulmxA.
have MD : (e' *m fl_O f' - K' *m transverse_permeability_matrix l') *m Um =
   Um *m (e *m fl_O f - K *m transverse_permeability_matrix l).
  by rewrite mulmxBl mulmxBr -!mulmxA tn_O (t_mt rel) !mulmxA ee KD.
have : diag (\row_i eigenvalues l' 0 i ^+ 2) *m T = T *m diag (\row_i eigenvalues l 0 i ^+ 2).
  apply: (can_inj (mulKmx V')); rewrite (mulmxA (eigenvectors l')) -h' -mulmxA tn_phi.
  by rewrite mulmxA MD -mulmxA h !mulmxA tn_phi.
move/matrixP/(_ i j); rewrite mul_diag_mx mul_mx_diag !mxE mulrC => /(mulfI t0) //.
Qed.
Lemma tn_diag (g : C -> C) :
  diag (\row_i g (eigenvalues l' 0 i)) *m T = T *m diag (\row_i g (eigenvalues l 0 i)).
Proof.
apply/matrixP=> i j; rewrite mul_diag_mx mul_mx_diag !mxE mulrC.
by case: (eqVneq (T i j) 0) => [->|/tn_q ->]; rewrite ?mul0r.
Qed.
Lemma tn_phase z : diag (phase (eigenvalues l') z) *m T = T *m diag (phase (eigenvalues l) z).
Proof.
have e (v : 'rV[C]_(n + n)) : phase v z = \row_i (fun x => cexp (Ci * x * RtoC z)) (v 0 i).
  by apply/rowP=> i; rewrite !mxE.
by rewrite !e (tn_diag (fun x => cexp (Ci * x * RtoC z))).
Qed.
Lemma tn_emat : emat f' *m T = Um *m emat f.
Proof.
have e : diag (wq f') *m T = T *m diag (wq f).
  have -> : wq f' = \row_i (fun x => (RtoC (fl_w f) * x)^-1) (eigenvalues l' 0 i).
    by apply/rowP=> i; rewrite !mxE tn_w.
  by rewrite (tn_diag (fun x => (RtoC (fl_w f) * x)^-1)); congr (_ *m diag _); apply/rowP=> i; rewrite !mxE.
by rewrite /emat -!mulmxA e (mulmxA (eigenvectors l')) tn_phi !mulmxA tn_O.
Qed.
Section M.
Variable m : nat.
Implicit Types (a b : 'M[C]_(n + n, m)).
Lemma tn_Et a b : Et f' (T *m a) (T *m b) = Um *m Et f a b.
Proof. by rewrite /Et -mulmxBr mulmxA tn_emat mulmxA. Qed.
Lemma tn_Ht a b : Ht l' (T *m a) (T *m b) = Um *m Ht l a b.
Proof. by rewrite /Ht -mulmxDr mulmxA tn_phi mulmxA. Qed.
Lemma tn_fields a b :
  fields_from_wave_amplitudes (T *m a) (T *m b) l' =
  rmap (turn_fields (@comb_mx n m) q) (fields_from_wave_amplitudes a b l).
Proof.
rewrite (fields_fromE f) (fields_fromE f') /= /ez_of /hz_of tn_w tn_Et tn_Ht /turn_fields /=.
rewrite det_xx det_xy det_yx det_yy /comb_mx /Um !bl_u !bl_d (t_iez rel) (t_imz rel).
have [c1 c2 c3] := hq.
congr (Val (Fields _ _ _ _ _ _)).
- by apply/matrixP=> i j; rewrite !mxE; Creim; ring.
- by apply/matrixP=> i j; rewrite !mxE; Creim; ring.
- congr (_ *: (_ *m _)); move: (usubmx _) (dsubmx _) => x y; apply/matrixP=> i j; rewrite !mxE.
  rewrite -[fl_kx f' 0 i]/(fl_kx f' ord0 i) -[fl_ky f' 0 i]/(fl_ky f' ord0 i) tn_kx tn_ky.
  rewrite -[fl_kx f 0 i]/(fl_kx f ord0 i) -[fl_ky f 0 i]/(fl_ky f ord0 i).
  move: (fl_kx f ord0 i) (fl_ky f ord0 i) (x i j) (y i j) => kx ky X Y.
  transitivity (Ci * (RtoC (q_xx q * q_xx q + q_yx q * q_yx q)%coqR * (RtoC kx * Y)
    + RtoC (q_xx q * q_xy q + q_yx q * q_yy q)%coqR * (RtoC ky * Y - RtoC kx * X)
    - RtoC (q_xy q * q_xy q + q_yy q * q_yy q)%coqR * (RtoC ky * X))); first by Creim; ring.
  by rewrite c1 c2 c3; Creim; ring.
- rewrite -[RtoC 0%coqR]/(0 : C) scale0r addr0 [RHS]scalerA [RtoC δ * _]mulrC -[RHS]scalerA [RtoC δ *: (_ *m _)]scalemxAr; congr (_ *: (_ *m _)).
  move: (usubmx _) (dsubmx _) => x y; apply/matrixP=> i j; rewrite !mxE.
  rewrite -[fl_kx f' 0 i]/(fl_kx f' ord0 i) -[fl_ky f' 0 i]/(fl_ky f' ord0 i) tn_kx tn_ky.
  rewrite -[fl_kx f 0 i]/(fl_kx f ord0 i) -[fl_ky f 0 i]/(fl_ky f ord0 i) /det.
  by move: (fl_kx f ord0 i) (fl_ky f ord0 i) (x i j) (y i j) => kx ky X Y; Creim; ring.
Qed.
Lemma tn_reported a b t z :
  reported_fields l' t (T *m a) (T *m b) z = rmap (turn_fields (@comb_mx n m) q) (reported_fields l t a b z).
Proof. by rewrite /reported_fields !colocateE /= !mulmxA !tn_phase -!mulmxA tn_fields. Qed.
End M.
End N.
End Turn.

(** ** Stacks *)
Section Stacks.
Variables (n m : nat) (q : axes) (hq : orthogonal q).
Implicit Types (k : layer n) (x : layer_amplitudes n m).

Definition tokp k k' := [/\ k'.2 = k.2, turned q k.1 k'.1, inhabited (fin_layer k.1),
  inhabited (fin_layer k'.1) & eigenvectors k'.1 \in unitmx].
Definition tamp_map k k' x : layer_amplitudes n m := (turn_map q k.1 k'.1 *m x.1, turn_map q k.1 k'.1 *m x.2).
Fixpoint tamps_map ks ks' xs := match ks, ks', xs with
  | k :: ks, k' :: ks', x :: xs => tamp_map k k' x :: tamps_map ks ks' xs
  | _, _, _ => [::]
  end.

Lemma tn_interface k1 k1' k2 k2' x1 x2 : tokp k1 k1' -> tokp k2 k2' ->
  interface_matched k1 x1 k2 x2 -> interface_matched k1' (tamp_map k1 k1' x1) k2' (tamp_map k2 k2' x2).
Proof.
move=> [t1 r1 [f1] [f1'] v1] [t2 r2 [f2] [f2'] v2].
rewrite (interfaceE f1 f2) (interfaceE f1' f2') /=; rewrite t1 t2.
rewrite !mulmxA (tn_phase hq r1 f1 f1' v1) (tn_phase hq r2 f2 f2' v2) -!mulmxA.
rewrite (tn_Et hq r1 f1 f1' v1) (tn_Et hq r2 f2 f2' v2) (tn_Ht _ _ v1) (tn_Ht _ _ v2).
by case=> -> ->.
Qed.

Lemma tn_solution ks ks' xs : List.Forall2 tokp ks ks' -> stack_solution ks xs ->
  stack_solution ks' (tamps_map ks ks' xs) /\ size (tamps_map ks ks' xs) = size xs.
Proof.
elim: ks ks' xs => [|k ks IH] ks' xs h; inversion h as [|k0 k' ks0 ks1 hk hks e1 e2]; subst; first by case: xs.
case: xs => [|x xs] //; move=> H.
have H' : stack_solution ks xs by move: H => /=; case: (ks) => [|? ?]; case: (xs) => [|? ?] //= [].
have [IH1 IH2] := IH _ xs hks H'.
rewrite /= IH2; split=> //.
case: ks ks1 xs hks H {IH h} H' IH1 IH2 => [|k2 ks] [|k2' ks1] [|x2 xs] hks //=; try by inversion hks.
move=> [H _] _ h _; split; last exact: h.
by apply: tn_interface; [exact: hk|inversion hks; assumption|exact: H].
Qed.

Lemma nth_tamps_map k0 x0 ks ks' xs i : size ks = size ks' -> size xs = size ks -> (i < size ks)%N ->
  nth x0 (tamps_map ks ks' xs) i = tamp_map (nth k0 ks i) (nth k0 ks' i) (nth x0 xs i).
Proof.
elim: ks ks' xs i => [|k ks IH] [|k' ks'] [|x xs] //= [|i] [e1] [e2] h //=; exact: IH.
Qed.
Lemma last_tamps_map k k' x ks ks' xs : size ks = size ks' -> size xs = size ks ->
  last (tamp_map k k' x) (tamps_map ks ks' xs) = tamp_map (last k ks) (last k' ks') (last x xs).
Proof.
elim: ks ks' xs k k' x => [|k1 ks IH] [|k1' ks'] [|x1 xs] //= k k' x [e1] [e2]; exact: IH.
Qed.
Lemma tn_ends k ks k' ks' (a0 b0 aN bN : 'M[C]_(n + n, m)) : List.Forall2 tokp (k :: ks) (k' :: ks') ->
  stack_ends (k :: ks) a0 b0 aN bN ->
  let T0 := turn_map q k.1 k'.1 in let TN := turn_map q (last k ks).1 (last k' ks').1 in
  stack_ends (k' :: ks') (T0 *m a0) (T0 *m b0) (TN *m aN) (TN *m bN).
Proof.
move=> ok [x0 [xs [H e0 eN]]] T0 TN; have [H' _] := tn_solution ok H.
have [sz] := forall2_sz ok; have [sx] := solution_size H.
exists (tamp_map k k' x0), (tamps_map ks ks' xs); split=> //; first by rewrite e0.
by rewrite last_tamps_map // eN.
Qed.
End Stacks.

(** Proofs about layers with related modes. *)
From Coq Require Import Reals ZArith Lra.
From mathcomp Require Import all_ssreflect all_algebra.
From Verif Require Import CField Err LinAlg Tac M_utils M_basis M_fft M_fmm_matrices M_fmm M_scattering M_fields S_stack S_maxwell S_modes.
From Verif Require Import L_scattering L_stack L_maxwell.
Set Implicit Arguments. Unset Strict Implicit. Unset Printing Implicit Defensive.
Import GRing.Theory.
Local Open Scope ring_scope.

(** ** Forward roots *)
Lemma forward_root_uniq (q q' : C) : forward_root q -> forward_root q' -> q ^+ 2 = q' ^+ 2 -> q = q'.
Proof.
move=> h h' e; have : (q - q') * (q + q') = 0 by rewrite -subr_sqr e subrr.
move/eqP; rewrite mulf_eq0 => /orP[/eqP/subr0_eq //|/eqP e2].
have e3 : q = - q' by apply/eqP; rewrite -addr_eq0 e2.
have er : re q = (- re q')%coqR by rewrite e3.
have ei : im q = (- im q')%coqR by rewrite e3.
by apply: C_ext; case: h => [h|[h1 h2]]; case: h' => [g|[g1 g2]]; lra.
Qed.
Lemma forward_select (z : C) : forward_root (select_eigenvalue_sign (csqrt z)).
Proof.
rewrite /select_eigenvalue_sign /forward_root; have h := csqrt_re_ge0 z; move: (csqrt z) h => q h.
case: (Rlt_dec _ _) => h1; first by left; rewrite !reimE; lra.
have h2 : (0 <= im q)%coqR by exact: Rnot_lt_le.
case: h2 => h2; [by left|by right; split].
Qed.

Section Related.
Variables (n : nat) (dl : 'rV[C]_n).
Notation d := (diag dl).
Notation D := (diag (row_mx dl dl)).

Lemma DE : D = block_mx d 0 0 d.
Proof. by rewrite diag_mx_row. Qed.

(** The medium of [l'] is the one of [l], conjugated by the diagonal matrix [d]. *)
Record related (l l' : layer_solve_result n) : Prop := Related {
  r_wl : wavelength l' = wavelength l;
  r_k : transverse_wavevectors (in_plane_wavevector l') (primitive_lattice_vectors l') (expansion l') =
        transverse_wavevectors (in_plane_wavevector l) (primitive_lattice_vectors l) (expansion l);
  r_ez : z_permittivity_matrix l' *m d = d *m z_permittivity_matrix l;
  r_iez : inverse_z_permittivity_matrix l' *m d = d *m inverse_z_permittivity_matrix l;
  r_mz : z_permeability_matrix l' *m d = d *m z_permeability_matrix l;
  r_imz : inverse_z_permeability_matrix l' *m d = d *m inverse_z_permeability_matrix l;
  r_mt : transverse_permeability_matrix l' *m D = D *m transverse_permeability_matrix l;
  r_modes : exists e e', [/\ exact_modes l e, exact_modes l' e' & e' *m D = D *m e];
  r_q : forall i, forward_root (eigenvalues l 0 i);
  r_q' : forall i, forward_root (eigenvalues l' 0 i) }.

Lemma inv_conj (A A' : 'M[C]_n) : A' *m d = d *m A -> A \in unitmx -> A' \in unitmx ->
  invmx A' *m d = d *m invmx A.
Proof.
move=> e u u'; rewrite -[invmx A' *m d]mulmx1 -(mulmxV u) !mulmxA; congr (_ *m _).
by rewrite -mulmxA -e mulmxA mulVmx // mul1mx.
Qed.
Lemma diagC p (v w : 'rV[C]_p) : diag v *m diag w = diag w *m diag v.
Proof. by rewrite !diagM; congr diag; apply/rowP=> i; rewrite !mxE mulrC. Qed.
Lemma kcol_d kx ky : kcol kx ky *m d = D *m kcol kx ky.
Proof. by rewrite DE /kcol mul_col_mx mul_block_col !mul0mx addr0 add0r ![d *m _]diagC. Qed.
Lemma krow_d kx ky : krow kx ky *m D = d *m krow kx ky.
Proof. by rewrite DE /krow mul_mx_row mul_row_block !mulmx0 addr0 add0r ![d *m _]diagC. Qed.
Lemma kmat_d kx ky (A A' : 'M[C]_n) : A' *m d = d *m A ->
  kcol kx ky *m (A' *m krow kx ky) *m D = D *m (kcol kx ky *m (A *m krow kx ky)).
Proof. by move=> e; rewrite -!mulmxA krow_d (mulmxA A') e !mulmxA kcol_d. Qed.

Variables (l l' : layer_solve_result n).
Hypothesis (rel : related l l').
Variables (f : fin_layer l) (f' : fin_layer l').
Hypothesis (V' : eigenvectors l' \in unitmx).

Lemma rel_k : fl_kx f' = fl_kx f /\ fl_ky f' = fl_ky f.
Proof. by have := fl_k f'; rewrite (r_k rel) (fl_k f) => -[-> ->]. Qed.
Lemma rel_w : fl_w f' = fl_w f.
Proof. by have := fl_we f'; rewrite (r_wl rel) (fl_we f) => -[->]. Qed.
Lemma rel_O : fl_O f' *m D = D *m fl_O f.
Proof.
have [S [hS ->]] := fl_OE f; have [S' [hS' ->]] := fl_OE f'.
have [u ->] := script_kV hS; have [u' ->] := script_kV hS'.
have [-> ->] := rel_k; rewrite rel_w mulmxBl mulmxBr -scalemxAl -scalemxAr (r_mt rel); congr (_ - _).
by rewrite (kmat_d _ _ (inv_conj (r_ez rel) u u')).
Qed.

(** The amplitudes in [l'] of the mode amplitudes in [l]. *)
Definition mode_map := locked (invmx (eigenvectors l') *m D *m eigenvectors l).
Notation T := mode_map.
Lemma map_phi : eigenvectors l' *m T = D *m eigenvectors l.
Proof. by rewrite /mode_map -lock !mulmxA mulmxV // mul1mx. Qed.
Lemma map_q i j : T i j != 0 -> eigenvalues l' 0 i = eigenvalues l 0 j.
Proof.
move=> t0; apply: forward_root_uniq; [exact: (r_q' rel)|exact: (r_q rel)|].
have [e [e' [ex ex' ee]]] := r_modes rel.
have [K [hK h]] := exactE f ex; have [K' [hK' h']] := exactE f' ex'.
have [u eK] := k_matrixV hK; have [u' eK'] := k_matrixV hK'.
have KD : K' *m D = D *m K.
  by rewrite eK eK'; have [-> ->] := rel_k; rewrite (kmat_d _ _ (inv_conj (r_mz rel) u u')).
have MD : (e' *m fl_O f' - K' *m transverse_permeability_matrix l') *m D =
   D *m (e *m fl_O f - K *m transverse_permeability_matrix l).
  by rewrite mulmxBl mulmxBr -!mulmxA rel_O (r_mt rel) !mulmxA ee KD.
have : diag (\row_i eigenvalues l' 0 i ^+ 2) *m T = T *m diag (\row_i eigenvalues l 0 i ^+ 2).
  apply: (can_inj (mulKmx V')); rewrite (mulmxA (eigenvectors l')) -h' -mulmxA map_phi.
  by rewrite mulmxA MD -mulmxA h !mulmxA map_phi.
move/matrixP/(_ i j); rewrite mul_diag_mx mul_mx_diag !mxE mulrC => /(mulfI t0) //.
Qed.
Lemma map_diag (g : C -> C) :
  diag (\row_i g (eigenvalues l' 0 i)) *m T = T *m diag (\row_i g (eigenvalues l 0 i)).
Proof.
apply/matrixP=> i j; rewrite mul_diag_mx mul_mx_diag !mxE mulrC.
by case: (eqVneq (T i j) 0) => [->|/map_q ->]; rewrite ?mul0r.
Qed.
Lemma map_phase z : diag (phase (eigenvalues l') z) *m T = T *m diag (phase (eigenvalues l) z).
Proof.
have e (q : 'rV[C]_(n + n)) : phase q z = \row_i (fun x => cexp (Ci * x * RtoC z)) (q 0 i).
  by apply/rowP=> i; rewrite !mxE.
by rewrite !e (map_diag (fun x => cexp (Ci * x * RtoC z))).
Qed.
Lemma map_emat : emat f' *m T = D *m emat f.
Proof.
have e : diag (wq f') *m T = T *m diag (wq f).
  have -> : wq f' = \row_i (fun x => (RtoC (fl_w f) * x)^-1) (eigenvalues l' 0 i).
    by apply/rowP=> i; rewrite !mxE rel_w.
  by rewrite (map_diag (fun x => (RtoC (fl_w f) * x)^-1)); congr (_ *m diag _); apply/rowP=> i; rewrite !mxE.
by rewrite /emat -!mulmxA e (mulmxA (eigenvectors l')) map_phi !mulmxA rel_O.
Qed.
Section M.
Variable m : nat.
Implicit Types (a b : 'M[C]_(n + n, m)).
Lemma map_Et a b : Et f' (T *m a) (T *m b) = D *m Et f a b.
Proof. by rewrite /Et -mulmxBr mulmxA map_emat mulmxA. Qed.
Lemma map_Ht a b : Ht l' (T *m a) (T *m b) = D *m Ht l a b.
Proof. by rewrite /Ht -mulmxDr mulmxA map_phi mulmxA. Qed.
Lemma D_u (X : 'M[C]_(n + n, m)) : usubmx (D *m X) = d *m usubmx X.
Proof. by rewrite -{1}[X]vsubmxK DE mul_block_col !mul0mx addr0 col_mxKu. Qed.
Lemma D_d (X : 'M[C]_(n + n, m)) : dsubmx (D *m X) = d *m dsubmx X.
Proof. by rewrite -{1}[X]vsubmxK DE mul_block_col !mul0mx add0r col_mxKd. Qed.
Lemma d_row (v : 'rV[C]_n) (X : 'M[C]_(n, m)) : rowscale v (d *m X) = d *m rowscale v X.
Proof. by rewrite !rowscaleE !mulmxA diagC. Qed.
Lemma d_rowN (v : 'rV[C]_n) (X : 'M[C]_(n, m)) : rowscale v (- (d *m X)) = d *m rowscale v (- X).
Proof. by rewrite -mulmxN d_row. Qed.
Lemma map_fields a b :
  fields_from_wave_amplitudes (T *m a) (T *m b) l' =
  rmap (fields6_map (mulmx d)) (fields_from_wave_amplitudes a b l).
Proof.
rewrite (fields_fromE f) (fields_fromE f') /= /ez_of /hz_of rel_w.
have [-> ->] := rel_k; rewrite map_Et map_Ht !D_u !D_d !d_row !d_rowN -!mulmxBr !mulmxA.
by rewrite !mulNmx (r_iez rel) (r_imz rel) /fields6_map /= -!scalemxAr !mulmxN !mulmxA.
Qed.
Lemma map_reported a b t z :
  reported_fields l' t (T *m a) (T *m b) z = rmap (fields6_map (mulmx d)) (reported_fields l t a b z).
Proof. by rewrite /reported_fields !colocateE /= !mulmxA !map_phase -!mulmxA map_fields. Qed.
End M.
End Related.

(** ** Stacks *)
Section Stacks.
Variables (n m : nat) (dl : 'rV[C]_n).
Notation D := (diag (row_mx dl dl)).
Implicit Types (k : layer n) (x : layer_amplitudes n m).

Definition okp k k' := [/\ k'.2 = k.2, related dl k.1 k'.1, inhabited (fin_layer k.1),
  inhabited (fin_layer k'.1) & eigenvectors k'.1 \in unitmx].
Definition amp_map k k' x : layer_amplitudes n m := (mode_map dl k.1 k'.1 *m x.1, mode_map dl k.1 k'.1 *m x.2).
Fixpoint amps_map ks ks' xs := match ks, ks', xs with
  | k :: ks, k' :: ks', x :: xs => amp_map k k' x :: amps_map ks ks' xs
  | _, _, _ => [::]
  end.

Lemma map_interface k1 k1' k2 k2' x1 x2 : okp k1 k1' -> okp k2 k2' ->
  interface_matched k1 x1 k2 x2 -> interface_matched k1' (amp_map k1 k1' x1) k2' (amp_map k2 k2' x2).
Proof.
move=> [t1 r1 [f1] [f1'] v1] [t2 r2 [f2] [f2'] v2].
rewrite (interfaceE f1 f2) (interfaceE f1' f2') /=; rewrite t1 t2.
rewrite !mulmxA (map_phase r1 f1 f1' v1) (map_phase r2 f2 f2' v2) -!mulmxA.
rewrite (map_Et r1 f1 f1' v1) (map_Et r2 f2 f2' v2) (map_Ht _ _ v1) (map_Ht _ _ v2).
by case=> -> ->.
Qed.

Lemma map_solution ks ks' xs : List.Forall2 okp ks ks' -> stack_solution ks xs ->
  stack_solution ks' (amps_map ks ks' xs) /\ size (amps_map ks ks' xs) = size xs.
Proof.
elim: ks ks' xs => [|k ks IH] ks' xs h; inversion h as [|k0 k' ks0 ks1 hk hks e1 e2]; subst; first by case: xs.
case: xs => [|x xs] //; move=> H.
have H' : stack_solution ks xs by move: H => /=; case: (ks) => [|? ?]; case: (xs) => [|? ?] //= [].
have [IH1 IH2] := IH _ xs hks H'.
rewrite /= IH2; split=> //.
case: ks ks1 xs hks H {IH h} H' IH1 IH2 => [|k2 ks] [|k2' ks1] [|x2 xs] hks //=; try by inversion hks.
move=> [H _] _ h _; split; last exact: h.
by apply: map_interface; [exact: hk|inversion hks; assumption|exact: H].
Qed.

Lemma nth_amps_map k0 x0 ks ks' xs i : size ks = size ks' -> size xs = size ks -> (i < size ks)%N ->
  nth x0 (amps_map ks ks' xs) i = amp_map (nth k0 ks i) (nth k0 ks' i) (nth x0 xs i).
Proof.
elim: ks ks' xs i => [|k ks IH] [|k' ks'] [|x xs] //= [|i] [e1] [e2] h //=; exact: IH.
Qed.
Lemma last_amps_map k k' x ks ks' xs : size ks = size ks' -> size xs = size ks ->
  last (amp_map k k' x) (amps_map ks ks' xs) = amp_map (last k ks) (last k' ks') (last x xs).
Proof.
elim: ks ks' xs k k' x => [|k1 ks IH] [|k1' ks'] [|x1 xs] //= k k' x [e1] [e2]; exact: IH.
Qed.
Lemma solution_size (ks : seq (layer n)) (xs : seq (layer_amplitudes n m)) : stack_solution ks xs -> size xs = size ks.
Proof.
elim: ks xs => [|k ks IH] [|x xs] //= H; congr S; apply: IH.
by move: H; case: (ks) => [|? ?]; case: (xs) => [|? ?] //= [].
Qed.
Lemma forall2_sz (A B : Type) (P : A -> B -> Prop) s t : List.Forall2 P s t -> size s = size t.
Proof. by elim=> //= *; congr S. Qed.

Lemma map_ends k ks k' ks' (a0 b0 aN bN : 'M[C]_(n + n, m)) : List.Forall2 okp (k :: ks) (k' :: ks') ->
  stack_ends (k :: ks) a0 b0 aN bN ->
  let T0 := mode_map dl k.1 k'.1 in let TN := mode_map dl (last k ks).1 (last k' ks').1 in
  stack_ends (k' :: ks') (T0 *m a0) (T0 *m b0) (TN *m aN) (TN *m bN).
Proof.
move=> ok [x0 [xs [H e0 eN]]] T0 TN; have [H' _] := map_solution ok H.
have [sz] := forall2_sz ok; have [sx] := solution_size H.
exists (amp_map k k' x0), (amps_map ks ks' xs); split=> //; first by rewrite e0.
by rewrite last_amps_map // eN.
Qed.
End Stacks.

Lemma scatters_uniq n (s s' : scattering_matrix n) (P Q : 'M[C]_(n + n)) :
  (forall m (a0 b0 aN bN : 'M[C]_(n + n, m)), scatters s a0 b0 aN bN ->
     scatters s' (P *m a0) (P *m b0) (Q *m aN) (Q *m bN)) ->
  [/\ Q *m s11 s = s11 s' *m P, Q *m s12 s = s12 s' *m Q, P *m s21 s = s21 s' *m P & P *m s22 s = s22 s' *m Q].
Proof.
move=> h.
have [] := h _ 1%:M (s21 s) (s11 s) 0; first by split; rewrite ?mulmx0 ?addr0 ?mulmx1.
have [] := h _ 0 (s22 s) (s12 s) 1%:M; first by split; rewrite ?mulmx0 ?add0r ?mulmx1.
by rewrite !mulmx0 !mulmx1 !addr0 !add0r.
Qed.

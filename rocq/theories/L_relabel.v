(** Proofs about relabelled descriptions of a structure. *)
From Coq Require Import Reals ZArith Lra.
From mathcomp Require Import all_ssreflect all_algebra.
From mathcomp Require Import perm fingroup.
From Verif Require Import CField Err LinAlg Tac M_utils M_basis M_fft M_fmm_matrices M_fmm M_scattering M_fields S_stack S_maxwell S_fft S_modes S_shift S_relabel.
From Verif Require Import L_scattering L_stack L_maxwell L_fft L_fmm L_modes.
Set Implicit Arguments. Unset Strict Implicit. Unset Printing Implicit Defensive.
Import GRing.Theory.
Local Open Scope ring_scope.

(** ** Media conjugated by a matrix that maps the wavevectors of the orders *)
Section Conjugated.
Variables (n : nat) (d : 'M[C]_n).
Definition dd : 'M[C]_(n + n) := block_mx d 0 0 d.
Notation D := dd.
Lemma cDE : D = block_mx d 0 0 d. Proof. by []. Qed.

(** The medium of [l'] is the one of [l], conjugated by the matrix [d]. *)
Record conjugated (l l' : layer_solve_result n) : Prop := Conjugated {
  c_wl : wavelength l' = wavelength l;
  c_k : forall kx ky kx' ky',
        transverse_wavevectors (in_plane_wavevector l) (primitive_lattice_vectors l) (expansion l) = Val (kx, ky) ->
        transverse_wavevectors (in_plane_wavevector l') (primitive_lattice_vectors l') (expansion l') = Val (kx', ky') ->
        diag (vC kx') *m d = d *m diag (vC kx) /\ diag (vC ky') *m d = d *m diag (vC ky);
  c_ez : z_permittivity_matrix l' *m d = d *m z_permittivity_matrix l;
  c_iez : inverse_z_permittivity_matrix l' *m d = d *m inverse_z_permittivity_matrix l;
  c_mz : z_permeability_matrix l' *m d = d *m z_permeability_matrix l;
  c_imz : inverse_z_permeability_matrix l' *m d = d *m inverse_z_permeability_matrix l;
  c_mt : transverse_permeability_matrix l' *m D = D *m transverse_permeability_matrix l;
  c_modes : exists e e', [/\ exact_modes l e, exact_modes l' e' & e' *m D = D *m e];
  c_q : forall i, forward_root (eigenvalues l 0 i);
  c_q' : forall i, forward_root (eigenvalues l' 0 i) }.

Lemma cinv_conj (A A' : 'M[C]_n) : A' *m d = d *m A -> A \in unitmx -> A' \in unitmx ->
  invmx A' *m d = d *m invmx A.
Proof.
move=> e u u'; rewrite -[invmx A' *m d]mulmx1 -(mulmxV u) !mulmxA; congr (_ *m _).
by rewrite -mulmxA -e mulmxA mulVmx // mul1mx.
Qed.
Lemma ckcol_d kx ky kx' ky' : diag (vC kx') *m d = d *m diag (vC kx) -> diag (vC ky') *m d = d *m diag (vC ky) ->
  kcol kx' ky' *m d = D *m kcol kx ky.
Proof. by move=> hx hy; rewrite /kcol mul_col_mx mul_block_col !mul0mx addr0 add0r hx hy. Qed.
Lemma ckrow_d kx ky kx' ky' : diag (vC kx') *m d = d *m diag (vC kx) -> diag (vC ky') *m d = d *m diag (vC ky) ->
  krow kx' ky' *m D = d *m krow kx ky.
Proof. by move=> hx hy; rewrite /krow mul_mx_row mul_row_block !mulmx0 addr0 add0r hx hy. Qed.
Lemma ckmat_d kx ky kx' ky' (A A' : 'M[C]_n) : diag (vC kx') *m d = d *m diag (vC kx) -> diag (vC ky') *m d = d *m diag (vC ky) ->
  A' *m d = d *m A ->
  kcol kx' ky' *m (A' *m krow kx' ky') *m D = D *m (kcol kx ky *m (A *m krow kx ky)).
Proof. by move=> hx hy e; rewrite -!mulmxA (ckrow_d hx hy) (mulmxA A') e !mulmxA (ckcol_d hx hy). Qed.
Lemma vCN (k : 'rV[R]_n) : diag (vC (- k)) = - diag (vC k).
Proof. by rewrite -linearN; congr diag; apply/rowP=> i; rewrite !mxE RoppE; Creim; ring. Qed.
Lemma diag_dN (kx kx' : 'rV[R]_n) : diag (vC kx') *m d = d *m diag (vC kx) -> diag (vC (- kx')) *m d = d *m diag (vC (- kx)).
Proof. by rewrite !vCN mulNmx mulmxN => ->. Qed.

Variables (l l' : layer_solve_result n).
Hypothesis (rel : conjugated l l').
Variables (f : fin_layer l) (f' : fin_layer l').
Hypothesis (V' : eigenvectors l' \in unitmx).

Lemma crel_kx : diag (vC (fl_kx f')) *m d = d *m diag (vC (fl_kx f)).
Proof. by have [] := c_k rel (fl_k f) (fl_k f'). Qed.
Lemma crel_ky : diag (vC (fl_ky f')) *m d = d *m diag (vC (fl_ky f)).
Proof. by have [] := c_k rel (fl_k f) (fl_k f'). Qed.
Lemma crel_w : fl_w f' = fl_w f.
Proof. by have := fl_we f'; rewrite (c_wl rel) (fl_we f) => -[->]. Qed.
Lemma crel_O : fl_O f' *m D = D *m fl_O f.
Proof.
have [S [hS ->]] := fl_OE f; have [S' [hS' ->]] := fl_OE f'.
have [u ->] := script_kV hS; have [u' ->] := script_kV hS'.
rewrite crel_w mulmxBl mulmxBr -scalemxAl -scalemxAr (c_mt rel); congr (_ - _).
by rewrite (ckmat_d crel_ky (diag_dN crel_kx) (cinv_conj (c_ez rel) u u')).
Qed.

(** The amplitudes in [l'] of the mode amplitudes in [l]. *)
Definition cmode_map := locked (invmx (eigenvectors l') *m D *m eigenvectors l).
Notation T := cmode_map.
Lemma cmap_phi : eigenvectors l' *m T = D *m eigenvectors l.
Proof. by rewrite /cmode_map -lock !mulmxA mulmxV // mul1mx. Qed.
Lemma cmap_q i j : T i j != 0 -> eigenvalues l' 0 i = eigenvalues l 0 j.
Proof.
move=> t0; apply: forward_root_uniq; [exact: (c_q' rel)|exact: (c_q rel)|].
have [e [e' [ex ex' ee]]] := c_modes rel.
have [K [hK h]] := exactE f ex; have [K' [hK' h']] := exactE f' ex'.
have [u eK] := k_matrixV hK; have [u' eK'] := k_matrixV hK'.
have KD : K' *m D = D *m K.
  by rewrite eK eK' (ckmat_d crel_kx crel_ky (cinv_conj (c_mz rel) u u')).
have MD : (e' *m fl_O f' - K' *m transverse_permeability_matrix l') *m D =
   D *m (e *m fl_O f - K *m transverse_permeability_matrix l).
  by rewrite mulmxBl mulmxBr -!mulmxA crel_O (c_mt rel) !mulmxA ee KD.
have : diag (\row_i eigenvalues l' 0 i ^+ 2) *m T = T *m diag (\row_i eigenvalues l 0 i ^+ 2).
  apply: (can_inj (mulKmx V')); rewrite (mulmxA (eigenvectors l')) -h' -mulmxA cmap_phi.
  by rewrite mulmxA MD -mulmxA h !mulmxA cmap_phi.
move/matrixP/(_ i j); rewrite mul_diag_mx mul_mx_diag !mxE mulrC => /(mulfI t0) //.
Qed.
Lemma cmap_diag (g : C -> C) :
  diag (\row_i g (eigenvalues l' 0 i)) *m T = T *m diag (\row_i g (eigenvalues l 0 i)).
Proof.
apply/matrixP=> i j; rewrite mul_diag_mx mul_mx_diag !mxE mulrC.
by case: (eqVneq (T i j) 0) => [->|/cmap_q ->]; rewrite ?mul0r.
Qed.
Lemma cmap_phase z : diag (phase (eigenvalues l') z) *m T = T *m diag (phase (eigenvalues l) z).
Proof.
have e (q : 'rV[C]_(n + n)) : phase q z = \row_i (fun x => cexp (Ci * x * RtoC z)) (q 0 i).
  by apply/rowP=> i; rewrite !mxE.
by rewrite !e (cmap_diag (fun x => cexp (Ci * x * RtoC z))).
Qed.
Lemma cmap_emat : emat f' *m T = D *m emat f.
Proof.
have e : diag (wq f') *m T = T *m diag (wq f).
  have -> : wq f' = \row_i (fun x => (RtoC (fl_w f) * x)^-1) (eigenvalues l' 0 i).
    by apply/rowP=> i; rewrite !mxE crel_w.
  by rewrite (cmap_diag (fun x => (RtoC (fl_w f) * x)^-1)); congr (_ *m diag _); apply/rowP=> i; rewrite !mxE.
by rewrite /emat -!mulmxA e (mulmxA (eigenvectors l')) cmap_phi !mulmxA crel_O.
Qed.
Section M.
Variable m : nat.
Implicit Types (a b : 'M[C]_(n + n, m)).
Lemma cmap_Et a b : Et f' (T *m a) (T *m b) = D *m Et f a b.
Proof. by rewrite /Et -mulmxBr mulmxA cmap_emat mulmxA. Qed.
Lemma cmap_Ht a b : Ht l' (T *m a) (T *m b) = D *m Ht l a b.
Proof. by rewrite /Ht -mulmxDr mulmxA cmap_phi mulmxA. Qed.
Lemma cD_u (X : 'M[C]_(n + n, m)) : usubmx (D *m X) = d *m usubmx X.
Proof. by rewrite -{1}[X]vsubmxK cDE mul_block_col !mul0mx addr0 col_mxKu. Qed.
Lemma cD_d (X : 'M[C]_(n + n, m)) : dsubmx (D *m X) = d *m dsubmx X.
Proof. by rewrite -{1}[X]vsubmxK cDE mul_block_col !mul0mx add0r col_mxKd. Qed.
Lemma cd_row (k k' : 'rV[R]_n) (X : 'M[C]_(n, m)) : diag (vC k') *m d = d *m diag (vC k) ->
  rowscale (Ci *: vC k') (d *m X) = d *m rowscale (Ci *: vC k) X.
Proof. by move=> h; rewrite !rowscaleE !linearZ /= -!scalemxAl -scalemxAr !mulmxA h. Qed.
Lemma cd_rowN (k k' : 'rV[R]_n) (X : 'M[C]_(n, m)) : diag (vC k') *m d = d *m diag (vC k) ->
  rowscale (Ci *: vC k') (- (d *m X)) = d *m rowscale (Ci *: vC k) (- X).
Proof. by move=> h; rewrite -mulmxN (cd_row _ h). Qed.
Lemma cmap_fields a b :
  fields_from_wave_amplitudes (T *m a) (T *m b) l' =
  rmap (fields6_map (mulmx d)) (fields_from_wave_amplitudes a b l).
Proof.
rewrite (fields_fromE f) (fields_fromE f') /= /ez_of /hz_of crel_w.
rewrite cmap_Et cmap_Ht !cD_u !cD_d !(cd_row _ crel_kx) !(cd_row _ crel_ky) !(cd_rowN _ crel_kx) -!mulmxBr !mulmxA.
by rewrite !mulNmx (c_iez rel) (c_imz rel) /fields6_map /= -!scalemxAr !mulmxN !mulmxA.
Qed.
Lemma cmap_reported a b t z :
  reported_fields l' t (T *m a) (T *m b) z = rmap (fields6_map (mulmx d)) (reported_fields l t a b z).
Proof. by rewrite /reported_fields !colocateE /= !mulmxA !cmap_phase -!mulmxA cmap_fields. Qed.
End M.
End Conjugated.

(** ** Stacks *)
Section Stacks.
Variables (n m : nat) (d : 'M[C]_n).
Implicit Types (k : layer n) (x : layer_amplitudes n m).

Definition cokp k k' := [/\ k'.2 = k.2, conjugated d k.1 k'.1, inhabited (fin_layer k.1),
  inhabited (fin_layer k'.1) & eigenvectors k'.1 \in unitmx].
Definition camp_map k k' x : layer_amplitudes n m := (cmode_map d k.1 k'.1 *m x.1, cmode_map d k.1 k'.1 *m x.2).
Fixpoint camps_map ks ks' xs := match ks, ks', xs with
  | k :: ks, k' :: ks', x :: xs => camp_map k k' x :: camps_map ks ks' xs
  | _, _, _ => [::]
  end.

Lemma cmap_interface k1 k1' k2 k2' x1 x2 : cokp k1 k1' -> cokp k2 k2' ->
  interface_matched k1 x1 k2 x2 -> interface_matched k1' (camp_map k1 k1' x1) k2' (camp_map k2 k2' x2).
Proof.
move=> [t1 r1 [f1] [f1'] v1] [t2 r2 [f2] [f2'] v2].
rewrite (interfaceE f1 f2) (interfaceE f1' f2') /=; rewrite t1 t2.
rewrite !mulmxA (cmap_phase r1 f1 f1' v1) (cmap_phase r2 f2 f2' v2) -!mulmxA.
rewrite (cmap_Et r1 f1 f1' v1) (cmap_Et r2 f2 f2' v2) (cmap_Ht _ _ v1) (cmap_Ht _ _ v2).
by case=> -> ->.
Qed.

Lemma cmap_solution ks ks' xs : List.Forall2 cokp ks ks' -> stack_solution ks xs ->
  stack_solution ks' (camps_map ks ks' xs) /\ size (camps_map ks ks' xs) = size xs.
Proof.
elim: ks ks' xs => [|k ks IH] ks' xs h; inversion h as [|k0 k' ks0 ks1 hk hks e1 e2]; subst; first by case: xs.
case: xs => [|x xs] //; move=> H.
have H' : stack_solution ks xs by move: H => /=; case: (ks) => [|? ?]; case: (xs) => [|? ?] //= [].
have [IH1 IH2] := IH _ xs hks H'.
rewrite /= IH2; split=> //.
case: ks ks1 xs hks H {IH h} H' IH1 IH2 => [|k2 ks] [|k2' ks1] [|x2 xs] hks //=; try by inversion hks.
move=> [H _] _ h _; split; last exact: h.
by apply: cmap_interface; [exact: hk|inversion hks; assumption|exact: H].
Qed.

Lemma cnth_amps_map k0 x0 ks ks' xs i : size ks = size ks' -> size xs = size ks -> (i < size ks)%N ->
  nth x0 (camps_map ks ks' xs) i = camp_map (nth k0 ks i) (nth k0 ks' i) (nth x0 xs i).
Proof.
elim: ks ks' xs i => [|k ks IH] [|k' ks'] [|x xs] //= [|i] [e1] [e2] h //=; exact: IH.
Qed.
Lemma clast_amps_map k k' x ks ks' xs : size ks = size ks' -> size xs = size ks ->
  last (camp_map k k' x) (camps_map ks ks' xs) = camp_map (last k ks) (last k' ks') (last x xs).
Proof.
elim: ks ks' xs k k' x => [|k1 ks IH] [|k1' ks'] [|x1 xs] //= k k' x [e1] [e2]; exact: IH.
Qed.
Lemma cmap_ends k ks k' ks' (a0 b0 aN bN : 'M[C]_(n + n, m)) : List.Forall2 cokp (k :: ks) (k' :: ks') ->
  stack_ends (k :: ks) a0 b0 aN bN ->
  let T0 := cmode_map d k.1 k'.1 in let TN := cmode_map d (last k ks).1 (last k' ks').1 in
  stack_ends (k' :: ks') (T0 *m a0) (T0 *m b0) (TN *m aN) (TN *m bN).
Proof.
move=> ok [x0 [xs [H e0 eN]]] T0 TN; have [H' _] := cmap_solution ok H.
have [sz] := forall2_sz ok; have [sx] := solution_size H.
exists (camp_map k k' x0), (camps_map ks ks' xs); split=> //; first by rewrite e0.
by rewrite clast_amps_map // eN.
Qed.
End Stacks.


(** ** Regridded arrays *)
Lemma fc_regrid sw nx ny (x : 'M[C]_(nx, ny)) g : fourier_coefficient (regrid sw x) (exchange sw g) = fourier_coefficient x g.
Proof.
case: sw => //=; rewrite /fourier_coefficient exchange_big /= Rmult_comm; congr (_ / _).
by apply: eq_bigr => a _; apply: eq_bigr => b _; rewrite mxE [wave _ _ _ * _]mulrC.
Qed.
Definition regrid22 sw nx ny (g : grid22 nx ny) := Grid22 (regrid sw (g00 g)) (regrid sw (g01 g)) (regrid sw (g10 g)) (regrid sw (g11 g)).
Lemma solve22_regrid sw nx ny (t a u : grid22 nx ny) u' : solve22 t a = Val u -> solve22 (regrid22 sw t) (regrid22 sw a) = Val u' ->
  u' = regrid22 sw u.
Proof.
rewrite /solve22; case: ifP => // _ [<-]; case: sw u' => u'; case: ifP => // _ [<-] //.
have e (g : grid22 nx ny) i j : at22 (regrid22 true g) i j = at22 g j i by rewrite /at22 /= !mxE.
by rewrite /regrid22; congr Grid22; apply/matrixP=> i j; rewrite !mxE !e.
Qed.
Lemma regrid_map sw nx ny (g : C -> C) (x : 'M[C]_(nx, ny)) : regrid sw (map_mx g x) = map_mx g (regrid sw x).
Proof. by case: sw => //=; apply/matrixP=> i j; rewrite !mxE. Qed.
Lemma regrid_opp sw nx ny (x : 'M[C]_(nx, ny)) : regrid sw (- x) = - regrid sw x.
Proof. by case: sw => //=; apply/matrixP=> i j; rewrite !mxE. Qed.
Lemma regrid_add sw nx ny (x y : 'M[C]_(nx, ny)) : regrid sw (x + y) = regrid sw x + regrid sw y.
Proof. by case: sw => //=; apply/matrixP=> i j; rewrite !mxE. Qed.
Lemma regrid_const sw nx ny c : regrid sw (const_mx c : 'M[C]_(nx, ny)) = const_mx c.
Proof. by case: sw => //=; apply/matrixP=> i j; rewrite !mxE. Qed.
Lemma regrid_fun2 sw nx ny (g : C -> C -> C) (x y : 'M[C]_(nx, ny)) :
  regrid sw (\matrix_(i, j) g (x i j) (y i j)) = \matrix_(i, j) g (regrid sw x i j) (regrid sw y i j).
Proof. by case: sw => //=; apply/matrixP=> i j; rewrite !mxE. Qed.
Lemma regrid_fun4 sw nx ny (g : C -> C -> C -> C -> C) (x y z w : 'M[C]_(nx, ny)) :
  regrid sw (\matrix_(i, j) g (x i j) (y i j) (z i j) (w i j)) =
  \matrix_(i, j) g (regrid sw x i j) (regrid sw y i j) (regrid sw z i j) (regrid sw w i j).
Proof. by case: sw => //=; apply/matrixP=> i j; rewrite !mxE. Qed.

Lemma mulmx_perm m n (A : 'M[C]_(m, n)) (s : 'S_n) : A *m perm_mx s = col_perm s^-1 A.
Proof. by rewrite col_permE invgK. Qed.

Section Grid.
Variables (n : nat) (rel : relabelling n) (expn expn' : n.-tuple (Z * Z)).
Hypothesis (hexp : forall i, let o := tnth expn (r_perm rel i) in
  tnth expn' i = exchange (r_swap rel) (o.1 - (r_order rel).1, o.2 - (r_order rel).2)%coqZ).
Notation sw := (r_swap rel).
Notation d := (perm_mx (r_perm rel) : 'M[C]_n).
Notation D := (dd d).
Variables (nx ny : nat).
Notation gx := (if sw then ny else nx).
Notation gy := (if sw then nx else ny).
Definition rl_mv (x : 'M[C]_(nx, ny)) (x' : 'M[C]_(gx, gy)) := x' = regrid sw x.
Lemma toeplitz_relabel i j : standard_toeplitz_index expn' i j =
  exchange sw (standard_toeplitz_index expn (r_perm rel i) (r_perm rel j)).
Proof.
rewrite /standard_toeplitz_index !hexp; case: (r_order rel) => a b.
by case: (tnth expn (r_perm rel i)) (tnth expn (r_perm rel j)) => [x y] [z w] /=; case: (sw) => /=; congr (_, _); ring.
Qed.
Lemma rl_conv_moved x x' T T' : rl_mv x x' -> fourier_convolution_matrix x expn = Val T ->
  fourier_convolution_matrix x' expn' = Val T' -> T' *m d = d *m T.
Proof.
move=> -> /conv_entry -> /conv_entry ->; rewrite mulmx_perm -row_permE; apply/matrixP=> i j; rewrite !mxE.
by rewrite toeplitz_relabel fc_regrid permKV.
Qed.

Definition rl_cj (A A' : 'M[C]_n) := A' *m d = d *m A.
Definition rl_CJ (A A' : 'M[C]_(n + n)) := A' *m D = D *m A.
Lemma rl_cj_block a b c e a' b' c' e' : rl_cj a a' -> rl_cj b b' -> rl_cj c c' -> rl_cj e e' ->
  rl_CJ (block_mx a b c e) (block_mx a' b' c' e').
Proof.
rewrite /rl_cj /rl_CJ /dd !mulmx_block !mulmx0 !mul0mx !addr0 !add0r => -> -> -> -> //.
Qed.
Lemma rl_cj0 : rl_cj 0 0. Proof. by rewrite /rl_cj mul0mx mulmx0. Qed.
Lemma rl_cj_scalar c : rl_cj (diag (const_mx c)) (diag (const_mx c)).
Proof. by rewrite /rl_cj diag_const_mx mul_scalar_mx mul_mx_scalar. Qed.
Lemma rl_cj_sub A A' B B' : rl_cj A A' -> rl_cj B B' -> rl_cj (A - B) (A' - B').
Proof. by rewrite /rl_cj mulmxBl mulmxBr => -> ->. Qed.
Lemma rl_CJ_sub A A' B B' : rl_CJ A A' -> rl_CJ B B' -> rl_CJ (A - B) (A' - B').
Proof. by rewrite /rl_CJ mulmxBl mulmxBr => -> ->. Qed.
Lemma rl_CJ_mul A A' B B' : rl_CJ A A' -> rl_CJ B B' -> rl_CJ (A *m B) (A' *m B').
Proof. by rewrite /rl_CJ -mulmxA => h ->; rewrite !mulmxA h. Qed.
Lemma rl_cj_inv A A' X X' : rl_cj A A' -> inv A = Val X -> inv A' = Val X' -> rl_cj X X'.
Proof. move=> h /invV [u ->] /invV [u' ->]; exact: cinv_conj. Qed.

(** ** Pointwise functions of regridded patterns *)
Lemma rl_mv_map (g : C -> C) x x' : rl_mv x x' -> rl_mv (map_mx g x) (map_mx g x').
Proof. by move=> ->; rewrite /rl_mv regrid_map. Qed.
Lemma rl_mv_opp x x' : rl_mv x x' -> rl_mv (- x) (- x').
Proof. by move=> ->; rewrite /rl_mv regrid_opp. Qed.
Lemma rl_mv_const c : rl_mv (const_mx c) (const_mx c).
Proof. by rewrite /rl_mv regrid_const. Qed.
Lemma rl_mv_recip x x' y y' : rl_mv x x' -> recipM x = Val y -> recipM x' = Val y' -> rl_mv y y'.
Proof. by move=> h /recipMV [_ ->] /recipMV [_ ->]; exact: rl_mv_map. Qed.
Lemma rl_mv_fun2 (g : C -> C -> C) x x' y y' : rl_mv x x' -> rl_mv y y' ->
  rl_mv (\matrix_(i, j) g (x i j) (y i j)) (\matrix_(i, j) g (x' i j) (y' i j)).
Proof. by move=> -> ->; rewrite /rl_mv regrid_fun2. Qed.
Definition rl_mv22 (g : grid22 nx ny) (g' : grid22 gx gy) :=
  [/\ rl_mv (g00 g) (g00 g'), rl_mv (g01 g) (g01 g'), rl_mv (g10 g) (g10 g') & rl_mv (g11 g) (g11 g')].
Lemma rl_mv22E g g' : rl_mv22 g g' -> g' = regrid22 sw g.
Proof. by case: g' => a b c e [/= -> -> -> ->]. Qed.
Lemma rl_solve22_mv t t' a a' u u' : rl_mv22 t t' -> rl_mv22 a a' -> solve22 t a = Val u -> solve22 t' a' = Val u' -> rl_mv22 u u'.
Proof. by move=> /rl_mv22E -> /rl_mv22E -> h h'; rewrite (solve22_regrid h h'). Qed.

(** ** Transverse matrices *)
Lemma rl_fft_mv x x' T T' : rl_mv x x' -> transverse_permittivity_fft x expn = Val T ->
  transverse_permittivity_fft x' expn' = Val T' -> rl_CJ T T'.
Proof.
rewrite /transverse_permittivity_fft => h H H'; binv H a ha; binv H' a' ha'; case: H => <-; case: H' => <-.
by apply: rl_cj_block; try exact: rl_cj0; exact: rl_conv_moved h ha ha'.
Qed.
Lemma rl_vector_mv x x' tx tx' ty ty' T T' : rl_mv x x' -> rl_mv tx tx' -> rl_mv ty ty' ->
  transverse_permittivity_vector x tx ty expn = Val T ->
  transverse_permittivity_vector x' tx' ty' expn' = Val T' -> rl_CJ T T'.
Proof.
rewrite /transverse_permittivity_vector => h hx' hy' H H'.
binv H a ha; binv H b hb; binv H c hc; binv H e he; binv H p1 h1; binv H p2 h2; binv H p3 h3; binv H p4 h4; case: H => <-.
binv H' a' ha'; binv H' b' hb'; binv H' c' hc'; binv H' e' he'; binv H' q1 h1'; binv H' q2 h2'; binv H' q3 h3'; binv H' q4 h4'; case: H' => <-.
have ca := rl_conv_moved h ha ha'; have cc := rl_conv_moved (rl_mv_recip h hb hb') hc hc'.
have ce := rl_cj_inv cc he he'; have cde := rl_cj_sub ca ce.
apply: rl_CJ_sub; first by apply: rl_cj_block; try exact: rl_cj0; exact: ca.
apply: rl_CJ_mul; first by apply: rl_cj_block; try exact: rl_cj0; exact: cde.
apply: rl_cj_block.
- exact: rl_conv_moved (rl_mv_fun2 (fun u v => (tangent_terms u v).2) hx' hy') h1 h1'.
- exact: rl_conv_moved (rl_mv_fun2 (fun u v => (tangent_terms u v).1.2) hx' hy') h2 h2'.
- exact: rl_conv_moved (rl_mv_fun2 (fun u v => (tangent_terms u v).1.1.2) hx' hy') h3 h3'.
- exact: rl_conv_moved (rl_mv_fun2 (fun u v => (tangent_terms u v).1.1.1) hx' hy') h4 h4'.
Qed.
Lemma rl_fft_eps_mv (t : tensor 'M[C]_(nx, ny)) (t' : tensor 'M[C]_(gx, gy)) T T' :
  rl_mv (t_xx t) (t_xx t') -> rl_mv (t_xy t) (t_xy t') -> rl_mv (t_yx t) (t_yx t') -> rl_mv (t_yy t) (t_yy t') ->
  transverse_permittivity_fft_anisotropic (t_xx t) (t_xy t) (t_yx t) (t_yy t) expn = Val T ->
  transverse_permittivity_fft_anisotropic (t_xx t') (t_xy t') (t_yx t') (t_yy t') expn' = Val T' -> rl_CJ T T'.
Proof.
rewrite /transverse_permittivity_fft_anisotropic => h1 h2 h3 h4 H H'.
binv H a ha; binv H b hb; binv H c hc; binv H e he; case: H => <-.
binv H' a' ha'; binv H' b' hb'; binv H' c' hc'; binv H' e' he'; case: H' => <-.
apply: rl_cj_block; [exact: rl_conv_moved h4 ha ha'|exact: rl_conv_moved (rl_mv_opp h3) hb hb'|exact: rl_conv_moved (rl_mv_opp h2) hc hc'|exact: rl_conv_moved h1 he he'].
Qed.
Lemma rl_fft_mu_mv (t : tensor 'M[C]_(nx, ny)) (t' : tensor 'M[C]_(gx, gy)) T T' :
  rl_mv (t_xx t) (t_xx t') -> rl_mv (t_xy t) (t_xy t') -> rl_mv (t_yx t) (t_yx t') -> rl_mv (t_yy t) (t_yy t') ->
  transverse_permeability_fft_anisotropic (t_xx t) (t_xy t) (t_yx t) (t_yy t) expn = Val T ->
  transverse_permeability_fft_anisotropic (t_xx t') (t_xy t') (t_yx t') (t_yy t') expn' = Val T' -> rl_CJ T T'.
Proof.
rewrite /transverse_permeability_fft_anisotropic => h1 h2 h3 h4 H H'.
binv H a ha; binv H b hb; binv H c hc; binv H e he; case: H => <-.
binv H' a' ha'; binv H' b' hb'; binv H' c' hc'; binv H' e' he'; case: H' => <-.
apply: rl_cj_block; [exact: rl_conv_moved h1 ha ha'|exact: rl_conv_moved h2 hb hb'|exact: rl_conv_moved h3 hc hc'|exact: rl_conv_moved h4 he he'].
Qed.
Lemma rl_mv_fun4 (g : C -> C -> C -> C -> C) x x' y y' z z' w w' : rl_mv x x' -> rl_mv y y' -> rl_mv z z' -> rl_mv w w' ->
  rl_mv (\matrix_(i, j) g (x i j) (y i j) (z i j) (w i j)) (\matrix_(i, j) g (x' i j) (y' i j) (z' i j) (w' i j)).
Proof. by move=> -> -> -> ->; rewrite /rl_mv regrid_fun4. Qed.
Lemma rl_rotation_mv a a' b b' c c' e e' r r' : rl_mv a a' -> rl_mv b b' -> rl_mv c c' -> rl_mv e e' ->
  rotation_matrices a b c e expn = Val r -> rotation_matrices a' b' c' e' expn' = Val r' ->
  [/\ rl_mv22 r.1.1 r'.1.1, rl_CJ r.1.2 r'.1.2 & rl_CJ r.2 r'.2].
Proof.
rewrite /rotation_matrices => ha hb hc he H H'.
binv H f1 h1; binv H f2 h2; binv H f3 h3; binv H f4 h4; binv H i1 h5; binv H i2 h6; binv H i3 h7; binv H i4 h8; case: H => <-.
binv H' f1' h1'; binv H' f2' h2'; binv H' f3' h3'; binv H' f4' h4'; binv H' i1' h5'; binv H' i2' h6'; binv H' i3' h7'; binv H' i4' h8'; case: H' => <-.
pose den (x y z w : C) := RtoC (if isclose0 (Cmod (x * w - z * y)) then 1%coqR else Cmod (x * w - z * y)).
split=> /=; first by split.
- apply: rl_cj_block; [exact: rl_conv_moved ha h1 h1'|exact: rl_conv_moved hb h2 h2'|exact: rl_conv_moved hc h3 h3'|exact: rl_conv_moved he h4 h4'].
- apply: rl_cj_block.
  + exact: rl_conv_moved (rl_mv_fun4 (fun x y z w : C => w / den x y z w) ha hb hc he) h5 h5'.
  + exact: rl_conv_moved (rl_mv_fun4 (fun x y z w : C => - y / den x y z w) ha hb hc he) h6 h6'.
  + exact: rl_conv_moved (rl_mv_fun4 (fun x y z w : C => - z / den x y z w) ha hb hc he) h7 h7'.
  + exact: rl_conv_moved (rl_mv_fun4 (fun x y z w : C => x / den x y z w) ha hb hc he) h8 h8'.
Qed.
Lemma rl_rotated_mv g g' r r' T T' : rl_mv22 g g' -> [/\ rl_mv22 r.1.1 r'.1.1, rl_CJ r.1.2 r'.1.2 & rl_CJ r.2 r'.2] ->
  rotated_fourier_matrix g r expn = Val T -> rotated_fourier_matrix g' r' expn' = Val T' -> rl_CJ T T'.
Proof.
rewrite /rotated_fourier_matrix => hg [hr1 hr2 hr3] H H'.
binv H s hs; binv H a ha; binv H b hb; binv H c hc; binv H u hu; binv H v hv; binv H e he; case: H => <-.
binv H' s' hs'; binv H' a' ha'; binv H' b' hb'; binv H' c' hc'; binv H' u' hu'; binv H' v' hv'; binv H' e' he'; case: H' => <-.
have [s1 s2 s3 s4] := rl_solve22_mv hr1 hg hs hs'.
apply: rl_CJ_mul hr3; apply: rl_CJ_mul hr2 _; apply: rl_cj_block.
- exact: rl_conv_moved s1 ha ha'.
- exact: rl_conv_moved s2 hb hb'.
- exact: rl_conv_moved s3 hc hc'.
- exact: rl_cj_inv (rl_conv_moved (rl_mv_recip s4 hu hu') hv hv') he he'.
Qed.
Lemma rl_vector_eps_mv (t : tensor 'M[C]_(nx, ny)) (t' : tensor 'M[C]_(gx, gy)) tx tx' ty ty' T T' :
  rl_mv (t_xx t) (t_xx t') -> rl_mv (t_xy t) (t_xy t') -> rl_mv (t_yx t) (t_yx t') -> rl_mv (t_yy t) (t_yy t') ->
  rl_mv tx tx' -> rl_mv ty ty' ->
  transverse_permittivity_vector_anisotropic (t_xx t) (t_xy t) (t_yx t) (t_yy t) tx ty expn = Val T ->
  transverse_permittivity_vector_anisotropic (t_xx t') (t_xy t') (t_yx t') (t_yy t') tx' ty' expn' = Val T' -> rl_CJ T T'.
Proof.
rewrite /transverse_permittivity_vector_anisotropic => h1 h2 h3 h4 h5 h6 H H'; binv H r hr; binv H' r' hr'.
apply: rl_rotated_mv H H'; first by split=> //; exact: rl_mv_opp.
by apply: rl_rotation_mv hr hr' => //; [exact: rl_mv_map|exact: rl_mv_opp|exact: rl_mv_map].
Qed.
Lemma rl_vector_mu_mv (t : tensor 'M[C]_(nx, ny)) (t' : tensor 'M[C]_(gx, gy)) tx tx' ty ty' T T' :
  rl_mv (t_xx t) (t_xx t') -> rl_mv (t_xy t) (t_xy t') -> rl_mv (t_yx t) (t_yx t') -> rl_mv (t_yy t) (t_yy t') ->
  rl_mv tx tx' -> rl_mv ty ty' ->
  transverse_permeability_vector_anisotropic (t_xx t) (t_xy t) (t_yx t) (t_yy t) tx ty expn = Val T ->
  transverse_permeability_vector_anisotropic (t_xx t') (t_xy t') (t_yx t') (t_yy t') tx' ty' expn' = Val T' -> rl_CJ T T'.
Proof.
rewrite /transverse_permeability_vector_anisotropic => h1 h2 h3 h4 h5 h6 H H'; binv H r hr; binv H' r' hr'.
apply: rl_rotated_mv H H'; first by split.
by apply: rl_rotation_mv hr hr' => //; [apply: rl_mv_opp; exact: rl_mv_map|exact: rl_mv_map].
Qed.
End Grid.

(** Proofs about structures described on a larger cell. *)
From Coq Require Import Reals ZArith Lra Lia.
From mathcomp Require Import all_ssreflect all_algebra.
From Verif Require Import CField Err LinAlg Tac M_utils M_basis M_fft M_fmm_matrices M_fmm M_scattering M_fields S_stack S_maxwell S_fft S_modes S_shift S_supercell.
From Verif Require Import L_scattering L_stack L_maxwell L_fft L_fmm L_modes.
Set Implicit Arguments. Unset Strict Implicit. Unset Printing Implicit Defensive.
Import GRing.Theory.
Local Open Scope ring_scope.

(** ** Media conjugated by a matrix that maps the wavevectors of the orders *)
Section Conjugated.
Variables (n n' : nat) (d : 'M[C]_(n', n)).
Definition dd : 'M[C]_(n' + n', n + n) := block_mx d 0 0 d.
Notation D := dd.
Lemma cDE : D = block_mx d 0 0 d. Proof. by []. Qed.

(** The medium of [l'] is the one of [l], conjugated by the matrix [d]. *)
Record conjugated (l : layer_solve_result n) (l' : layer_solve_result n') : Prop := Conjugated {
  c_wl : wavelength l' = wavelength l;
  c_k : forall kx ky kx' ky',
        transverse_wavevectors (in_plane_wavevector l) (primitive_lattice_vectors l) (expansion l) = Val (kx, ky) ->
        transverse_wavevectors (in_plane_wavevector l') (primitive_lattice_vectors l') (expansion l') = Val (kx', ky') ->
        diag (vC kx') *m d = d *m diag (vC kx) /\ diag (vC ky') *m d = d *m diag (vC ky);
  c_ez : z_permittivity_matrix l' *m d = d *m z_permittivity_matrix l;
  c_iez : inverse_z_permittivity_matrix l' *m d = d *m inverse_z_permittivity_matrix l;
  c_mz : z_permeability_matrix l' *m d = d *m z_permeability_matrix l;
  c_imz : inverse_z_permeability_matrix l' *m d = d *m inverse_z_permeability_matrix l;
  c_mt : transverse_permeability_matrix l' *m D = D *m transverse_permeability_matrix l;
  c_modes : exists e e', [/\ exact_modes l e, exact_modes l' e' & e' *m D = D *m e];
  c_q : forall i, forward_root (eigenvalues l 0 i);
  c_q' : forall i, forward_root (eigenvalues l' 0 i) }.

Lemma cinv_conj (A : 'M[C]_n) (A' : 'M[C]_n') : A' *m d = d *m A -> A \in unitmx -> A' \in unitmx ->
  invmx A' *m d = d *m invmx A.
Proof.
move=> e u u'; rewrite -[invmx A' *m d]mulmx1 -(mulmxV u) !mulmxA; congr (_ *m _).
by rewrite -mulmxA -e mulmxA mulVmx // mul1mx.
Qed.
Lemma ckcol_d kx ky kx' ky' : diag (vC kx') *m d = d *m diag (vC kx) -> diag (vC ky') *m d = d *m diag (vC ky) ->
  kcol kx' ky' *m d = D *m kcol kx ky.
Proof. by move=> hx hy; rewrite /kcol mul_col_mx mul_block_col !mul0mx addr0 add0r hx hy. Qed.
Lemma ckrow_d kx ky kx' ky' : diag (vC kx') *m d = d *m diag (vC kx) -> diag (vC ky') *m d = d *m diag (vC ky) ->
  krow kx' ky' *m D = d *m krow kx ky.
Proof. by move=> hx hy; rewrite /krow mul_mx_row mul_row_block !mulmx0 addr0 add0r hx hy. Qed.
Lemma ckmat_d kx ky kx' ky' (A : 'M[C]_n) (A' : 'M[C]_n') : diag (vC kx') *m d = d *m diag (vC kx) -> diag (vC ky') *m d = d *m diag (vC ky) ->
  A' *m d = d *m A ->
  kcol kx' ky' *m (A' *m krow kx' ky') *m D = D *m (kcol kx ky *m (A *m krow kx ky)).
Proof. by move=> hx hy e; rewrite -!mulmxA (ckrow_d hx hy) (mulmxA A') e !mulmxA (ckcol_d hx hy). Qed.
Lemma vCN p (k : 'rV[R]_p) : diag (vC (- k)) = - diag (vC k).
Proof. by rewrite -linearN; congr diag; apply/rowP=> i; rewrite !mxE RoppE; Creim; ring. Qed.
Lemma diag_dN (kx : 'rV[R]_n) (kx' : 'rV[R]_n') : diag (vC kx') *m d = d *m diag (vC kx) -> diag (vC (- kx')) *m d = d *m diag (vC (- kx)).
Proof. by rewrite !vCN mulNmx mulmxN => ->. Qed.

Variables (l : layer_solve_result n) (l' : layer_solve_result n').
Hypothesis (rel : conjugated l l').
Variables (f : fin_layer l) (f' : fin_layer l').
Hypothesis (V' : eigenvectors l' \in unitmx).

Lemma crel_kx : diag (vC (fl_kx f')) *m d = d *m diag (vC (fl_kx f)).
Proof. by have [] := c_k rel (fl_k f) (fl_k f'). Qed.
Lemma crel_ky : diag (vC (fl_ky f')) *m d = d *m diag (vC (fl_ky f)).
Proof. by have [] := c_k rel (fl_k f) (fl_k f'). Qed.
Lemma crel_w : fl_w f' = fl_w f.
Proof. by have := fl_we f'; rewrite (c_wl rel) (fl_we f) => -[->]. Qed.
Lemma crel_O : fl_O f' *m D = D *m fl_O f.
Proof.
have [S [hS ->]] := fl_OE f; have [S' [hS' ->]] := fl_OE f'.
have [u ->] := script_kV hS; have [u' ->] := script_kV hS'.
rewrite crel_w mulmxBl mulmxBr -scalemxAl -scalemxAr (c_mt rel); congr (_ - _).
by rewrite (ckmat_d crel_ky (diag_dN crel_kx) (cinv_conj (c_ez rel) u u')).
Qed.

(** The amplitudes in [l'] of the mode amplitudes in [l]. *)
Definition cmode_map := locked (invmx (eigenvectors l') *m D *m eigenvectors l).
Notation T := cmode_map.
Lemma cmap_phi : eigenvectors l' *m T = D *m eigenvectors l.
Proof. by rewrite /cmode_map -lock !mulmxA mulmxV // mul1mx. Qed.
Lemma cmap_q i j : T i j != 0 -> eigenvalues l' 0 i = eigenvalues l 0 j.
Proof.
move=> t0; apply: forward_root_uniq; [exact: (c_q' rel)|exact: (c_q rel)|].
have [e [e' [ex ex' ee]]] := c_modes rel.
have [K [hK h]] := exactE f ex; have [K' [hK' h']] := exactE f' ex'.
have [u eK] := k_matrixV hK; have [u' eK'] := k_matrixV hK'.
have KD : K' *m D = D *m K.
  by rewrite eK eK' (ckmat_d crel_kx crel_ky (cinv_conj (c_mz rel) u u')).
have MD : (e' *m fl_O f' - K' *m transverse_permeability_matrix l') *m D =
   D *m (e *m fl_O f - K *m transverse_permeability_matrix l).
  by rewrite mulmxBl mulmxBr -!mulmxA crel_O (c_mt rel) !mulmxA ee KD.
have : diag (\row_i eigenvalues l' 0 i ^+ 2) *m T = T *m diag (\row_i eigenvalues l 0 i ^+ 2).
  apply: (can_inj (mulKmx V')); rewrite (mulmxA (eigenvectors l')) -h' -mulmxA cmap_phi.
  by rewrite mulmxA MD -mulmxA h !mulmxA cmap_phi.
move/matrixP/(_ i j); rewrite mul_diag_mx mul_mx_diag !mxE mulrC => /(mulfI t0) //.
Qed.
Lemma cmap_diag (g : C -> C) :
  diag (\row_i g (eigenvalues l' 0 i)) *m T = T *m diag (\row_i g (eigenvalues l 0 i)).
Proof.
apply/matrixP=> i j; rewrite mul_diag_mx mul_mx_diag !mxE mulrC.
by case: (eqVneq (T i j) 0) => [->|/cmap_q ->]; rewrite ?mul0r.
Qed.
Lemma cmap_phase z : diag (phase (eigenvalues l') z) *m T = T *m diag (phase (eigenvalues l) z).
Proof.
have e p (q : 'rV[C]_p) : phase q z = \row_i (fun x => cexp (Ci * x * RtoC z)) (q 0 i).
  by apply/rowP=> i; rewrite !mxE.
by rewrite !e (cmap_diag (fun x => cexp (Ci * x * RtoC z))).
Qed.
Lemma cmap_emat : emat f' *m T = D *m emat f.
Proof.
have e : diag (wq f') *m T = T *m diag (wq f).
  have -> : wq f' = \row_i (fun x => (RtoC (fl_w f) * x)^-1) (eigenvalues l' 0 i).
    by apply/rowP=> i; rewrite !mxE crel_w.
  by rewrite (cmap_diag (fun x => (RtoC (fl_w f) * x)^-1)); congr (_ *m diag _); apply/rowP=> i; rewrite !mxE.
by rewrite /emat -!mulmxA e (mulmxA (eigenvectors l')) cmap_phi !mulmxA crel_O.
Qed.
Section M.
Variable m : nat.
Implicit Types (a b : 'M[C]_(n + n, m)).
Lemma cmap_Et a b : Et f' (T *m a) (T *m b) = D *m Et f a b.
Proof. by rewrite /Et -mulmxBr mulmxA cmap_emat mulmxA. Qed.
Lemma cmap_Ht a b : Ht l' (T *m a) (T *m b) = D *m Ht l a b.
Proof. by rewrite /Ht -mulmxDr mulmxA cmap_phi mulmxA. Qed.
Lemma cD_u (X : 'M[C]_(n + n, m)) : usubmx (D *m X) = d *m usubmx X.
Proof. by rewrite -{1}[X]vsubmxK cDE mul_block_col !mul0mx addr0 col_mxKu. Qed.
Lemma cD_d (X : 'M[C]_(n + n, m)) : dsubmx (D *m X) = d *m dsubmx X.
Proof. by rewrite -{1}[X]vsubmxK cDE mul_block_col !mul0mx add0r col_mxKd. Qed.
Lemma cd_row (k : 'rV[R]_n) (k' : 'rV[R]_n') (X : 'M[C]_(n, m)) : diag (vC k') *m d = d *m diag (vC k) ->
  rowscale (Ci *: vC k') (d *m X) = d *m rowscale (Ci *: vC k) X.
Proof. by move=> h; rewrite !rowscaleE !linearZ /= -!scalemxAl -scalemxAr !mulmxA h. Qed.
Lemma cd_rowN (k : 'rV[R]_n) (k' : 'rV[R]_n') (X : 'M[C]_(n, m)) : diag (vC k') *m d = d *m diag (vC k) ->
  rowscale (Ci *: vC k') (- (d *m X)) = d *m rowscale (Ci *: vC k) (- X).
Proof. by move=> h; rewrite -mulmxN (cd_row _ h). Qed.
Lemma cmap_fields a b :
  fields_from_wave_amplitudes (T *m a) (T *m b) l' =
  rmap (fields6_map (mulmx d)) (fields_from_wave_amplitudes a b l).
Proof.
rewrite (fields_fromE f) (fields_fromE f') /= /ez_of /hz_of crel_w.
rewrite cmap_Et cmap_Ht !cD_u !cD_d !(cd_row _ crel_kx) !(cd_row _ crel_ky) !(cd_rowN _ crel_kx) -!mulmxBr !mulmxA.
by rewrite !mulNmx (c_iez rel) (c_imz rel) /fields6_map /= -!scalemxAr !mulmxN !mulmxA.
Qed.
Lemma cmap_reported a b t z :
  reported_fields l' t (T *m a) (T *m b) z = rmap (fields6_map (mulmx d)) (reported_fields l t a b z).
Proof. by rewrite /reported_fields !colocateE /= !mulmxA !cmap_phase -!mulmxA cmap_fields. Qed.
End M.
End Conjugated.

(** ** Stacks *)
Section Stacks.
Variables (n n' m : nat) (d : 'M[C]_(n', n)).
Implicit Types (k : layer n) (x : layer_amplitudes n m).

Definition cokp k (k' : layer n') := [/\ k'.2 = k.2, conjugated d k.1 k'.1, inhabited (fin_layer k.1),
  inhabited (fin_layer k'.1) & eigenvectors k'.1 \in unitmx].
Definition camp_map k (k' : layer n') x : layer_amplitudes n' m := (cmode_map d k.1 k'.1 *m x.1, cmode_map d k.1 k'.1 *m x.2).
Fixpoint camps_map (ks : seq (layer n)) (ks' : seq (layer n')) (xs : seq (layer_amplitudes n m)) := match ks, ks', xs with
  | k :: ks, k' :: ks', x :: xs => camp_map k k' x :: camps_map ks ks' xs
  | _, _, _ => [::]
  end.

Lemma cmap_interface k1 (k1' : layer n') k2 (k2' : layer n') x1 x2 : cokp k1 k1' -> cokp k2 k2' ->
  interface_matched k1 x1 k2 x2 -> interface_matched k1' (camp_map k1 k1' x1) k2' (camp_map k2 k2' x2).
Proof.
move=> [t1 r1 [f1] [f1'] v1] [t2 r2 [f2] [f2'] v2].
rewrite (interfaceE f1 f2) (interfaceE f1' f2') /=; rewrite t1 t2.
rewrite !mulmxA (cmap_phase r1 f1 f1' v1) (cmap_phase r2 f2 f2' v2) -!mulmxA.
rewrite (cmap_Et r1 f1 f1' v1) (cmap_Et r2 f2 f2' v2) (cmap_Ht _ _ v1) (cmap_Ht _ _ v2).
by case=> -> ->.
Qed.

Lemma cmap_solution ks (ks' : seq (layer n')) xs : List.Forall2 cokp ks ks' -> stack_solution ks xs ->
  stack_solution ks' (camps_map ks ks' xs) /\ size (camps_map ks ks' xs) = size xs.
Proof.
elim: ks ks' xs => [|k ks IH] ks' xs h; inversion h as [|k0 k' ks0 ks1 hk hks e1 e2]; subst; first by case: xs.
case: xs => [|x xs] //; move=> H.
have H' : stack_solution ks xs by move: H => /=; case: (ks) => [|? ?]; case: (xs) => [|? ?] //= [].
have [IH1 IH2] := IH _ xs hks H'.
rewrite /= IH2; split=> //.
case: ks ks1 xs hks H {IH h} H' IH1 IH2 => [|k2 ks] [|k2' ks1] [|x2 xs] hks //=; try by inversion hks.
move=> [H _] _ h _; split; last exact: h.
by apply: cmap_interface; [exact: hk|inversion hks; assumption|exact: H].
Qed.

Lemma cnth_amps_map k0 (k0' : layer n') x0 (x0' : layer_amplitudes n' m) ks ks' xs i : size ks = size ks' -> size xs = size ks -> (i < size ks)%N ->
  nth x0' (camps_map ks ks' xs) i = camp_map (nth k0 ks i) (nth k0' ks' i) (nth x0 xs i).
Proof.
elim: ks ks' xs i => [|k ks IH] [|k' ks'] [|x xs] //= [|i] [e1] [e2] h //=; exact: IH.
Qed.
Lemma clast_amps_map k (k' : layer n') x ks ks' xs : size ks = size ks' -> size xs = size ks ->
  last (camp_map k k' x) (camps_map ks ks' xs) = camp_map (last k ks) (last k' ks') (last x xs).
Proof.
elim: ks ks' xs k k' x => [|k1 ks IH] [|k1' ks'] [|x1 xs] //= k k' x [e1] [e2]; exact: IH.
Qed.
Lemma cmap_ends k ks (k' : layer n') ks' (a0 b0 aN bN : 'M[C]_(n + n, m)) : List.Forall2 cokp (k :: ks) (k' :: ks') ->
  stack_ends (k :: ks) a0 b0 aN bN ->
  let T0 := cmode_map d k.1 k'.1 in let TN := cmode_map d (last k ks).1 (last k' ks').1 in
  stack_ends (k' :: ks') (T0 *m a0) (T0 *m b0) (TN *m aN) (TN *m bN).
Proof.
move=> ok [x0 [xs [H e0 eN]]] T0 TN; have [H' _] := cmap_solution ok H.
have [sz] := forall2_sz ok; have [sx] := solution_size H.
exists (camp_map k k' x0), (camps_map ks ks' xs); split=> //; first by rewrite e0.
by rewrite clast_amps_map // eN.
Qed.
End Stacks.


(** ** Tiled arrays *)
Lemma tiled_sum_nat M N (f : nat -> C) (w : C) :
  \sum_(0 <= i < M * N) f (i %% N)%N * w ^+ i = (\sum_(0 <= b < M) (w ^+ N) ^+ b) * \sum_(0 <= a < N) f a * w ^+ a.
Proof.
elim: M => [|M IH]; first by rewrite mul0n big_nil [X in X * _]big_nil mul0r.
rewrite mulSnr (@big_cat_nat _ _ _ (M * N)) ?leq_addr //= IH big_nat_recr //= mulrDl; congr (_ + _).
rewrite -{1}[(M * N)%N]add0n big_addn addKn mulr_sumr big_nat_cond [RHS]big_nat_cond.
apply: eq_bigr => i /andP[/andP[_ h] _].
by rewrite addnC modnMDl modn_small // exprD -exprM [(M * N)%N]mulnC mulrCA.
Qed.
Lemma tiled_sum M N (f : 'I_N -> C) (w : C) :
  \sum_(i < M * N) f (tile_index i) * w ^+ i = (\sum_(b < M) (w ^+ N) ^+ b) * \sum_(a < N) f a * w ^+ a.
Proof.
pose g k := if insub k is Some a then f a else 0.
have e (a : 'I_N) : g (a : nat) = f a by rewrite /g valK.
under [X in _ = _ * X]eq_bigr => a _ do rewrite -e.
under [LHS]eq_bigr => i _ do rewrite -e /=.
by rewrite -(big_mkord xpredT (fun i => g (i %% N)%N * w ^+ i)) tiled_sum_nat !big_mkord.
Qed.
Lemma EN_scale M N g : (0 < M)%N -> (0 < N)%N -> E (M * N) (g * Z.of_nat N)%coqZ = E M g.
Proof.
move=> hM hN; rewrite /E; congr cexp; congr (_ * RtoC _).
have h1 : INR M <> 0%coqR by apply: not_0_INR; case: (M) hM. have h2 : INR N <> 0%coqR by apply: not_0_INR; case: (N) hN.
by rewrite mult_INR mult_IZR -INR_IZR_INZ; field.
Qed.

Lemma axis_sum M N (f : 'I_N -> C) g : (0 < M)%N -> 
  \sum_(i < M * N) f (tile_index i) * Cconj (wave (M * N) g i) =
  (if Z.eqb (g mod Z.of_nat M) 0 then RtoC (INR M) else 0) * \sum_(a < N) f a * Cconj (wave (M * N) g a).
Proof.
move=> hM; case: (posnP N) => hN.
  subst N; rewrite big1 => [|i _]; last by move: (ltn_ord i); rewrite {2}muln0.
  by rewrite big_ord0 mulr0.
have e (i : nat) : Cconj (wave (M * N) g i) = E (M * N) (- g)%coqZ ^+ i.
  by rewrite waveE -EN -E_natmul; congr E; ring.
under eq_bigr => i _ do rewrite e; under [X in _ = _ * X]eq_bigr => i _ do rewrite e.
rewrite (tiled_sum _ (fun a => f a)); congr (_ * _).
have -> : E (M * N) (- g)%coqZ ^+ N = E M (- g)%coqZ by rewrite -E_natmul Z.mul_comm EN_scale.
under eq_bigr => b _ do rewrite -E_natmul Z.mul_comm.
rewrite E_sum //; congr (if _ then _ else _).
have hM' : Z.of_nat M <> 0%coqZ by have := posZ hM; lia.
by case: Z.eqb_spec => a; case: Z.eqb_spec => // b; [case: b|case: a]; rewrite ?Z.mod_opp_l_z //; rewrite -(Z.opp_involutive g) Z.mod_opp_l_z.
Qed.
Lemma wave_scale M N g a : (0 < M)%N -> (0 < N)%N -> wave (M * N) (Z.of_nat M * g)%coqZ a = wave N g a.
Proof.
move=> hM hN; rewrite !waveE mulnC -(EN_scale _ hN hM); congr E; ring.
Qed.
Lemma fc_tile Mx My nx ny (x : 'M[C]_(nx, ny)) g : (0 < Mx)%N -> (0 < My)%N ->
  fourier_coefficient (tile Mx My x) (Z.of_nat Mx * g.1, Z.of_nat My * g.2)%coqZ = fourier_coefficient x g.
Proof.
move=> hx hy; case: (posnP nx) => px.
  subst nx; rewrite /fourier_coefficient big_ord0 big1 ?mul0r // => i _.
  by move: (ltn_ord i); rewrite {2}muln0.
case: (posnP ny) => py.
  subst ny; rewrite /fourier_coefficient big1 ?mul0r => [|i _]; last by apply: big1 => j _; move: (ltn_ord j); rewrite {2}muln0.
  by rewrite big1 ?mul0r // => i _; rewrite big_ord0.
have R1 : \sum_(a < Mx * nx) \sum_(b < My * ny) tile Mx My x a b * Cconj (wave (Mx * nx) (Z.of_nat Mx * g.1)%coqZ a * wave (My * ny) (Z.of_nat My * g.2)%coqZ b)
  = RtoC (INR Mx) * (RtoC (INR My) * \sum_(a < nx) \sum_(b < ny) x a b * Cconj (wave nx g.1 a * wave ny g.2 b)).
  transitivity (\sum_(a < Mx * nx) (RtoC (INR My) * \sum_(b < ny) x (tile_index a) b * Cconj (wave ny g.2 b)) * Cconj (wave (Mx * nx) (Z.of_nat Mx * g.1)%coqZ a)).
    apply: eq_bigr => a _.
    transitivity ((\sum_(b < My * ny) x (tile_index a) (tile_index b) * Cconj (wave (My * ny) (Z.of_nat My * g.2)%coqZ b)) * Cconj (wave (Mx * nx) (Z.of_nat Mx * g.1)%coqZ a)).
      by rewrite mulr_suml; apply: eq_bigr => b _; rewrite mxE rmorphM mulrA mulrAC.
    rewrite (axis_sum (fun b => x (tile_index a) b) _ hy) Z.mul_comm Z_mod_mult /=; congr (_ * _ * _).
    by apply: eq_bigr => b _; rewrite Z.mul_comm wave_scale.
  rewrite (axis_sum (fun a => RtoC (INR My) * \sum_(b < ny) x a b * Cconj (wave ny g.2 b)) _ hx) Z.mul_comm Z_mod_mult /=; congr (_ * _).
  rewrite mulr_sumr; apply: eq_bigr => a _; rewrite Z.mul_comm wave_scale // -mulrA mulr_suml; congr (_ * _).
  by apply: eq_bigr => b _; rewrite rmorphM mulrA mulrAC.
rewrite /fourier_coefficient /= R1 !mult_INR.
have nz k : (0 < k)%N -> INR k <> 0%coqR by move=> h; apply: not_0_INR; case: k h.
have h1 := nz _ hx; have h2 := nz _ hy; have h3 := nz _ px; have h4 := nz _ py.
have rn r : r <> 0%coqR -> RtoC r != 0 by move=> h; apply: RtoC_neq0.
have -> : RtoC (INR Mx * INR nx * (INR My * INR ny))%coqR = RtoC (INR Mx) * (RtoC (INR My) * RtoC (INR nx * INR ny)%coqR).
  by Creim; ring.
by rewrite !invfM mulrACA mulfV ?rn // mul1r mulrACA mulfV ?rn // mul1r.
Qed.
Lemma fc_tile0 Mx My nx ny (x : 'M[C]_(nx, ny)) g : (0 < Mx)%N -> (0 < My)%N ->
  ~ (g.1 mod Z.of_nat Mx = 0 /\ g.2 mod Z.of_nat My = 0)%coqZ -> fourier_coefficient (tile Mx My x) g = 0.
Proof.
move=> hx hy h; rewrite /fourier_coefficient; apply/eqP; rewrite mulf_eq0; apply/orP; left; apply/eqP.
transitivity (\sum_(a < Mx * nx) ((if Z.eqb (g.2 mod Z.of_nat My) 0 then RtoC (INR My) else 0) *
   \sum_(b < ny) x (tile_index a) b * Cconj (wave (My * ny) g.2 b)) * Cconj (wave (Mx * nx) g.1 a)).
  apply: eq_bigr => a _.
  transitivity ((\sum_(b < My * ny) x (tile_index a) (tile_index b) * Cconj (wave (My * ny) g.2 b)) * Cconj (wave (Mx * nx) g.1 a)).
    by rewrite mulr_suml; apply: eq_bigr => b _; rewrite mxE rmorphM mulrA mulrAC.
  by rewrite (axis_sum (fun b => x (tile_index a) b) _ hy).
rewrite (axis_sum (fun a => (if Z.eqb (g.2 mod Z.of_nat My) 0 then RtoC (INR My) else 0) * \sum_(b < ny) x a b * Cconj (wave (My * ny) g.2 b)) _ hx).
case: Z.eqb_spec => e1; last by rewrite mul0r.
case: Z.eqb_spec => e2; first by case: h.
by rewrite big1 ?mulr0 // => a _; rewrite mul0r mul0r.
Qed.
Definition tile22 Mx My nx ny (g : grid22 nx ny) := Grid22 (tile Mx My (g00 g)) (tile Mx My (g01 g)) (tile Mx My (g10 g)) (tile Mx My (g11 g)).
Lemma solve22_tile Mx My nx ny (t a u : grid22 nx ny) u' : solve22 t a = Val u -> solve22 (tile22 Mx My t) (tile22 Mx My a) = Val u' ->
  u' = tile22 Mx My u.
Proof.
rewrite /solve22; case: ifP => // _ [<-]; case: ifP => // _ [<-].
have e (g : grid22 nx ny) i j : at22 (tile22 Mx My g) i j = at22 g (tile_index i) (tile_index j) by rewrite /at22 /= !mxE.
by rewrite /tile22; congr Grid22; apply/matrixP=> i j; rewrite !mxE !e.
Qed.
Section Tile.
Variables (Mx My nx ny : nat).
Implicit Types (x y z w : 'M[C]_(nx, ny)).
Notation tl := (tile Mx My).
Lemma tile_map (g : C -> C) x : tl (map_mx g x) = map_mx g (tl x).
Proof. by apply/matrixP=> i j; rewrite !mxE. Qed.
Lemma tile_opp x : tl (- x) = - tl x.
Proof. by apply/matrixP=> i j; rewrite !mxE. Qed.
Lemma tile_add x y : tl (x + y) = tl x + tl y.
Proof. by apply/matrixP=> i j; rewrite !mxE. Qed.
Lemma tile_const c : tl (const_mx c : 'M[C]_(nx, ny)) = const_mx c.
Proof. by apply/matrixP=> i j; rewrite !mxE. Qed.
Lemma tile_fun2 (g : C -> C -> C) x y : tl (\matrix_(i, j) g (x i j) (y i j)) = \matrix_(i, j) g (tl x i j) (tl y i j).
Proof. by apply/matrixP=> i j; rewrite !mxE. Qed.
Lemma tile_fun4 (g : C -> C -> C -> C -> C) x y z w :
  tl (\matrix_(i, j) g (x i j) (y i j) (z i j) (w i j)) = \matrix_(i, j) g (tl x i j) (tl y i j) (tl z i j) (tl w i j).
Proof. by apply/matrixP=> i j; rewrite !mxE. Qed.
End Tile.

(** The matrix that puts the coefficients of the unit cell at their positions. *)
Definition dmx n n' (c : supercell n n') : 'M[C]_(n', n) := \matrix_(k, i) (k == sc_pos c i)%:R.
Section Grid.
Variables (n n' : nat) (sc : supercell n n') (expn : n.-tuple (Z * Z)) (expn' : n'.-tuple (Z * Z)).
Hypothesis (hexp : cell_orders sc expn expn').
Notation d := (dmx sc).
Notation D := (dd d).
Variables (nx ny : nat).
Notation gx := (sc_x sc * nx)%N.
Notation gy := (sc_y sc * ny)%N.
Definition cl_mv (x : 'M[C]_(nx, ny)) (x' : 'M[C]_(gx, gy)) := x' = tile (sc_x sc) (sc_y sc) x.
Lemma cl_conv_moved x x' T T' : cl_mv x x' -> fourier_convolution_matrix x expn = Val T ->
  fourier_convolution_matrix x' expn' = Val T' -> T' *m d = d *m T.
Proof.
have [[px py] inj he hk] := hexp.
move=> -> /conv_entry -> /conv_entry ->; apply/matrixP=> k i; rewrite !mxE.
rewrite (bigD1 (sc_pos sc i)) //= !mxE eqxx mulr1 big1 ?addr0 => [|j /negbTE h]; last by rewrite !mxE h mulr0.
case: (boolP [exists j, k == sc_pos sc j]) => [/existsP [j /eqP ->]|h].
  rewrite (bigD1 j) //= !mxE eqxx mul1r big1 ?addr0 => [|j' h']; last by rewrite !mxE inj_eq // eq_sym (negbTE h') mul0r.
  rewrite /standard_toeplitz_index !he -(fc_tile x _ px py); congr fourier_coefficient.
  by rewrite /cell_order /=; congr (_, _); ring.
rewrite big1 => [|j _]; last first.
  rewrite !mxE; case: eqP => [e|]; last by rewrite mul0r.
  by case/existsP: h; exists j; apply/eqP.
apply: fc_tile0 => // -[]; rewrite /standard_toeplitz_index !he /cell_order /=.
case e : (tnth expn' k) => [a b] /= => h1 h2.
have hX : Z.of_nat (sc_x sc) <> 0%coqZ by have := posZ px; lia.
have hY : Z.of_nat (sc_y sc) <> 0%coqZ by have := posZ py; lia.
have /Z.mod_divide [//|u hu] := h1; have /Z.mod_divide [//|v hv] := h2.
case/existsP: h; have [] := hk k (u + (tnth expn i).1, v + (tnth expn i).2)%coqZ.
  by rewrite e /cell_order /=; congr (_, _); lia.
by move=> j ->; exists j.
Qed.
Definition cl_cj (A : 'M[C]_n) (A' : 'M[C]_n') := A' *m d = d *m A.
Definition cl_CJ (A : 'M[C]_(n + n)) (A' : 'M[C]_(n' + n')) := A' *m D = D *m A.
Lemma cl_cj_block a b c e a' b' c' e' : cl_cj a a' -> cl_cj b b' -> cl_cj c c' -> cl_cj e e' ->
  cl_CJ (block_mx a b c e) (block_mx a' b' c' e').
Proof.
rewrite /cl_cj /cl_CJ /dd !mulmx_block !mulmx0 !mul0mx !addr0 !add0r => -> -> -> -> //.
Qed.
Lemma cl_cj0 : cl_cj 0 0. Proof. by rewrite /cl_cj mul0mx mulmx0. Qed.
Lemma cl_cj_scalar c : cl_cj (diag (const_mx c)) (diag (const_mx c)).
Proof. by rewrite /cl_cj !diag_const_mx mul_scalar_mx mul_mx_scalar. Qed.
Lemma cl_cj_sub A A' B B' : cl_cj A A' -> cl_cj B B' -> cl_cj (A - B) (A' - B').
Proof. by rewrite /cl_cj mulmxBl mulmxBr => -> ->. Qed.
Lemma cl_CJ_sub A A' B B' : cl_CJ A A' -> cl_CJ B B' -> cl_CJ (A - B) (A' - B').
Proof. by rewrite /cl_CJ mulmxBl mulmxBr => -> ->. Qed.
Lemma cl_CJ_mul A A' B B' : cl_CJ A A' -> cl_CJ B B' -> cl_CJ (A *m B) (A' *m B').
Proof. by rewrite /cl_CJ -mulmxA => h ->; rewrite !mulmxA h. Qed.
Lemma cl_cj_inv A A' X X' : cl_cj A A' -> inv A = Val X -> inv A' = Val X' -> cl_cj X X'.
Proof. move=> h /invV [u ->] /invV [u' ->]; exact: cinv_conj. Qed.

(** ** Pointwise functions of tiled patterns *)
Lemma cl_mv_map (g : C -> C) x x' : cl_mv x x' -> cl_mv (map_mx g x) (map_mx g x').
Proof. by move=> ->; rewrite /cl_mv tile_map. Qed.
Lemma cl_mv_opp x x' : cl_mv x x' -> cl_mv (- x) (- x').
Proof. by move=> ->; rewrite /cl_mv tile_opp. Qed.
Lemma cl_mv_const c : cl_mv (const_mx c) (const_mx c).
Proof. by rewrite /cl_mv tile_const. Qed.
Lemma cl_mv_recip x x' y y' : cl_mv x x' -> recipM x = Val y -> recipM x' = Val y' -> cl_mv y y'.
Proof. by move=> h /recipMV [_ ->] /recipMV [_ ->]; exact: cl_mv_map. Qed.
Lemma cl_mv_fun2 (g : C -> C -> C) x x' y y' : cl_mv x x' -> cl_mv y y' ->
  cl_mv (\matrix_(i, j) g (x i j) (y i j)) (\matrix_(i, j) g (x' i j) (y' i j)).
Proof. by move=> -> ->; rewrite /cl_mv tile_fun2. Qed.
Definition cl_mv22 (g : grid22 nx ny) (g' : grid22 gx gy) :=
  [/\ cl_mv (g00 g) (g00 g'), cl_mv (g01 g) (g01 g'), cl_mv (g10 g) (g10 g') & cl_mv (g11 g) (g11 g')].
Lemma cl_mv22E g g' : cl_mv22 g g' -> g' = tile22 (sc_x sc) (sc_y sc) g.
Proof. by case: g' => a b c e [/= -> -> -> ->]. Qed.
Lemma cl_solve22_mv t t' a a' u u' : cl_mv22 t t' -> cl_mv22 a a' -> solve22 t a = Val u -> solve22 t' a' = Val u' -> cl_mv22 u u'.
Proof. by move=> /cl_mv22E -> /cl_mv22E -> h h'; rewrite (solve22_tile h h'). Qed.

(** ** Transverse matrices *)
Lemma cl_fft_mv x x' T T' : cl_mv x x' -> transverse_permittivity_fft x expn = Val T ->
  transverse_permittivity_fft x' expn' = Val T' -> cl_CJ T T'.
Proof.
rewrite /transverse_permittivity_fft => h H H'; binv H a ha; binv H' a' ha'; case: H => <-; case: H' => <-.
by apply: cl_cj_block; try exact: cl_cj0; exact: cl_conv_moved h ha ha'.
Qed.
Lemma cl_vector_mv x x' tx tx' ty ty' T T' : cl_mv x x' -> cl_mv tx tx' -> cl_mv ty ty' ->
  transverse_permittivity_vector x tx ty expn = Val T ->
  transverse_permittivity_vector x' tx' ty' expn' = Val T' -> cl_CJ T T'.
Proof.
rewrite /transverse_permittivity_vector => h hx' hy' H H'.
binv H a ha; binv H b hb; binv H c hc; binv H e he; binv H p1 h1; binv H p2 h2; binv H p3 h3; binv H p4 h4; case: H => <-.
binv H' a' ha'; binv H' b' hb'; binv H' c' hc'; binv H' e' he'; binv H' q1 h1'; binv H' q2 h2'; binv H' q3 h3'; binv H' q4 h4'; case: H' => <-.
have ca := cl_conv_moved h ha ha'; have cc := cl_conv_moved (cl_mv_recip h hb hb') hc hc'.
have ce := cl_cj_inv cc he he'; have cde := cl_cj_sub ca ce.
apply: cl_CJ_sub; first by apply: cl_cj_block; try exact: cl_cj0; exact: ca.
apply: cl_CJ_mul; first by apply: cl_cj_block; try exact: cl_cj0; exact: cde.
apply: cl_cj_block.
- exact: cl_conv_moved (cl_mv_fun2 (fun u v => (tangent_terms u v).2) hx' hy') h1 h1'.
- exact: cl_conv_moved (cl_mv_fun2 (fun u v => (tangent_terms u v).1.2) hx' hy') h2 h2'.
- exact: cl_conv_moved (cl_mv_fun2 (fun u v => (tangent_terms u v).1.1.2) hx' hy') h3 h3'.
- exact: cl_conv_moved (cl_mv_fun2 (fun u v => (tangent_terms u v).1.1.1) hx' hy') h4 h4'.
Qed.
Lemma cl_fft_eps_mv (t : tensor 'M[C]_(nx, ny)) (t' : tensor 'M[C]_(gx, gy)) T T' :
  cl_mv (t_xx t) (t_xx t') -> cl_mv (t_xy t) (t_xy t') -> cl_mv (t_yx t) (t_yx t') -> cl_mv (t_yy t) (t_yy t') ->
  transverse_permittivity_fft_anisotropic (t_xx t) (t_xy t) (t_yx t) (t_yy t) expn = Val T ->
  transverse_permittivity_fft_anisotropic (t_xx t') (t_xy t') (t_yx t') (t_yy t') expn' = Val T' -> cl_CJ T T'.
Proof.
rewrite /transverse_permittivity_fft_anisotropic => h1 h2 h3 h4 H H'.
binv H a ha; binv H b hb; binv H c hc; binv H e he; case: H => <-.
binv H' a' ha'; binv H' b' hb'; binv H' c' hc'; binv H' e' he'; case: H' => <-.
apply: cl_cj_block; [exact: cl_conv_moved h4 ha ha'|exact: cl_conv_moved (cl_mv_opp h3) hb hb'|exact: cl_conv_moved (cl_mv_opp h2) hc hc'|exact: cl_conv_moved h1 he he'].
Qed.
Lemma cl_fft_mu_mv (t : tensor 'M[C]_(nx, ny)) (t' : tensor 'M[C]_(gx, gy)) T T' :
  cl_mv (t_xx t) (t_xx t') -> cl_mv (t_xy t) (t_xy t') -> cl_mv (t_yx t) (t_yx t') -> cl_mv (t_yy t) (t_yy t') ->
  transverse_permeability_fft_anisotropic (t_xx t) (t_xy t) (t_yx t) (t_yy t) expn = Val T ->
  transverse_permeability_fft_anisotropic (t_xx t') (t_xy t') (t_yx t') (t_yy t') expn' = Val T' -> cl_CJ T T'.
Proof.
rewrite /transverse_permeability_fft_anisotropic => h1 h2 h3 h4 H H'.
binv H a ha; binv H b hb; binv H c hc; binv H e he; case: H => <-.
binv H' a' ha'; binv H' b' hb'; binv H' c' hc'; binv H' e' he'; case: H' => <-.
apply: cl_cj_block; [exact: cl_conv_moved h1 ha ha'|exact: cl_conv_moved h2 hb hb'|exact: cl_conv_moved h3 hc hc'|exact: cl_conv_moved h4 he he'].
Qed.
Lemma cl_mv_fun4 (g : C -> C -> C -> C -> C) x x' y y' z z' w w' : cl_mv x x' -> cl_mv y y' -> cl_mv z z' -> cl_mv w w' ->
  cl_mv (\matrix_(i, j) g (x i j) (y i j) (z i j) (w i j)) (\matrix_(i, j) g (x' i j) (y' i j) (z' i j) (w' i j)).
Proof. by move=> -> -> -> ->; rewrite /cl_mv tile_fun4. Qed.
Lemma cl_rotation_mv a a' b b' c c' e e' r r' : cl_mv a a' -> cl_mv b b' -> cl_mv c c' -> cl_mv e e' ->
  rotation_matrices a b c e expn = Val r -> rotation_matrices a' b' c' e' expn' = Val r' ->
  [/\ cl_mv22 r.1.1 r'.1.1, cl_CJ r.1.2 r'.1.2 & cl_CJ r.2 r'.2].
Proof.
rewrite /rotation_matrices => ha hb hc he H H'.
binv H f1 h1; binv H f2 h2; binv H f3 h3; binv H f4 h4; binv H i1 h5; binv H i2 h6; binv H i3 h7; binv H i4 h8; case: H => <-.
binv H' f1' h1'; binv H' f2' h2'; binv H' f3' h3'; binv H' f4' h4'; binv H' i1' h5'; binv H' i2' h6'; binv H' i3' h7'; binv H' i4' h8'; case: H' => <-.
pose den (x y z w : C) := RtoC (if isclose0 (Cmod (x * w - z * y)) then 1%coqR else Cmod (x * w - z * y)).
split=> /=; first by split.
- apply: cl_cj_block; [exact: cl_conv_moved ha h1 h1'|exact: cl_conv_moved hb h2 h2'|exact: cl_conv_moved hc h3 h3'|exact: cl_conv_moved he h4 h4'].
- apply: cl_cj_block.
  + exact: cl_conv_moved (cl_mv_fun4 (fun x y z w : C => w / den x y z w) ha hb hc he) h5 h5'.
  + exact: cl_conv_moved (cl_mv_fun4 (fun x y z w : C => - y / den x y z w) ha hb hc he) h6 h6'.
  + exact: cl_conv_moved (cl_mv_fun4 (fun x y z w : C => - z / den x y z w) ha hb hc he) h7 h7'.
  + exact: cl_conv_moved (cl_mv_fun4 (fun x y z w : C => x / den x y z w) ha hb hc he) h8 h8'.
Qed.
Lemma cl_rotated_mv g g' r r' T T' : cl_mv22 g g' -> [/\ cl_mv22 r.1.1 r'.1.1, cl_CJ r.1.2 r'.1.2 & cl_CJ r.2 r'.2] ->
  rotated_fourier_matrix g r expn = Val T -> rotated_fourier_matrix g' r' expn' = Val T' -> cl_CJ T T'.
Proof.
rewrite /rotated_fourier_matrix => hg [hr1 hr2 hr3] H H'.
binv H s hs; binv H a ha; binv H b hb; binv H c hc; binv H u hu; binv H v hv; binv H e he; case: H => <-.
binv H' s' hs'; binv H' a' ha'; binv H' b' hb'; binv H' c' hc'; binv H' u' hu'; binv H' v' hv'; binv H' e' he'; case: H' => <-.
have [s1 s2 s3 s4] := cl_solve22_mv hr1 hg hs hs'.
apply: cl_CJ_mul hr3; apply: cl_CJ_mul hr2 _; apply: cl_cj_block.
- exact: cl_conv_moved s1 ha ha'.
- exact: cl_conv_moved s2 hb hb'.
- exact: cl_conv_moved s3 hc hc'.
- exact: cl_cj_inv (cl_conv_moved (cl_mv_recip s4 hu hu') hv hv') he he'.
Qed.
Lemma cl_vector_eps_mv (t : tensor 'M[C]_(nx, ny)) (t' : tensor 'M[C]_(gx, gy)) tx tx' ty ty' T T' :
  cl_mv (t_xx t) (t_xx t') -> cl_mv (t_xy t) (t_xy t') -> cl_mv (t_yx t) (t_yx t') -> cl_mv (t_yy t) (t_yy t') ->
  cl_mv tx tx' -> cl_mv ty ty' ->
  transverse_permittivity_vector_anisotropic (t_xx t) (t_xy t) (t_yx t) (t_yy t) tx ty expn = Val T ->
  transverse_permittivity_vector_anisotropic (t_xx t') (t_xy t') (t_yx t') (t_yy t') tx' ty' expn' = Val T' -> cl_CJ T T'.
Proof.
rewrite /transverse_permittivity_vector_anisotropic => h1 h2 h3 h4 h5 h6 H H'; binv H r hr; binv H' r' hr'.
apply: cl_rotated_mv H H'; first by split=> //; exact: cl_mv_opp.
by apply: cl_rotation_mv hr hr' => //; [exact: cl_mv_map|exact: cl_mv_opp|exact: cl_mv_map].
Qed.
Lemma cl_vector_mu_mv (t : tensor 'M[C]_(nx, ny)) (t' : tensor 'M[C]_(gx, gy)) tx tx' ty ty' T T' :
  cl_mv (t_xx t) (t_xx t') -> cl_mv (t_xy t) (t_xy t') -> cl_mv (t_yx t) (t_yx t') -> cl_mv (t_yy t) (t_yy t') ->
  cl_mv tx tx' -> cl_mv ty ty' ->
  transverse_permeability_vector_anisotropic (t_xx t) (t_xy t) (t_yx t) (t_yy t) tx ty expn = Val T ->
  transverse_permeability_vector_anisotropic (t_xx t') (t_xy t') (t_yx t') (t_yy t') tx' ty' expn' = Val T' -> cl_CJ T T'.
Proof.
rewrite /transverse_permeability_vector_anisotropic => h1 h2 h3 h4 h5 h6 H H'; binv H r hr; binv H' r' hr'.
apply: cl_rotated_mv H H'; first by split.
by apply: cl_rotation_mv hr hr' => //; [apply: cl_mv_opp; exact: cl_mv_map|exact: cl_mv_map].
Qed.
End Grid.

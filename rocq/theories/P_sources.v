(** C10, C21, C43: sources and incident fields. *)
From Coq Require Import Reals ZArith Lra Lia Classical.
From mathcomp Require Import all_ssreflect all_algebra.
From Verif Require Import CField Err LinAlg M_utils M_basis M_fft M_fmm_matrices M_fmm M_scattering M_fields M_sources S_stack S_maxwell S_fft S_fields S_basis S_sources L_scattering L_stack L_fft L_fields L_basis L_sources L_example P_scattering P_maxwell P_fmm P_fields P_basis.
Set Implicit Arguments. Unset Strict Implicit. Unset Printing Implicit Defensive.
Import GRing.Theory.
Local Open Scope ring_scope.

(** ** C10 *)
(** The returned amplitudes are those, and the only ones, of fields that are continuous within
    both stacks, outgoing at their ends, and jump at the source by the given current. *)
Theorem C10_source_amplitudes n m (wl : R) (ls1 ls2 : seq (layer_solve_result n)) ts1 ts2 before after d
    kx ky (jx jy jz : 'M[C]_(n, m)) x :
  stack_s_matrix ls1 ts1 = Val before -> stack_s_matrix ls2 ts2 = Val after ->
  same_wavelength wl (ls1 ++ ls2) -> finite_fields (ls1 ++ ls2) ->
  let l := (last d (zip ls1 ts1)).1 in
  transverse_wavevectors (in_plane_wavevector l) (primitive_lattice_vectors l) (expansion l) = Val (kx, ky) ->
  amplitudes_for_source jx jy jz before after = Val x ->
  forall y,
  radiates (2 * PI / wl)%coqR kx ky (inverse_z_permittivity_matrix l) jx jy jz
    (zip ls1 ts1) (zip ls2 ts2) d y <-> y = x.
Proof.
move=> H1 H2 hw hf l hk /amplitudes_for_sourceE [pol [M [[hM u hp] [e [e1 e2 e3 e4]]]]] y.
have E z := @radiatesE n m wl ls1 ls2 ts1 ts2 before after d kx ky jx jy jz pol M z H1 H2 hw hf hk hM hp.
rewrite E; split=> [[g [g1 g2 g3 g4]]|->]; last by split.
have := can_inj (mulKmx u) (etrans e (esym g)); rewrite -[_ = col_mx _ _]/(_ = _) => /eq_col_mx [h1 h2].
case: x y e e1 e2 e3 e4 g g1 g2 g3 g4 h1 h2 => [x1 x2 x3 x4 x5 x6] [y1 y2 y3 y4 y5 y6] /=.
by move=> _ -> -> -> -> _ -> -> -> -> -> ->.
Qed.
Print Assumptions C10_source_amplitudes.

(** They are finite unless the two stacks have a resonance: a nonzero outgoing field
    without current. *)
Theorem C10_finite n m (wl : R) (ls1 ls2 : seq (layer_solve_result n)) ts1 ts2 before after d
    kx ky (jx jy jz : 'M[C]_(n, m)) :
  stack_s_matrix ls1 ts1 = Val before -> stack_s_matrix ls2 ts2 = Val after ->
  same_wavelength wl (ls1 ++ ls2) -> finite_fields (ls1 ++ ls2) ->
  let l := (last d (zip ls1 ts1)).1 in
  transverse_wavevectors (in_plane_wavevector l) (primitive_lattice_vectors l) (expansion l) = Val (kx, ky) ->
  (forall y : source_amplitudes n 1,
     radiates (2 * PI / wl)%coqR kx ky (inverse_z_permittivity_matrix l) 0 0 0
       (zip ls1 ts1) (zip ls2 ts2) d y ->
     bwd_amplitude_before_end y = 0 /\ fwd_amplitude_after_start y = 0) ->
  exists x, amplitudes_for_source jx jy jz before after = Val x.
Proof.
move=> H1 H2 hw hf l hk hres.
have ok1 : allp (okl wl) (zip ls1 ts1).
  by apply: okls => k hl; [apply: hw|apply: hf]; apply: List.in_or_app; left.
have ok2 : allp (okl wl) (zip ls2 ts2).
  by apply: okls => k hl; [apply: hw|apply: hf]; apply: List.in_or_app; right.
have [_ _ [_ _ he ne1]] := stack_s_matrixP H1 ok1.
have [_ _ [_ hs _ ne2]] := stack_s_matrixP H2 ok2.
have hl : okl wl (last d (zip ls1 ts1)).
  by case: (zip ls1 ts1) ok1 ne1 => // x s hx _; exact: allp_last hx.
have hh : okl wl (head d (zip ls2 ts2)) by case: (zip ls2 ts2) ok2 ne2 => // x s [].
rewrite /l -he in hk hres; rewrite -he in hl; rewrite -hs in hh.
case: hl => wl1 [f]; case: hh => wl2 [f']; rewrite /= in f f' hk hres.
have [M hM] := emission_total f f'.
have [pol0 hp0] : exists p, polarization_terms (0 : 'cV[C]_n) 0 0 (end_layer_solve_result before) = Val p.
  by rewrite /polarization_terms hk /=; eexists.
have p0 : pol0 = 0.
  by move: hp0; rewrite /polarization_terms hk /= !mulmx0 !oppr0 !col_mx0 => -[].
have u : M \in unitmx.
  rewrite -unitmx_tr -row_free_unit -kermx_eq0; apply/eqP/row_matrixP => i; rewrite row0.
  set v := row i _; have vM : v *m M^T = 0 by apply/sub_kermxP; exact: row_sub.
  have Mv : M *m v^T = 0 by apply: trmx_inj; rewrite trmx_mul trmxK trmx0.
  pose a' := usubmx v^T; pose b := dsubmx v^T.
  pose y := SourceAmplitudes (s22 before *m b) (s12 before *m b) b a' (s21 after *m a') (s11 after *m a').
  have E := @radiatesE n 1 wl ls1 ls2 ts1 ts2 before after d kx ky 0 0 0 pol0 M y H1 H2 hw hf.
  rewrite /= -he /= in E; have {E} := E hk hM hp0.
  have C : M *m col_mx a' b = pol0 by rewrite /a' /b vsubmxK Mv p0.
  case=> _ /(_ (conj C (And4 erefl erefl erefl erefl))) /hres /= [hb ha].
  by apply: trmx_inj; rewrite trmx0 -[v^T]vsubmxK -/a' -/b hb ha col_mx0.
rewrite /amplitudes_for_source.
rewrite {1}/polarization_terms hk /= hM /= /solve u.
by eexists.
Qed.
Print Assumptions C10_finite.

(** With [stack_amplitudes_interior_with_source], the amplitudes of every layer. *)
Theorem C10_every_layer n m (wl : R) (ls1 ls2 : seq (layer_solve_result n)) ts1 ts2 before after d
    kx ky (jx jy jz : 'M[C]_(n, m)) x ss1 ss2 xs :
  stack_s_matrix ls1 ts1 = Val before -> stack_s_matrix ls2 ts2 = Val after ->
  same_wavelength wl (ls1 ++ ls2) -> finite_fields (ls1 ++ ls2) ->
  let l := (last d (zip ls1 ts1)).1 in
  transverse_wavevectors (in_plane_wavevector l) (primitive_lattice_vectors l) (expansion l) = Val (kx, ky) ->
  amplitudes_for_source jx jy jz before after = Val x ->
  stack_s_matrices_interior ls1 ts1 = Val ss1 -> stack_s_matrices_interior ls2 ts2 = Val ss2 ->
  stack_amplitudes_interior_with_source ss1 ss2
    (bwd_amplitude_before_end x) (fwd_amplitude_after_start x) = Val xs ->
  exists x0 xs1 x1 xs2, xs = (x0 :: xs1) ++ (x1 :: xs2) /\
    [/\ stack_solution (zip ls1 ts1) (x0 :: xs1), stack_solution (zip ls2 ts2) (x1 :: xs2),
        x0 = (0, bwd_amplitude_0_end x), last x1 xs2 = (fwd_amplitude_N_start x, 0) &
        exists F F',
        [/\ tangential_fields (last d (zip ls1 ts1)) (last d (zip ls1 ts1)).2 (last x0 xs1) = Val F,
            tangential_fields (head d (zip ls2 ts2)) 0%coqR x1 = Val F' &
            current_sheet (2 * PI / wl)%coqR kx ky (inverse_z_permittivity_matrix l) jx jy jz F F']].
Proof.
move=> H1 H2 hw hf l hk hx hs1 hs2 hi.
have [_ r] := C10_source_amplitudes H1 H2 hw hf hk hx x.
have [r1 r2 r3] := r erefl.
have [x0 [xs1 [x1 [xs2 [e [sol1 sol2] [i1 i2] [i3 i4]]]]]] := C09_interior_amplitudes_with_source hs1 hs2 hi hw hf.
have hw1 : same_wavelength wl ls1 by move=> k hl; apply: hw; apply: List.in_or_app; left.
have hf1 : finite_fields ls1 by move=> k hl; apply: hf; apply: List.in_or_app; left.
have hw2 : same_wavelength wl ls2 by move=> k hl; apply: hw; apply: List.in_or_app; right.
have hf2 : finite_fields ls2 by move=> k hl; apply: hf; apply: List.in_or_app; right.
have [_ rel1 _ _] := C01_stack_s_matrix_is_field_continuity H1 hw1 hf1.
have [_ rel2 _ _] := C01_stack_s_matrix_is_field_continuity H2 hw2 hf2.
have g1 : scatters before 0 x0.2 (last x0 xs1).1 (bwd_amplitude_before_end x).
  apply/rel1; exists x0, xs1; split; [exact: sol1|by rewrite -i1 -surjective_pairing|].
  by rewrite -i2 -surjective_pairing.
have g2 : scatters after (fwd_amplitude_after_start x) x1.2 (last x1 xs2).1 0.
  apply/rel2; exists x1, xs2; split; [exact: sol2|by rewrite -i3 -surjective_pairing|].
  by rewrite -i4 -surjective_pairing.
move/rel1: r1 => r1; move/rel2: r2 => r2.
case: g1 => g1 g1'; case: r1; rewrite -{}g1 -{}g1' => ea eb.
case: g2 => g2 g2'; case: r2; rewrite -{}g2 -{}g2' => ea' eb'.
have hx0 : x0 = (0, bwd_amplitude_0_end x) by rewrite eb -i1 -surjective_pairing.
have hxl : last x0 xs1 = (fwd_amplitude_before_start x, bwd_amplitude_before_end x).
  by rewrite ea -i2 -surjective_pairing.
have hx1 : x1 = (fwd_amplitude_after_start x, bwd_amplitude_after_end x).
  by rewrite eb' -i3 -surjective_pairing.
have hxN : last x1 xs2 = (fwd_amplitude_N_start x, 0) by rewrite ea' -i4 -surjective_pairing.
exists x0, xs1, x1, xs2; split; first exact: e.
by split; [exact: sol1|exact: sol2|exact: hx0|exact: hxN|rewrite hxl hx1; exact: r3].
Qed.
Print Assumptions C10_every_layer.

(** Witness: a source between a coated half space and air. *)
Lemma ex_emission : emission_matrix ex_pair (identity_s_matrix (ex_layer 1) PI) =
  Val (block_mx 1%:M (RtoC (1 / 3)%coqR)%:M 1%:M (RtoC (- 4 / 3)%coqR)%:M).
Proof.
rewrite /emission_matrix /= !ex_omega; [|by lra|by lra].
have r2 : recip (const_mx (RtoC 2) : 'rV[C]_(1 + 1)) = Val (const_mx (RtoC (1 / 2)%coqR)).
  rewrite /recip ifT; last by apply/forallP=> i; rewrite mxE; apply: RtoC_neq0; lra.
  by congr Val; apply/matrixP=> i j; rewrite !mxE; apply: sc_inv; scal.
have r1 : recip (const_mx (RtoC 1) : 'rV[C]_(1 + 1)) = Val (const_mx 1).
  rewrite /recip ifT; last by apply/forallP=> i; rewrite mxE; apply: RtoC_neq0; lra.
  by congr Val; apply/matrixP=> i j; rewrite !mxE invr1.
rewrite /= r1 /= r2 /= !mulmx0 !subr0 !addr0 !diag_scalar !mul1mx !mulNmx !mul1mx.
have p2 := phase_ex 2 (PI / 4); rewrite /= in p2; rewrite p2 ph2 -!scalar_mxM.
have e : Ci * (- RtoC (1 / 3)%coqR * Ci) = RtoC (1 / 3)%coqR by scal.
rewrite e; congr (Val (block_mx _ _ _ _)).
  by rewrite -raddfB -scalar_mxM; congr scalar_mx; scal.
by rewrite -raddfD -raddfN; congr scalar_mx; scal.
Qed.
Example C10_witness m (jx jy jz : 'M[C]_(1, m)) :
  stack_s_matrix [:: ex_layer 1; ex_layer 2] [:: PI; (PI / 4)%coqR] = Val ex_pair /\
  stack_s_matrix [:: ex_layer 1] [:: PI] = Val (identity_s_matrix (ex_layer 1) PI) /\
  same_wavelength ex_wl ([:: ex_layer 1; ex_layer 2] ++ [:: ex_layer 1]) /\
  finite_fields ([:: ex_layer 1; ex_layer 2] ++ [:: ex_layer 1]) /\
  transverse_wavevectors (0, 0)%coqR sq_lattice ex_expn = Val (0, 0) /\
  exists x, amplitudes_for_source jx jy jz ex_pair (identity_s_matrix (ex_layer 1) PI) = Val x.
Proof.
split; first by rewrite /stack_s_matrix /stack_s_matrices /= pair_extend ex_pairE.
split; first by [].
split; first exact: ex_hyps.1. split; first exact: ex_hyps.2.
split; first exact: ex_k.
rewrite /amplitudes_for_source {1}/polarization_terms ex_k /= ex_emission /= /solve ifT; first by eexists.
pose N : 'M[C]_((1 + 1) + (1 + 1)) := block_mx (RtoC (4 / 5)%coqR)%:M (RtoC (1 / 5)%coqR)%:M
  (RtoC (3 / 5)%coqR)%:M (RtoC (- 3 / 5)%coqR)%:M.
suff h : block_mx 1%:M (RtoC (1 / 3)%coqR)%:M 1%:M (RtoC (- 4 / 3)%coqR)%:M *m N = 1%:M.
  by case/mulmx1_unit: h.
rewrite /N mulmx_block !mul1mx -!scalar_mxM -!raddfD [RHS]scalar_mx_block.
have z : (0 : 'M[C]_(1 + 1)) = 0%:M by rewrite raddf0.
by rewrite z; congr block_mx; congr scalar_mx; scal.
Qed.

(** ** C21 *)
Lemma grid_valid n m (f : fields6 'M[C]_(n, m)) (l : layer_solve_result n) shape nuc r :
  fields_on_grid f l shape nuc = Val r -> n <> 0%N /\ resolves shape.1 shape.2 (expansion l).
Proof.
rewrite /fields_on_grid => H; binv H g hg; move: hg; rewrite /fields6_mapM.
case: (validateE shape.1 shape.2 (expansion l)); rewrite -surjective_pairing => e; rewrite e // => _.
by apply/validateP; rewrite -surjective_pairing.
Qed.

Lemma conversion_fields n m (l : layer_solve_result n) M (a b : 'M[C]_(n + n, m)) f :
  field_conversion_matrix l = Val M -> fields_from_wave_amplitudes a b l = Val f ->
  M *m col_mx a b = col_mx (col_mx (- f_ey f) (f_ex f)) (col_mx (f_hx f) (f_hy f)).
Proof.
move=> hM; have [g] := fin_layerP hM; rewrite (fields_fromE g) => -[<-] /=.
move: hM; rewrite (field_conversionE g) => -[<-].
by rewrite mul_block_col mulNmx -mulmxBr -mulmxDr opprK !vsubmxK.
Qed.

Section RoundTrip.
Variables (n m n1 n2 : nat) (plv : lattice) (expn : n.-tuple (Z * Z)) (cell : nat * nat).
Variables (ls : 'I_n1 -> 'I_n2 -> layer_solve_result n).
Variables (a b : 'I_n1 -> 'I_n2 -> 'M[C]_(n + n, m)) (f : 'I_n1 -> 'I_n2 -> fields6 'M[C]_(n, m)).
Variables (g : 'I_n1 -> 'I_n2 -> fields6 (xyfield (grid_point cell (n1, n2)) m))
          (xy : 'I_n1 -> 'I_n2 -> grid_point cell (n1, n2) -> R * R).
Variables (ex ey hx hy : grid_field m) (c1 c2 : R).
Lemma round_trip :
  nondegenerate plv -> distinct expn ->
  (forall i j, [/\ primitive_lattice_vectors (ls i j) = plv, expansion (ls i j) = expn &
     at_fractions plv (INR i / INR n1 + c1)%coqR (INR j / INR n2 + c2)%coqR (in_plane_wavevector (ls i j))]) ->
  (forall i j, fields_from_wave_amplitudes (a i j) (b i j) (ls i j) = Val (f i j)) ->
  (forall i j, fields_on_grid (f i j) (ls i j) cell (n1, n2) = Val (g i j, xy i j)) ->
  zone_average (fun i j => f_ex (g i j)) ex -> zone_average (fun i j => f_ey (g i j)) ey ->
  zone_average (fun i j => f_hx (g i j)) hx -> zone_average (fun i j => f_hy (g i j)) hy ->
  forall i j, complete_modes [:: ls i j] ->
  amplitudes_for_fields ex ey hx hy (n1 * cell.1, n2 * cell.2)%N (ls i j) (n1, n2) = Val (a i j, b i j).
Proof.
move=> nd hd hl hf hg hex hey hhx hhy i0 j0 hc.
have [el ee _] := hl i0 j0.
have [n0 hres] := grid_valid (hg i0 j0); rewrite ee in hres.
have [rv hr] := reciprocal_total nd.
have [s1 s2] := resolves_pos n0 hres.
have N1 : (0 < n1)%N by exact: leq_ltn_trans (ltn_ord i0).
have N2 : (0 < n2)%N by exact: leq_ltn_trans (ltn_ord j0).
have gE i j : g i j = fields6_map (fun F (pt : grid_point cell (n1, n2)) c =>
    plane_waves (in_plane_wavevector (ls i j)) (bragg_vector rv expn) F (unit_cell_coordinate plv cell pt.1 pt.2) c) (f i j).
  have [el' ee' _] := hl i j; have := hg i j; rewrite (@gridE n m (f i j) (ls i j) cell (n1, n2) rv) ?el' ?ee' //.
  by case=> <-.
have K (sel : forall T, fields6 T -> T) (F : grid_field m) :
   (forall A B (h : A -> B) x, sel B (fields6_map h x) = h (sel A x)) ->
   zone_average (fun i j => sel _ (g i j)) F ->
   process_field (ls i0 j0) cell (n1, n2) F = Val (sel _ (f i0 j0)).
  move=> nat hF.
  apply: (@process_fieldE n m n1 n2 plv rv expn cell hr hd n0 hres
    (fun i j => in_plane_wavevector (ls i j)) c1 c2 _ (fun i j => sel _ (f i j)) F) => //.
    by move=> i j; have [_ _] := hl i j.
  move=> x y c hx' hy'; rewrite (hF (Ordinal hx', Ordinal hy') c); congr (_ / _).
  by apply: eq_bigr => i _; apply: eq_bigr => j _; rewrite gE nat.
rewrite /amplitudes_for_fields /check /= -!lt0n N1 N2 /= !modnMr eqxx /= !mulKn // -(surjective_pairing cell).
rewrite (K (@f_ex) ex) //= (K (@f_ey) ey) //= (K (@f_hx) hx) //= (K (@f_hy) hy) //=.
case hM : (field_conversion_matrix (ls i0 j0)) => [M|e]; last first.
  by have := hf i0 j0; rewrite /fields_from_wave_amplitudes hM.
have u : M \in unitmx by apply: (hc (ls i0 j0)) => //; left.
rewrite /= /solve u /= -(conversion_fields hM (hf i0 j0)) mulKmx //.
by rewrite col_mxKu col_mxKd.
Qed.
End RoundTrip.

(** One unit cell: any in-plane wavevector. *)
Theorem C21_round_trip n m (l : layer_solve_result n) (a b : 'M[C]_(n + n, m)) f cell g xy
    (ex ey hx hy : grid_field m) :
  nondegenerate (primitive_lattice_vectors l) -> distinct (expansion l) -> complete_modes [:: l] ->
  fields_from_wave_amplitudes a b l = Val f ->
  fields_on_grid f l cell (1, 1)%N = Val (g, xy) ->
  (forall (pt : grid_point cell (1, 1)%N) c, [/\ ex pt.1 pt.2 c = f_ex g pt c, ey pt.1 pt.2 c = f_ey g pt c,
                    hx pt.1 pt.2 c = f_hx g pt c & hy pt.1 pt.2 c = f_hy g pt c]) ->
  amplitudes_for_fields ex ey hx hy cell l (1, 1)%N = Val (a, b).
Proof.
move=> nd hd hc hf hg hF.
have one (h : xyfield (grid_point cell (1, 1)%N) m) (F : grid_field m) : (forall (pt : grid_point cell (1, 1)%N) c, F pt.1 pt.2 c = h pt c) ->
    @zone_average m 1 1 cell (fun _ _ => h) F.
  move=> e pt c; rewrite !big_ord1 e.
  have -> : RtoC (INR (1 * 1)) = 1 by [].
  by rewrite divr1.
have e : (1 * cell.1, 1 * cell.2)%N = cell by rewrite !mul1n -surjective_pairing.
pose d k := (dot (in_plane_wavevector l) k / (2 * PI))%coqR.
rewrite -{1}e.
apply: (@round_trip n m 1 1 (primitive_lattice_vectors l) (expansion l) cell (fun _ _ => l)
  (fun _ _ => a) (fun _ _ => b) (fun _ _ => f) (fun _ _ => g) (fun _ _ => xy) ex ey hx hy
  (d (lat_u (primitive_lattice_vectors l))) (d (lat_v (primitive_lattice_vectors l))) nd hd _ _ _ _ _ _ _ ord0 ord0) => //.
- move=> i j; split=> //; rewrite (ord1 i) (ord1 j) /= /at_fractions /d.
  by have := PI_RGT_0; split; field; lra.
- by apply: one => pt c; have [] := hF pt c.
- by apply: one => pt c; have [] := hF pt c.
- by apply: one => pt c; have [] := hF pt c.
- by apply: one => pt c; have [] := hF pt c.
Qed.
Print Assumptions C21_round_trip.

(** A supercell: from the average over the Brillouin zone grid of the fields, the amplitudes
    at every wavevector of the grid are recovered. *)
Theorem C21_brillouin n m n1 n2 (plv : lattice) (expn : n.-tuple (Z * Z)) (cell : nat * nat)
    (ks : seq (seq (R * R))) (ls : 'I_n1 -> 'I_n2 -> layer_solve_result n)
    (a b : 'I_n1 -> 'I_n2 -> 'M[C]_(n + n, m)) f g xy (ex ey hx hy : grid_field m) :
  nondegenerate plv -> distinct expn ->
  brillouin_zone_in_plane_wavevector [:: Z.of_nat n1; Z.of_nat n2] plv = Val ks ->
  (forall i j, [/\ primitive_lattice_vectors (ls i j) = plv, expansion (ls i j) = expn &
     in_plane_wavevector (ls i j) = nth (0, 0)%coqR (nth [::] ks i) j]) ->
  (forall i j, fields_from_wave_amplitudes (a i j) (b i j) (ls i j) = Val (f i j)) ->
  (forall i j, fields_on_grid (f i j) (ls i j) cell (n1, n2) = Val (g i j, xy i j)) ->
  zone_average (fun i j => f_ex (g i j)) ex -> zone_average (fun i j => f_ey (g i j)) ey ->
  zone_average (fun i j => f_hx (g i j)) hx -> zone_average (fun i j => f_hy (g i j)) hy ->
  forall i j, complete_modes [:: ls i j] ->
  amplitudes_for_fields ex ey hx hy (n1 * cell.1, n2 * cell.2)%N (ls i j) (n1, n2) = Val (a i j, b i j).
Proof.
move=> nd hd hks hl hf hg h1 h2 h3 h4 i0 j0 hc.
have N1 : (0 < n1)%N by exact: leq_ltn_trans (ltn_ord i0).
have N2 : (0 < n2)%N by exact: leq_ltn_trans (ltn_ord j0).
have [K [hK [_ _ hk]]] := C26_grid N1 N2 nd; move: hK; rewrite hks => -[eK]; rewrite -eK in hk.
have cc N (i : 'I_N) : cell_centre N i = (INR i / INR N + (1 / 2 / INR N - 1 / 2))%coqR.
  rewrite /cell_centre; have : INR N <> 0%coqR by apply: not_0_INR; case: N i => [[]|].
  by move=> h; field.
apply: (@round_trip n m n1 n2 plv expn cell ls a b f g xy ex ey hx hy
   (1 / 2 / INR n1 - 1 / 2)%coqR (1 / 2 / INR n2 - 1 / 2)%coqR) => //.
by move=> i j; have [-> -> ->] := hl i j; split=> //; rewrite -!cc; apply: hk.
Qed.
Print Assumptions C21_brillouin.

(** Any field: the amplitudes reproduce the part of the transverse fields in the expansion. *)
Theorem C21_projection n m (l : layer_solve_result n) (a b : 'M[C]_(n + n, m)) f shape
    (ex ey hx hy : grid_field m) :
  amplitudes_for_fields ex ey hx hy shape l (1, 1)%N = Val (a, b) ->
  fields_from_wave_amplitudes a b l = Val f ->
  forall i c G, bragg (primitive_lattice_vectors l) (tnth (expansion l) i) G ->
  nondegenerate (primitive_lattice_vectors l) ->
  let part F := plane_wave_part (primitive_lattice_vectors l) shape F (vadd (in_plane_wavevector l) G) c in
  [/\ f_ex f i c = part ex, f_ey f i c = part ey, f_hx f i c = part hx & f_hy f i c = part hy].
Proof.
rewrite /amplitudes_for_fields /check /= !modn1 !divn1 /= => H hf i c G hG nd.
binv H EX hex; binv H EY hey; binv H HX hhx; binv H HY hhy; binv H M hM; binv H x hx'; case: H => ea eb.
have [u e] := solveV hx'; move: (conversion_fields hM hf); rewrite -ea -eb vsubmxK e.
move/eq_col_mx => [/eq_col_mx [/oppr_inj ey' ex'] /eq_col_mx [hx'' hy'']].
rewrite -ex' -ey' -hx'' -hy''.
have P F X : process_field l (shape.1, shape.2) (1, 1)%N F = Val X ->
   X i c = plane_wave_part (primitive_lattice_vectors l) shape F (vadd (in_plane_wavevector l) G) c.
  rewrite /process_field.
  case: (validateE shape.1 shape.2 (expansion l)) => hv; rewrite hv //; cbn [bind] => -[<-].
  have [n0 hres] := proj1 (validateP _ _ _) hv; have [s1 s2] := resolves_pos n0 hres.
  have [b1 b2] := hres i.
  rewrite mxE !big_ord1 mxE /=.
  rewrite fft2_entry //; [|by lia|by lia].
  rewrite /fourier_coefficient /plane_wave_part; congr (_ / _).
  apply: eq_bigr => p _; apply: eq_bigr => q _; rewrite mxE !add0n.
  have [rv hr] := reciprocal_total nd.
  have hB := bragg_vectorP (expansion l) i hr.
  have -> : G = bragg_vector rv (expansion l) i.
    exact: (C26_fractions_unique nd (x := IZR (tnth (expansion l) i).1) (y := IZR (tnth (expansion l) i).2)).
  rewrite grid_dot // !rmorphM /=.
  set ph := cexp (Ci * RtoC (dot _ _)).
  have -> : Cconj ph = ph^-1.
    apply: (mulfI (cexp_neq0 _ : ph != 0)); rewrite divff ?cexp_neq0 //.
    by rewrite /ph !cexp_i; Creim; toR; have := sin2_cos2 (dot (in_plane_wavevector l) (unit_cell_coordinate (primitive_lattice_vectors l) shape p q)); rewrite /Rsqr; lra.
  by rewrite -!mulrA; congr (_ * _); rewrite mulrC -!mulrA.
by split; exact: P.
Qed.
Print Assumptions C21_projection.

(** The grid of the fields must split evenly into unit cells. *)
Theorem C21_indivisible n m (ex ey hx hy : grid_field m) shape (l : layer_solve_result n) (cells : nat * nat) :
  (0 < cells.1)%N -> (0 < cells.2)%N ->
  ~ (exists p q, shape = (p * cells.1, q * cells.2)%N) ->
  amplitudes_for_fields ex ey hx hy shape l cells = Exn ValueError.
Proof.
move=> h1 h2 h; rewrite /amplitudes_for_fields /check -!lt0n h1 h2 /=.
case: eqP => //= e1; case: eqP => //= e2; case: h; exists (shape.1 %/ cells.1)%N, (shape.2 %/ cells.2)%N.
have := divn_eq shape.1 cells.1; have := divn_eq shape.2 cells.2; rewrite e1 e2 !addn0 => <- <-.
exact: surjective_pairing.
Qed.
Print Assumptions C21_indivisible.

(** Witness: the two wavevectors of a 2 by 1 zone grid, in a material of permittivity 100. *)
Lemma ex_zone_layer (k : R * R) : (dot k k < 100)%coqR ->
  exists l, [/\ eigensolve_uniform_isotropic_media ex_wl k sq_lattice (RtoC 100) ex_expn = Val l,
                complete_modes [:: l] & exists M, field_conversion_matrix l = Val M].
Proof.
move=> hk; have p := PI_RGT_0.
have [l hl] : exists l, eigensolve_uniform_isotropic_media ex_wl k sq_lattice (RtoC 100) ex_expn = Val l.
  apply/C14_uniform_total; split; first by rewrite /cross_product /=; lra.
    by rewrite /ex_wl; lra.
  by move/(congr1 re); rewrite /re /=; lra.
exists l; split=> //.
  by apply: C01_uniform_complete => l' [<-|[]]; exists ex_wl, k, sq_lattice, (RtoC 100), ex_expn.
case hT : (transverse_wavevectors k sq_lattice ex_expn) => [[kx ky]|e]; last first.
  by move: hT; rewrite /transverse_wavevectors recip_sq.
apply/(C14_uniform_finite_fields hl ex_w hT) => i.
move: hT; rewrite /transverse_wavevectors recip_sq /= => -[<- <-].
rewrite !mxE !(tnth_nth (0, 0)%coqZ) (ord1 i) /= => /(congr1 re).
rewrite !expr2 /re /= !RmulE; move: hk; rewrite /dot => hk h.
move: h; rewrite !Rmult_0_l !Rplus_0_r ?Rmult_0_r ?Rplus_0_r; lra.
Qed.
Example C21_witness : exists ks (ls : 'I_2 -> 'I_1 -> layer_solve_result 1),
  [/\ nondegenerate sq_lattice, distinct ex_expn &
      brillouin_zone_in_plane_wavevector [:: 2; 1]%coqZ sq_lattice = Val ks] /\
  (forall i j,
    [/\ primitive_lattice_vectors (ls i j) = sq_lattice, expansion (ls i j) = ex_expn,
        in_plane_wavevector (ls i j) = nth (0, 0)%coqR (nth [::] ks i) j & complete_modes [:: ls i j]]) /\
  forall m (a b : 'I_2 -> 'I_1 -> 'M[C]_(1 + 1, m)), exists f g xy, forall i j,
    fields_from_wave_amplitudes (a i j) (b i j) (ls i j) = Val (f i j) /\
    fields_on_grid (f i j) (ls i j) (4, 3)%N (2, 1)%N = Val (g i j, xy i j).
Proof.
have nd : nondegenerate sq_lattice.
  by rewrite /nondegenerate /cell_area /cross_product /= Rabs_right; lra.
have [ks [hks [_ _ hk]]] := @C26_grid sq_lattice 2 1 isT isT nd.
pose d := ex_layer 2; pose K (i : 'I_2) (j : 'I_1) := nth (0, 0)%coqR (nth [::] ks i) j.
pose S i j := eigensolve_uniform_isotropic_media ex_wl (K i j) sq_lattice (RtoC 100) ex_expn.
pose ls i j := match S i j with Val l => l | Exn _ => d end.
have pp := PI_RGT_0; have p4 := PI_4.
have H i j : [/\ S i j = Val (ls i j), complete_modes [:: ls i j] & exists M, field_conversion_matrix (ls i j) = Val M].
  have [l [h1 h2 h3]] : exists l, [/\ S i j = Val l, complete_modes [:: l] & exists M, field_conversion_matrix l = Val M].
    apply: ex_zone_layer; have [] := hk _ _ (ltn_ord i) (ltn_ord j).
    rewrite -/(K i j); move: (K i j) => [x y]; rewrite /dot /= (ord1 j) /cell_centre /=.
    move=> h1 h2; have ex : x = (2 * PI * ((INR i + 1 / 2) / 2 - 1 / 2))%coqR by rewrite -[2%coqR]/(1 + 1)%coqR; lra.
    have ey : y = 0%coqR by lra.
    have [hi|hi] : INR i = 0%coqR \/ INR i = 1%coqR by case: i {h1 ex} => [[|[|i]] hi] //; [left|right].
      have -> : x = (- PI / 2)%coqR by rewrite ex hi; lra.
      by rewrite ey; nra.
    have -> : x = (PI / 2)%coqR by rewrite ex hi; lra.
    by rewrite ey; nra.
  by rewrite /ls h1.
have P i j : [/\ primitive_lattice_vectors (ls i j) = sq_lattice, expansion (ls i j) = ex_expn &
                 in_plane_wavevector (ls i j) = K i j].
  by have [h _ _] := H i j; have [_ [_ [-> [-> ->]]] _ _ _] := C14_uniform_eigensolution h.
exists ks, ls; split; first by split=> //; exact: ex_distinct.
split; first by move=> i j; have [-> -> ->] := P i j; split=> //; have [] := H i j.
move=> m a b.
have df : fields6 'M[C]_(1, m) by split; exact: 0.
pose f i j := match fields_from_wave_amplitudes (a i j) (b i j) (ls i j) with Val f => f | Exn _ => df end.
pose g i j := match fields_on_grid (f i j) (ls i j) (4, 3)%N (2, 1)%N with Val r => r.1
   | Exn _ => fields6_map (fun _ _ _ => 0) df end.
pose xy i j := match fields_on_grid (f i j) (ls i j) (4, 3)%N (2, 1)%N with Val r => r.2
   | Exn _ => fun _ => (0, 0)%coqR end.
exists f, g, xy => i j; have [_ _ [M /fin_layerP [fl]]] := H i j; have [h1 h2 h3] := P i j.
split; first by rewrite /f (fields_fromE fl).
have hr : reciprocal (primitive_lattice_vectors (ls i j)) = reciprocal sq_lattice by rewrite h1.
rewrite recip_sq in hr.
have hd : distinct (expansion (ls i j)) by rewrite h2; exact: ex_distinct.
have hs : resolves (4, 3)%N.1 (4, 3)%N.2 (expansion (ls i j)) by rewrite h2; exact: ex_resolves.
by rewrite /g /xy (@gridE _ _ (f i j) (ls i j) (4, 3)%N (2, 1)%N _ hr hd _ hs).
Qed.

(** ** C43 *)
(** The coefficients of a point source are those of the delta function at its location. *)
Theorem C43_dirac n m (location : 'I_m -> R * R) k plv (expn : n.-tuple (Z * Z)) s :
  dirac_delta_source location k plv expn = Val s ->
  exists G, (forall i, bragg plv (tnth expn i) (G i)) /\
  (forall i j, s i j = Cconj (cexp (Ci * RtoC (dot (vadd k (G i)) (location j))))) /\
  (forall i j, abs2 (s i j) = 1%coqR) /\
  (forall (f : 'cV[C]_n) j, \sum_i Cconj (s i j) * f i 0 = plane_waves k G f (location j) 0).
Proof.
rewrite /dirac_delta_source /transverse_wavevectors.
case hr : (reciprocal plv) => [rv|e] //= -[<-].
exists (bragg_vector rv expn); split; first by move=> i; exact: bragg_vectorP hr.
have E i j : (\matrix_(i, j) cexp (- Ci * RtoC (
   (\row_i (k.1 + 2 * PI * (IZR (tnth expn i).1 * (lat_u rv).1 + IZR (tnth expn i).2 * (lat_v rv).1))%coqR) 0 i * (location j).1
 + (\row_i (k.2 + 2 * PI * (IZR (tnth expn i).1 * (lat_u rv).2 + IZR (tnth expn i).2 * (lat_v rv).2))%coqR) 0 i * (location j).2))) i j
   = Cconj (cexp (Ci * RtoC (dot (vadd k (bragg_vector rv expn i)) (location j)))).
  by rewrite mxE cexp_conj rmorphM /= Cconj_i Cconj_RC !mxE.
split; first exact: E.
split=> [i j|f j].
  rewrite E cexp_i /abs2 /=; have := sin2_cos2 (dot (vadd k (bragg_vector rv expn i)) (location j)).
  by rewrite /Rsqr /re /im /=; lra.
by apply: eq_bigr => i _; rewrite E CconjK mulrC.
Qed.
Print Assumptions C43_dirac.
Theorem C43_dirac_translation n m (location : 'I_m -> R * R) (shift : R * R) k plv (expn : n.-tuple (Z * Z)) s s' :
  dirac_delta_source location k plv expn = Val s ->
  dirac_delta_source (fun j => vadd (location j) shift) k plv expn = Val s' ->
  exists G, (forall i, bragg plv (tnth expn i) (G i)) /\
  forall i j, s' i j = cexp (- Ci * RtoC (dot (vadd k (G i)) shift)) * s i j.
Proof.
rewrite /dirac_delta_source /transverse_wavevectors.
case hr : (reciprocal plv) => [rv|e] //= -[<-] -[<-].
exists (bragg_vector rv expn); split; first by move=> i; exact: bragg_vectorP hr.
move=> i j; rewrite !mxE -cexpD; congr cexp; rewrite -mulrDr -rmorphD; congr (_ * RtoC _).
by rewrite /dot /vadd /= RaddE; ring.
Qed.
Print Assumptions C43_dirac_translation.

(** A Gaussian source is the point source damped by the spectrum of a Gaussian of the given
    width at half maximum. *)
Theorem C43_gaussian n m (fwhm sigma : R) (location : 'I_m -> R * R) k plv (expn : n.-tuple (Z * Z)) s g :
  half_maximum fwhm sigma \/ fwhm = 0%coqR /\ sigma = 0%coqR -> 
  dirac_delta_source location k plv expn = Val s ->
  gaussian_source fwhm location k plv expn = Val g ->
  exists G, (forall i, bragg plv (tnth expn i) (G i)) /\
  forall i j, g i j = RtoC (exp (- (sigma ^ 2 * dot (vadd k (G i)) (vadd k (G i)) / 2))%coqR) * s i j.
Proof.
move=> hw; rewrite /dirac_delta_source /gaussian_source /transverse_wavevectors.
case hr : (reciprocal plv) => [rv|e] //= -[<-] -[<-].
exists (bragg_vector rv expn); split; first by move=> i; exact: bragg_vectorP hr.
have L2 : (0 < ln 2)%coqR by rewrite -ln_1; apply: ln_increasing; lra.
have sq : (0 < sqrt (2 * ln 2))%coqR by apply: sqrt_lt_R0; lra.
have hs : (sigma ^ 2 = (fwhm / (2 * sqrt (2 * ln 2))) ^ 2)%coqR.
  case: hw => [[s0 e]|[-> ->]]; last by field; lra.
  have e2 : ((fwhm / 2) ^ 2 / (2 * sigma ^ 2) = ln 2)%coqR.
    have := congr1 ln e; rewrite ln_exp (_ : 1 / 2 = / 2)%coqR; last by lra.
    by rewrite ln_Rinv; lra.
  have -> : ((fwhm / (2 * sqrt (2 * ln 2))) ^ 2 = (fwhm / 2) ^ 2 / (sqrt (2 * ln 2) * sqrt (2 * ln 2)))%coqR.
    by field; lra.
  rewrite sqrt_sqrt; last by lra.
  have -> : ((fwhm / 2) ^ 2 = ln 2 * (2 * sigma ^ 2))%coqR.
    by rewrite -e2; field; lra.
  by field; lra.
rewrite /= in hs.
by move=> i j; rewrite !mxE mulrC -hs; congr (RtoC (exp _) * _); rewrite /dot /vadd /=; field.
Qed.
Print Assumptions C43_gaussian.
(** Every positive width has a standard deviation. *)
Theorem C43_width (fwhm : R) : (0 < fwhm)%coqR -> exists sigma, half_maximum fwhm sigma.
Proof.
move=> h; have L2 : (0 < ln 2)%coqR by rewrite -ln_1; apply: ln_increasing; lra.
have sq : (0 < sqrt (2 * ln 2))%coqR by apply: sqrt_lt_R0; lra.
exists (fwhm / (2 * sqrt (2 * ln 2)))%coqR; split; first by apply: Rdiv_lt_0_compat; lra.
have -> : ((fwhm / 2) ^ 2 / (2 * (fwhm / (2 * sqrt (2 * ln 2))) ^ 2) = sqrt (2 * ln 2) * sqrt (2 * ln 2) / 2)%coqR.
  by field; lra.
rewrite sqrt_sqrt; last by lra.
have -> : (- (2 * ln 2 / 2) = - ln 2)%coqR by field.
by rewrite exp_Ropp exp_ln; lra.
Qed.
(** A Gaussian of width zero is the point source; a wider one has smaller coefficients. *)
Theorem C43_gaussian_zero n m (location : 'I_m -> R * R) k plv (expn : n.-tuple (Z * Z)) :
  gaussian_source 0 location k plv expn = dirac_delta_source location k plv expn.
Proof.
rewrite /dirac_delta_source /gaussian_source; case: transverse_wavevectors => [kk|e] //=.
congr Val; apply/matrixP=> i j; rewrite !mxE.
rewrite (_ : (_ / 2)%coqR = 0%coqR); first by rewrite exp_0 mulr1.
rewrite /Rdiv Rmult_0_l; ring.
Qed.
Print Assumptions C43_gaussian_zero.
Theorem C43_gaussian_bounds n m (fwhm fwhm' : R) (location : 'I_m -> R * R) k plv (expn : n.-tuple (Z * Z)) g g' :
  (0 <= fwhm <= fwhm')%coqR ->
  gaussian_source fwhm location k plv expn = Val g ->
  gaussian_source fwhm' location k plv expn = Val g' ->
  forall i j, (0 < abs2 (g' i j) <= abs2 (g i j))%coqR /\ (abs2 (g i j) <= 1)%coqR.
Proof.
move=> hf; rewrite /gaussian_source; case: transverse_wavevectors => [kk|e] // [<-] [<-] i j; rewrite !mxE.
set d := (2 * sqrt (2 * ln 2))%coqR; set q := ((kk.1 0%R i) ^ 2 + _)%coqR.
have L2 : (0 < ln 2)%coqR by rewrite -ln_1; apply: ln_increasing; lra.
have sq : (0 < d)%coqR by have : (0 < sqrt (2 * ln 2))%coqR; [apply: sqrt_lt_R0; lra|rewrite /d; lra].
have A (t x : R) : abs2 (cexp (- Ci * RtoC t) * RtoC x) = (x * x)%coqR.
  rewrite mulNr -mulrN -rmorphN cexp_i; move: (- t) => t'.
  rewrite /abs2 /re /im /=; have := sin2_cos2 t'; rewrite /Rsqr /re /im /=; nra.
have q0 : (0 <= q)%coqR by rewrite /q /=; nra.
have M (x y : R) : (0 <= x <= y)%coqR -> (exp (- (y / d) ^ 2 * q / 2) <= exp (- (x / d) ^ 2 * q / 2))%coqR.
  move=> h; case: (Req_dec ((x / d) ^ 2 * q) ((y / d) ^ 2 * q)) => [e|ne].
    by right; congr exp; rewrite -!Ropp_mult_distr_l e.
  left; apply: exp_increasing.
  have : ((x / d) ^ 2 <= (y / d) ^ 2)%coqR.
    have di := Rinv_0_lt_compat d sq; apply: pow_incr; rewrite /Rdiv; nra.
  move=> h2; have := Rmult_le_compat_r q _ _ q0 h2; lra.
rewrite !A; have p (x : R) := exp_pos x; have m1 := M _ _ hf.
have m0 := M 0%coqR fwhm ltac:(lra).
have e0 : exp (- (0 / d) ^ 2 * q / 2)%coqR = 1%coqR.
  by rewrite (_ : (_ / 2)%coqR = 0%coqR); [exact: exp_0|rewrite /Rdiv Rmult_0_l; ring].
rewrite e0 in m0; move: (p (- (fwhm / d) ^ 2 * q / 2)%coqR) (p (- (fwhm' / d) ^ 2 * q / 2)%coqR) m0 m1.
move: (exp _) (exp _) => a b; nra.
Qed.
Print Assumptions C43_gaussian_bounds.
(** Both are defined exactly for lattices of nonzero area. *)
Theorem C43_defined n m (fwhm : R) (location : 'I_m -> R * R) k plv (expn : n.-tuple (Z * Z)) :
  ((exists s, dirac_delta_source location k plv expn = Val s) <-> nondegenerate plv) /\
  ((exists s, gaussian_source fwhm location k plv expn = Val s) <-> nondegenerate plv).
Proof.
rewrite /gaussian_source /dirac_delta_source /transverse_wavevectors.
case hr : (reciprocal plv) => [rv|e] /=.
  by have nd := reciprocal_nondegenerate hr; split; split=> // _; eexists.
split; split=> [[]|/reciprocal_total [rv]] //; by rewrite hr.
Qed.
Example C43_witness : exists s, dirac_delta_source (fun _ : 'I_1 => (1 / 3, 1 / 5)%coqR) (0, 0)%coqR sq_lattice ex_expn = Val s.
Proof.
apply: (proj2 (proj1 (@C43_defined _ _ 0%coqR _ _ _ _))).
by rewrite /nondegenerate /cell_area /cross_product /= Rabs_right; lra.
Qed.

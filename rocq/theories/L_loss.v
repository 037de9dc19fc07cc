(** Lemmas: the loss of tangent fields is a weighted least-squares problem. *)
From Coq Require Import Reals ZArith Lra Lia.
From mathcomp Require Import all_ssreflect all_algebra.
From Verif Require Import CField Err LinAlg Tac M_utils M_basis M_fft M_fmm_matrices M_fmm M_fields M_nd M_farfield M_vector.
From Verif Require Import S_fft S_fields S_basis S_vector L_scattering L_fft L_fields L_basis L_flux P_fft P_flux P_fmm L_vector P_vector L_newton.
Set Implicit Arguments. Unset Strict Implicit. Unset Printing Implicit Defensive.
Import GRing.Theory.
Local Open Scope ring_scope.

(** [f] is a weighted sum of squared distances with quadratic part [q]. *)
Definition quad m (f q : 'cV[C]_m -> R) := exists2 s : seq (term m),
  forall z, f z = lsq s z & forall z, q z = lsq_form s z.
Section Quad.
Variable m : nat.
Implicit Types f q g r : 'cV[C]_m -> R.
Lemma quad_eq f q f' q' : quad f q -> (forall z, f' z = f z) -> (forall z, q' z = q z) -> quad f' q'.
Proof. by move=> [s h1 h2] e1 e2; exists s => z; rewrite ?e1 ?e2. Qed.
Lemma quad0 : quad (fun _ : 'cV[C]_m => 0%coqR) (fun=> 0%coqR).
Proof. by exists [::] => z; rewrite /lsq /lsq_form big_nil. Qed.
Lemma quad_add f q g r : quad f q -> quad g r -> quad (fun z => f z + g z)%coqR (fun z => q z + r z)%coqR.
Proof.
by move=> [s h1 h2] [t h3 h4]; exists (s ++ t) => z; rewrite /lsq /lsq_form big_cat ?h1 ?h2 ?h3 ?h4.
Qed.
Lemma quad_scale c f q : quad f q -> quad (fun z => c * f z)%coqR (fun z => c * q z)%coqR.
Proof.
move=> [s h1 h2].
exists [seq Term (c * weight_of p)%coqR (row_of p) (target_of p) | p <- s] => z;
  rewrite ?h1 ?h2 /lsq /lsq_form big_map -RmulE mulr_sumr; apply: eq_bigr => p _;
  by rewrite mulrA.
Qed.
Lemma quad_sum (I : Type) (l : seq I) (f q : I -> 'cV[C]_m -> R) : (forall i, quad (f i) (q i)) ->
  quad (fun z => (\sum_(i <- l) f i z)%R) (fun z => (\sum_(i <- l) q i z)%R).
Proof.
move=> h; elim: l => [|a l IH].
  by apply: quad_eq quad0 _ _ => z; rewrite big_nil.
by apply: quad_eq (quad_add (h a) IH) _ _ => z; rewrite big_cons.
Qed.
Definition linear_fn (L : 'cV[C]_m -> C) := forall c x y, L (c *: x + y) = c * L x + L y.
Lemma linear_row L : linear_fn L -> exists a : 'rV[C]_m, forall z, L z = (a *m z) 0 0.
Proof.
move=> h; exists (\row_k L (unit_col k)) => z.
have L0 : L 0 = 0.
  by have := h 1 0 0; rewrite scale1r addr0 mul1r => e; apply: (addrI (L 0)); rewrite -e addr0.
have LD x y : L (x + y) = L x + L y by rewrite -[x]scale1r h mul1r scale1r.
have LZ c x : L (c *: x) = c * L x by rewrite -[c *: x]addr0 h L0 addr0.
have Ls (I : Type) (r : seq I) (F : I -> 'cV[C]_m) : L (\sum_(i <- r) F i) = \sum_(i <- r) L (F i).
  by elim: r => [|a r IH]; rewrite ?big_nil ?big_cons ?LD ?IH.
have -> : z = \sum_k z k 0 *: unit_col k.
  apply/colP => i; rewrite summxE (bigD1 i) //= big1 ?addr0; first by rewrite !mxE !eqxx /= mulr1.
  by move=> k /negPf hk; rewrite !mxE eq_sym hk /= mulr0.
rewrite Ls mulmx_sumr summxE; apply: eq_bigr => k _.
by rewrite LZ -scalemxAr mxE; congr (_ * _); rewrite /unit_col -colE !mxE.
Qed.
Lemma quad_term w t L : linear_fn L -> quad (fun z => w * abs2 (L z - t)%R)%coqR (fun z => w * abs2 (L z))%coqR.
Proof.
move=> /linear_row [a ha]; exists [:: Term w a t] => z;
  by rewrite /lsq /lsq_form big_seq1 /= /residual ha.
Qed.
Lemma quad_term0 w L : linear_fn L -> quad (fun z => w * abs2 (L z))%coqR (fun z => w * abs2 (L z))%coqR.
Proof. by move=> h; apply: quad_eq (quad_term w 0 h) _ _ => z //; rewrite subr0. Qed.
End Quad.

(** ** Gradients *)
Lemma row2E x y : (row2 x y 0 0 = x) * (row2 x y 0 1 = y).
Proof. by rewrite !mxE. Qed.
Lemma basisV l B : normalized_basis l = Val B ->
  (cross_product (lat_u l) (lat_v l) <> 0)%coqR /\
  let r := (/ sqrt (S_basis.cell_area l))%coqR in
  B = mx22 (RtoC ((lat_u l).1 * r)) (RtoC ((lat_v l).1 * r)) (RtoC ((lat_u l).2 * r)) (RtoC ((lat_v l).2 * r)) /\
  (0 < r)%coqR /\ B \in unitmx.
Proof.
rewrite /normalized_basis => h; binv h r hr; case: h => <-; have [r0 ->] := recipRV hr.
have aE : M_vector.cell_area l = S_basis.cell_area l.
  by rewrite /M_vector.cell_area /S_basis.cell_area /cross_product; congr Rabs; ring.
rewrite aE in r0 *; have {r0}r0 : sqrt (S_basis.cell_area l) <> 0%coqR by move=> e; rewrite e eqxx in r0.
have c0 : (cross_product (lat_u l) (lat_v l) <> 0)%coqR.
  by move=> e; apply: r0; rewrite /S_basis.cell_area e Rabs_R0 sqrt_0.
have rp : (0 < sqrt (S_basis.cell_area l))%coqR by have := sqrt_pos (S_basis.cell_area l); lra.
split=> //; cbv zeta; split=> //; split; first exact: Rinv_0_lt_compat.
set s := sqrt (S_basis.cell_area l) in r0 rp *; rewrite RinvE.
move: c0; rewrite /cross_product; case: (lat_u l) (lat_v l) => [u1 u2] [v1 v2] /= c0.
set q := (s / (u1 * v2 - u2 * v1))%coqR.
have e : mx22 (RtoC (u1 * / s)) (RtoC (v1 * / s)) (RtoC (u2 * / s)) (RtoC (v2 * / s)) *m
  mx22 (RtoC (v2 * q)) (RtoC (- v1 * q)) (RtoC (- u2 * q)) (RtoC (u1 * q)) = 1%:M.
  rewrite mx22M; apply/matrixP => i j; rewrite !mxE -!rmorphM -!rmorphD /= !RaddE !RmulE.
  by case: (ord2P i) => ->; case: (ord2P j) => -> /=; rewrite -?[1%:R]/(RtoC 1) -?[0%:R]/(RtoC 0); congr RtoC; rewrite /q; field.
by have [] := mulmx1_unit e.
Qed.
Lemma basis_total l : nondegenerate l -> exists B, normalized_basis l = Val B.
Proof.
move=> h; rewrite /normalized_basis /recipR.
have aE : M_vector.cell_area l = S_basis.cell_area l.
  by rewrite /M_vector.cell_area /S_basis.cell_area /cross_product; congr Rabs; ring.
rewrite aE; case: eqP => [e|_] /=; last by eexists.
by case: h; apply: sqrt_eq_0 e; exact: Rabs_pos.
Qed.
(** The gradient [g] with given derivatives along the lattice vectors. *)
Definition cartesian (B : 'M[C]_2) (x y : C) : 'rV[C]_2 := row2 x y *m invmx B.
Lemma transformE nx ny l B (p : vfield nx ny) : normalized_basis l = Val B ->
  transform_gradient B p = Val (vmap (fun x y _ _ => (cartesian B x y 0 0, cartesian B x y 0 1)) p).
Proof.
move=> /basisV [_ [_ [_ hu]]]; rewrite /transform_gradient /inv.
have hu2 : B^T *m B \in unitmx by rewrite unitmx_mul unitmx_tr hu.
have e : invmx (B^T *m B) *m B^T = invmx B.
  apply: (can_inj (mulKmx hu2)); rewrite mulKVmx // -mulmxA mulmxV //.
  by rewrite mulmx1.
rewrite hu2 /=; congr (Val (_, _)); apply/matrixP => i j; rewrite [LHS]mxE [RHS]mxE; cbn [fst snd].
  by rewrite /cartesian -e mulmxA.
by rewrite /cartesian -e mulmxA.
Qed.
Lemma cartesianP B x y : B \in unitmx -> cartesian B x y *m B = row2 x y.
Proof. by move=> h; rewrite /cartesian mulmxKV. Qed.
Lemma cartesian_linear B c x y x' y' k :
  cartesian B (c * x + x') (c * y + y') 0 k = c * cartesian B x y 0 k + cartesian B x' y' 0 k.
Proof.
rewrite /cartesian; have -> : row2 (c * x + x') (c * y + y') = c *: row2 x y + row2 x' y'.
  by apply/rowP => j; rewrite !mxE; case: eqP.
by rewrite mulmxDl -scalemxAl mxE [X in X + _]mxE.
Qed.
Lemma cartesian0 B x y : B \in unitmx -> cartesian B x y 0 0 = 0 -> cartesian B x y 0 1 = 0 -> x = 0 /\ y = 0.
Proof.
move=> hu h0 h1; have : cartesian B x y = 0.
  by apply/rowP => j; rewrite [RHS]mxE; case: (ord2P j) => ->.
move=> e; have := cartesianP x y hu; rewrite e mul0mx => e2.
by have := row2E x y; rewrite -e2 !mxE => -[].
Qed.

(** ** The loss *)
Section Loss.
Variables (nx ny n : nat) (expn : n.-tuple (Z * Z)) (l : lattice).
Hypothesis n0 : n <> 0%N.
Hypothesis hr : resolves nx ny expn.
Hypothesis hd : distinct expn.
Variable B : 'M[C]_2.
Hypothesis hB : normalized_basis l = Val B.
Implicit Types z : 'cV[C]_(n * 2).

Lemma validV : validate_shape_for_expansion (nx, ny) expn = Val tt.
Proof. by apply/validateP. Qed.
Definition synth (F : 'M[C]_(n, 2)) : vfield nx ny :=
  (fourier_series expn (col 0 F) nx ny, fourier_series expn (col 1 F) nx ny).
Lemma ifft_fieldE F : ifft_field F expn nx ny = Val (synth F).
Proof. by rewrite /ifft_field /ifft validV /= !ifftE. Qed.
Lemma unflatE z i c : @unflat n z i c = z (mxvec_index i c) 0.
Proof. by rewrite /unflat !mxE. Qed.
Lemma flatK (F : 'M[C]_(n, 2)) : unflat (flat F) = F.
Proof. by rewrite /unflat /flat trmxK mxvecK. Qed.
Lemma unflatK z : flat (@unflat n z) = z.
Proof. by rewrite /unflat /flat vec_mxK trmxK. Qed.
Lemma unflat0 : @unflat n 0 = 0.
Proof. by apply/matrixP => i c; rewrite unflatE !mxE. Qed.
Lemma series_linear (c : C) (x y : 'cV[C]_n) i j :
  fourier_series expn (c *: x + y) nx ny i j = c * fourier_series expn x nx ny i j + fourier_series expn y nx ny i j.
Proof.
rewrite !mxE mulr_sumr -big_split /=; apply: eq_bigr => k _; by rewrite !mxE mulrDl -mulrA.
Qed.
Lemma synth_linear i j : linear_fn (fun z => (synth (@unflat n z)).1 i j) /\ linear_fn (fun z => (synth (@unflat n z)).2 i j).
Proof.
by split=> c x y /=; rewrite -series_linear; congr (fourier_series expn _ nx ny i j);
  apply/colP => k; rewrite !mxE.
Qed.
Lemma coef_linear i c : linear_fn (fun z => @unflat n z i c).
Proof. by move=> a x y; rewrite !unflatE !mxE. Qed.
Lemma mxget_linear (f : 'cV[C]_(n * 2) -> 'M[C]_(nx, ny)) a b : (forall i j, linear_fn (fun z => f z i j)) ->
  linear_fn (fun z => mxget (f z) a b).
Proof.
move=> h c x y; rewrite /mxget; case: insub => [i|]; last by rewrite mulr0 addr0.
by case: insub => [j|]; [exact: h|rewrite mulr0 addr0].
Qed.
Lemma difference_linear (f : 'cV[C]_(n * 2) -> 'M[C]_(nx, ny)) i j k : (forall i j, linear_fn (fun z => f z i j)) ->
  linear_fn (fun z => cartesian B ((forward_difference (f z)).1 i j) ((forward_difference (f z)).2 i j) 0 k).
Proof.
move=> h c x y; rewrite -cartesian_linear; congr (cartesian B _ _ 0 k); rewrite !mxE.
  by rewrite (mxget_linear _ _ h) h; Cring.
by rewrite (mxget_linear _ _ h) h; Cring.
Qed.
(** The gradient of a component. *)
Definition gradients (x : 'M[C]_(nx, ny)) : vfield nx ny :=
  vmap (fun a b _ _ => (cartesian B a b 0 0, cartesian B a b 0 1)) (forward_difference x).
Lemma vector_gradientE v : vector_field_gradient v l = Val (gradients v.1, gradients v.2).
Proof. by rewrite /vector_field_gradient hB /= !(transformE _ hB). Qed.
Definition gradient_total (x : 'M[C]_(nx, ny)) : R :=
  \sum_i \sum_j (abs2 ((gradients x).1 i j) + abs2 ((gradients x).2 i j)).
Lemma smoothnessE v : smoothness_loss v l =
  Val (/ INR (2 * nx * ny * 2) * (gradient_total v.1 + gradient_total v.2))%coqR.
Proof.
rewrite /smoothness_loss vector_gradientE /=; congr Val; rewrite /Rdiv Rmult_comm; congr (_ * (_ + _))%coqR;
  by apply: eq_bigr => i _; apply: eq_bigr => j _; rewrite !RexpE !Cmod_sqr.
Qed.
Lemma gradient_quad (f : 'cV[C]_(n * 2) -> 'M[C]_(nx, ny)) : (forall i j, linear_fn (fun z => f z i j)) ->
  quad (fun z => gradient_total (f z)) (fun z => gradient_total (f z)).
Proof.
move=> h; apply: quad_sum => i; apply: quad_sum => j.
have T k := quad_term0 1 (difference_linear i j k h).
apply: quad_eq (quad_add (T 0) (T 1)) _ _ => z; rewrite /gradients /vmap; cbn [fst snd];
  by rewrite [X in abs2 X]mxE [X in (_ + abs2 X)%R]mxE !Rmult_1_l.
Qed.
Lemma alignment_quad (target : vfield nx ny) w :
  quad (fun z => alignment_loss (synth (@unflat n z)) target w) (fun z => alignment_loss (synth (@unflat n z)) (0, 0) w).
Proof.
have Q (t : vfield nx ny) : quad (fun z => \sum_i \sum_j w i j * (Cmod ((synth (@unflat n z)).1 i j - t.1 i j) ^+ 2 + Cmod ((synth (@unflat n z)).2 i j - t.2 i j) ^+ 2))
   (fun z => \sum_i \sum_j w i j * (Cmod ((synth (@unflat n z)).1 i j) ^+ 2 + Cmod ((synth (@unflat n z)).2 i j) ^+ 2)).
  apply: quad_sum => i; apply: quad_sum => j; have [h1 h2] := synth_linear i j.
  apply: quad_eq (quad_add (quad_term (w i j) (t.1 i j) h1) (quad_term (w i j) (t.2 i j) h2)) _ _ => z;
    by rewrite mulrDr !RexpE !Cmod_sqr.
apply: quad_eq (quad_scale (/ INR (nx * ny)) (Q target)) _ _ => z; rewrite /alignment_loss /Rdiv Rmult_comm //.
by congr (_ * _)%coqR; apply: eq_bigr => i _; apply: eq_bigr => j _; rewrite !mxE !subr0.
Qed.
Lemma fourier_quad (kt : 'I_n -> R) :
  quad (fun z => \sum_i \sum_c Cmod (@unflat n z i c) ^+ 2 * kt i ^+ 2)
       (fun z => \sum_i \sum_c Cmod (@unflat n z i c) ^+ 2 * kt i ^+ 2).
Proof.
apply: quad_sum => i; apply: quad_sum => c; apply: quad_eq (quad_term0 (kt i ^ 2) (coef_linear i c)) _ _ => z;
  by rewrite mulrC !RexpE Cmod_sqr.
Qed.

(** ** Definiteness *)
Lemma R_sum_eq0 (I : eqType) (s : seq I) (F : I -> R) : (forall i, 0 <= F i)%coqR ->
  (\sum_(i <- s) F i)%R = 0%coqR -> forall i, i \in s -> F i = 0%coqR.
Proof.
move=> h; elim: s => // a s IH; rewrite big_cons => e i; rewrite inE.
have h1 := R_sum_ge0 s h; have h2 := h a; rewrite RaddE in e.
by case/orP => [/eqP ->|hi]; [lra|apply: IH hi; lra].
Qed.
Lemma R_fsum_eq0 (I : finType) (F : I -> R) : (forall i, 0 <= F i)%coqR ->
  (\sum_i F i)%R = 0%coqR -> forall i, F i = 0%coqR.
Proof. by move=> h e i; apply: (R_sum_eq0 h e); rewrite mem_index_enum. Qed.
Lemma const_of_differences (x : 'M[C]_(nx, ny)) :
  (forall i j, (forward_difference x).1 i j = 0 /\ (forward_difference x).2 i j = 0) ->
  forall i j i' j', x i j = x i' j'.
Proof.
have [px py] := resolves_pos n0 hr.
move=> h; have h1 (i : 'I_nx) (j : 'I_ny) : mxget x ((i + 1) %% nx) j = x i j.
  have [+ _] := h i j; rewrite mxE => /eqP; rewrite mulf_eq0 => /orP [/eqP /subr0_eq //|].
  by rewrite RtoC_eq0 => /eqP e; have := lt_0_INR nx ltac:(by natlia); rewrite e R0E; lra.
have h2 (i : 'I_nx) (j : 'I_ny) : mxget x i ((j + 1) %% ny) = x i j.
  have [_ +] := h i j; rewrite mxE => /eqP; rewrite mulf_eq0 => /orP [/eqP /subr0_eq //|].
  by rewrite RtoC_eq0 => /eqP e; have := lt_0_INR ny ltac:(by natlia); rewrite e R0E; lra.
have A (k : nat) (hk : (k < nx)%N) j : x (Ordinal hk) j = x (Ordinal px) j.
  elim: k hk => [|k IH] hk; first by congr (x _ _); exact: val_inj.
  have hk' : (k < nx)%N by apply: ltn_trans hk.
  rewrite -(IH hk') -[RHS]h1 /= modn_small ?addn1 //.
  by rewrite mxgetE; congr (x _ _); exact: val_inj.
have D (k : nat) (hk : (k < ny)%N) i : x i (Ordinal hk) = x i (Ordinal py).
  elim: k hk => [|k IH] hk; first by congr (x _ _); exact: val_inj.
  have hk' : (k < ny)%N by apply: ltn_trans hk.
  rewrite -(IH hk') -[RHS]h2 /= modn_small ?addn1 //.
  by rewrite mxgetE; congr (x _ _); exact: val_inj.
by move=> [i hi] [j hj] [i' hi'] [j' hj']; rewrite !A !D.
Qed.
Lemma series_const (y : 'cV[C]_n) : (forall i, tnth expn i <> (0, 0)%coqZ -> y i 0 = 0) ->
  forall i j i' j', fourier_series expn y nx ny i j = fourier_series expn y nx ny i' j'.
Proof.
move=> h i j i' j'; rewrite !mxE; apply: eq_bigr => k _.
have [e|e] : tnth expn k = (0, 0)%coqZ \/ tnth expn k <> (0, 0)%coqZ.
  by case: (tnth expn k =P (0, 0)%coqZ); [left|right].
  by rewrite e !waveE /= !E0.
by rewrite h // !mul0r.
Qed.
Lemma synth0 (F : 'M[C]_(n, 2)) : (forall i j, (synth F).1 i j = 0 /\ (synth F).2 i j = 0) -> F = 0.
Proof.
move=> h; have Z0 (y : 'cV[C]_n) : (forall i j, fourier_series expn y nx ny i j = 0) -> y = 0.
  move=> e; apply/colP => i; rewrite -(coefficient_series y i hr hd) mxE.
  rewrite /fourier_coefficient big1 ?mul0r // => a _; rewrite big1 // => b _.
  by rewrite e mul0r.
have e0 : col 0 F = 0 by apply: Z0 => i j; have [] := h i j.
have e1 : col 1 F = 0 by apply: Z0 => i j; have [] := h i j.
apply/matrixP => i c; rewrite mxE; case: (ord2P c) => ->.
  by have := congr1 (fun M : 'cV[C]_n => M i 0) e0; rewrite !mxE.
by have := congr1 (fun M : 'cV[C]_n => M i 0) e1; rewrite !mxE.
Qed.
Lemma gradient_total_ge0 x : (0 <= gradient_total x)%coqR.
Proof.
by apply: R_sum_ge0 => i; apply: R_sum_ge0 => j; apply: Rplus_le_le_0_compat; exact: abs2_ge0.
Qed.
Lemma gradient_total0 x : gradient_total x = 0%coqR -> forall i j i' j', x i j = x i' j'.
Proof.
have [_ [_ [_ hu]]] := basisV hB.
move=> e; apply: const_of_differences => i j.
have p i' j' : (0 <= abs2 ((gradients x).1 i' j') + abs2 ((gradients x).2 i' j'))%coqR.
  by apply: Rplus_le_le_0_compat; exact: abs2_ge0.
have e1 := R_fsum_eq0 (fun i' => R_sum_ge0 _ (p i')) e i; have e2 := R_fsum_eq0 (p i) e1 j.
have g1 : (gradients x).1 i j = 0.
  by apply: abs2_eq0; have := abs2_ge0 ((gradients x).1 i j); have := abs2_ge0 ((gradients x).2 i j); lra.
have g2 : (gradients x).2 i j = 0.
  by apply: abs2_eq0; have := abs2_ge0 ((gradients x).1 i j); have := abs2_ge0 ((gradients x).2 i j); lra.
move: g1 g2; rewrite /gradients /vmap; cbn [fst snd]; rewrite [X in X = _]mxE => g1; rewrite [X in X = _]mxE => g2.
exact: cartesian0 hu g1 g2.
Qed.
Definition wavenumber2 (rv : lattice) (i : 'I_n) : R := (length2 (order_vector rv (tnth expn i)) * S_basis.cell_area l)%coqR.
Lemma fourier_lossE : exists2 rv, reciprocal l = Val rv &
  exists2 FL, fourier_loss expn l = Val FL &
    forall F : 'M[C]_(n, 2), FL F = \sum_i \sum_c Cmod (F i c) ^+ 2 * wavenumber2 rv i.
Proof.
have [c0 _] := basisV hB.
have [|rv hrv] := @reciprocal_total l.
  by move=> e; case: (Rabs_no_R0 _ c0).
exists rv => //; rewrite /fourier_loss /transverse_wavevectors hrv /=; eexists; first reflexivity.
move=> F; apply: eq_bigr => i _; apply: eq_bigr => c _; congr (_ * _); rewrite !mxE /wavenumber2 RexpE.
have aE : M_vector.cell_area l = S_basis.cell_area l.
  by rewrite /M_vector.cell_area /S_basis.cell_area /cross_product; congr Rabs; ring.
rewrite aE Rpow_mult_distr; congr (_ * _)%coqR; last by rewrite /= Rmult_1_r sqrt_sqrt //; exact: Rabs_pos.
rewrite /norm2 /= Rmult_1_r sqrt_sqrt; first by rewrite /length2 /dot /order_vector /=; ring.
by apply: Rplus_le_le_0_compat; exact: Rle_0_sqr.
Qed.

Variables (target : vfield nx ny) (w : 'I_nx -> 'I_ny -> R) (fw sw : R).
Definition loss_value (FL : 'M[C]_(n, 2) -> R) (t : vfield nx ny) (F : 'M[C]_(n, 2)) : R :=
  (alignment_loss (synth F) t w + (if Rlt_dec 0 fw then fw * FL F else 0)
   + (if Rlt_dec 0 sw then sw * (/ INR (2 * nx * ny * 2) * (gradient_total (synth F).1 + gradient_total (synth F).2)) else 0))%coqR.
Lemma field_lossE FL t F : fourier_loss expn l = Val FL ->
  field_loss F expn l t w fw sw = Val (loss_value FL t F).
Proof.
move=> h; rewrite /field_loss ifft_fieldE /= h /= smoothnessE /loss_value.
by case: Rlt_dec => h1; case: Rlt_dec => h2.
Qed.
Lemma loss_quad FL t rv : (forall F : 'M[C]_(n, 2), FL F = \sum_i \sum_c Cmod (F i c) ^+ 2 * wavenumber2 rv i) ->
  quad (fun z => loss_value FL t (@unflat n z)) (fun z => loss_value FL (0, 0) (@unflat n z)).
Proof.
move=> h; apply: quad_add; first apply: quad_add.
- exact: alignment_quad.
- case: Rlt_dec => h1; last exact: quad0.
  apply: quad_scale; have p i : (0 <= wavenumber2 rv i)%coqR.
    by apply: Rmult_le_pos; [apply: Rplus_le_le_0_compat; exact: Rle_0_sqr|exact: Rabs_pos].
  apply: quad_eq (fourier_quad (fun i => sqrt (wavenumber2 rv i))) _ _ => z; rewrite h;
    by apply: eq_bigr => i _; apply: eq_bigr => c _; congr (_ * _); rewrite RexpE /= Rmult_1_r sqrt_sqrt.
case: Rlt_dec => h1; last exact: quad0.
apply: quad_scale; apply: quad_scale; apply: quad_add; apply: gradient_quad => i j; by have [] := synth_linear i j.
Qed.
Hypothesis w0 : forall i j, (0 <= w i j)%coqR.
Hypothesis w1 : exists i j, (0 < w i j)%coqR.
Hypothesis used : (0 < fw \/ 0 < sw)%coqR.
Lemma loss_definite FL rv (F : 'M[C]_(n, 2)) : reciprocal l = Val rv ->
  (forall F : 'M[C]_(n, 2), FL F = \sum_i \sum_c Cmod (F i c) ^+ 2 * wavenumber2 rv i) ->
  (0 <= loss_value FL (0%R, 0%R) F)%coqR /\ (loss_value FL (0%R, 0%R) F = 0%coqR -> F = 0).
Proof.
move=> hrv hFL; have [px py] := resolves_pos n0 hr.
have N0 : (0 < INR (nx * ny))%coqR by apply: lt_0_INR; apply/ltP; rewrite muln_gt0 px.
have M0 : (0 < INR (2 * nx * ny * 2))%coqR by apply: lt_0_INR; apply/ltP; rewrite !muln_gt0 px py.
have p i : (0 <= wavenumber2 rv i)%coqR.
  by apply: Rmult_le_pos; [apply: Rplus_le_le_0_compat; exact: Rle_0_sqr|exact: Rabs_pos].
have fp : (0 <= FL F)%coqR.
  rewrite hFL; apply: R_sum_ge0 => i; apply: R_sum_ge0 => c; apply: Rmult_le_pos => //.
  by rewrite RexpE Cmod_sqr; exact: abs2_ge0.
set S := (\sum_i \sum_j w i j * (abs2 ((synth F).1 i j) + abs2 ((synth F).2 i j)))%R.
have aE : alignment_loss (synth F) (0, 0) w = (S / INR (nx * ny))%coqR.
  congr (_ / _)%coqR; apply: eq_bigr => i _; apply: eq_bigr => j _.
  by rewrite ![in (0, 0).1]/= ![in (0, 0).2]/= !mxE !subr0 !RexpE !Cmod_sqr.
have q i j : (0 <= w i j * (abs2 ((synth F).1 i j) + abs2 ((synth F).2 i j)))%coqR.
  by apply: Rmult_le_pos => //; apply: Rplus_le_le_0_compat; exact: abs2_ge0.
have Sp : (0 <= S)%coqR by apply: R_sum_ge0 => i; exact: R_sum_ge0.
have g1 := gradient_total_ge0 (synth F).1; have g2 := gradient_total_ge0 (synth F).2.
rewrite /loss_value aE.
set A := (S / _)%coqR; set D := (if Rlt_dec 0 fw then _ else _); set E := (if Rlt_dec 0 sw then _ else _).
have A0 : (0 <= A)%coqR by rewrite /A; apply: Rmult_le_pos => //; left; exact: Rinv_0_lt_compat.
have D0 : (0 <= D)%coqR by rewrite /D; case: Rlt_dec => h; [apply: Rmult_le_pos => //; lra|exact: Rle_refl].
have E0 : (0 <= E)%coqR.
  rewrite /E; case: Rlt_dec => h; last exact: Rle_refl.
  apply: Rmult_le_pos; first lra; apply: Rmult_le_pos; last lra.
  by left; exact: Rinv_0_lt_compat.
split; first lra; move=> e.
have eA : A = 0%coqR by lra. have eD : D = 0%coqR by lra. have eE : E = 0%coqR by lra.
have S0 : S = 0%coqR.
  by rewrite -[S]Rmult_1_r -(Rinv_l (INR (nx * ny))); [rewrite -Rmult_assoc -/(Rdiv _ _) -/A eA Rmult_0_l|lra].
have [i0 [j0 h0]] := w1.
have z0 := R_fsum_eq0 (q i0) (R_fsum_eq0 (fun i => R_sum_ge0 _ (q i)) S0 i0) j0.
have [z1 z2] : (synth F).1 i0 j0 = 0 /\ (synth F).2 i0 j0 = 0.
  have p1 := abs2_ge0 ((synth F).1 i0 j0); have p2 := abs2_ge0 ((synth F).2 i0 j0).
  have : (abs2 ((synth F).1 i0 j0) + abs2 ((synth F).2 i0 j0) = 0)%coqR by case: (Rmult_integral _ _ z0) => //; lra.
  by move=> e2; split; apply: abs2_eq0; lra.
have [c1 c2] : (forall i j i' j', (synth F).1 i j = (synth F).1 i' j') /\ (forall i j i' j', (synth F).2 i j = (synth F).2 i' j').
  case: used => hu.
    have {}eD : FL F = 0%coqR by move: eD; rewrite /D; case: Rlt_dec => [h|//]; cbn [is_left] => eD; case: (Rmult_integral _ _ eD) => //; lra.
    have y0 c i : tnth expn i <> (0, 0)%coqZ -> col c F i 0 = 0.
      move=> ht; rewrite mxE; rewrite hFL in eD.
      have P k d : (0 <= Cmod (F k d) ^+ 2 * wavenumber2 rv k)%coqR.
        by apply: Rmult_le_pos => //; rewrite RexpE Cmod_sqr; exact: abs2_ge0.
      have e2 := R_fsum_eq0 (P i) (R_fsum_eq0 (fun k => R_sum_ge0 _ (P k)) eD i) c.
      case: (Rmult_integral _ _ e2) => e3; first by apply: abs2_eq0; rewrite -Cmod_sqr -RexpE.
      case: ht; apply: (order_vector0 hrv); case: (Rmult_integral _ _ e3) => e4; first lra.
      by have := reciprocal_nondegenerate hrv.
    by split=> i j i' j'; apply: series_const => k hk; exact: y0.
  have {}eE : (gradient_total (synth F).1 + gradient_total (synth F).2 = 0)%coqR.
    move: eE; rewrite /E; case: Rlt_dec => [h|//]; cbn [is_left] => eE.
    case: (Rmult_integral _ _ eE) => e3; first lra.
    by case: (Rmult_integral _ _ e3) => // e4; have := Rinv_0_lt_compat _ M0; lra.
  by split; apply: gradient_total0; lra.
by apply: synth0 => i j; rewrite (c1 i j i0 j0) (c2 i j i0 j0).
Qed.
(** The unique minimiser, reached by one Newton step from anywhere. *)
Lemma loss_minimiser FL rv t : reciprocal l = Val rv ->
  (forall F : 'M[C]_(n, 2), FL F = \sum_i \sum_c Cmod (F i c) ^+ 2 * wavenumber2 rv i) ->
  exists Fs : 'M[C]_(n, 2),
    (forall k z, newton (fun z => loss_value FL t (@unflat n z)) k.+1 z = Val (flat Fs)) /\
    (forall F, (loss_value FL t Fs <= loss_value FL t F)%coqR /\
       (loss_value FL t F = loss_value FL t Fs -> F = Fs)).
Proof.
move=> hrv hFL; have [s h1 h2] := loss_quad t hFL.
have hu : normal_matrix s \in unitmx.
  apply: definite_unit => z; rewrite -h2 => e.
  have [_ h] := loss_definite (unflat z) hrv hFL.
  by rewrite -(unflatK z) (h e) /flat linear0 trmx0.
set zs := invmx (normal_matrix s) *m normal_rhs s.
exists (unflat zs); split.
  move=> k z; have fe : (fun z => loss_value FL t (@unflat n z)) = lsq s.
    by apply: FunctionalExtensionality.functional_extensionality.
  by rewrite fe newtonE // unflatK.
move=> F; have e := lsq_min (flat F) hu; cbv zeta in e; rewrite -/zs -!h1 -h2 flatK in e.
have [p0 p1] := loss_definite (unflat (flat F - zs)) hrv hFL.
split; first by rewrite e; lra.
move=> e2; have e3 : unflat (flat F - zs) = 0 by apply: p1; lra.
have : flat F - zs = 0 by rewrite -(unflatK (flat F - zs)) e3 /flat linear0 trmx0.
by move/subr0_eq => <-; rewrite flatK.
Qed.
End Loss.

(** C49: the tangent field is the unique minimiser of the objective. *)
From Coq Require Import Reals ZArith Lra Lia.
From mathcomp Require Import all_ssreflect all_algebra.
From Verif Require Import CField Err LinAlg Tac M_utils M_basis M_fft M_fmm_matrices M_fmm M_fields M_nd M_farfield M_vector.
From Verif Require Import S_fft S_fields S_basis S_vector L_scattering L_fft L_fields L_basis L_flux P_fft P_flux P_fmm L_vector P_vector L_newton L_loss L_direction.
Set Implicit Arguments. Unset Strict Implicit. Unset Printing Implicit Defensive.
Import GRing.Theory.
Local Open Scope ring_scope.

Lemma cartesian_gradient l B x y : normalized_basis l = Val B ->
  gradient_of l (cartesian B x y 0 0) (cartesian B x y 0 1) x y.
Proof.
move=> hB; have [c0 [eB [r0 hu]]] := basisV hB.
have s0 : sqrt (S_basis.cell_area l) <> 0%coqR by move=> e; move: r0; rewrite e Rinv_0; lra.
have := cartesianP x y hu; set g := cartesian B x y; rewrite eB => e.
have h i : (g *m mx22 (RtoC ((lat_u l).1 * / sqrt (S_basis.cell_area l))) (RtoC ((lat_v l).1 * / sqrt (S_basis.cell_area l)))
  (RtoC ((lat_u l).2 * / sqrt (S_basis.cell_area l))) (RtoC ((lat_v l).2 * / sqrt (S_basis.cell_area l)))) 0 i = row2 x y 0 i by rewrite e.
have m22 a b c d : ((g *m mx22 a b c d) 0 0 = g 0 0 * a + g 0 1 * c) * ((g *m mx22 a b c d) 0 1 = g 0 0 * b + g 0 1 * d).
  have l1 : lift ord0 ord0 = 1 :> 'I_2 by exact: val_inj.
  by split; rewrite [LHS]mxE big_ord_recl big_ord1 l1 [mx22 _ _ _ _ _ _]mxE [mx22 _ _ _ _ 1 _]mxE.
have ss : RtoC (sqrt (S_basis.cell_area l)) * RtoC (/ sqrt (S_basis.cell_area l)) = 1.
  by rewrite -rmorphM /= RmulE Rinv_r.
split.
  have := h 0; rewrite m22 row2E => <-; rewrite -!RmulE !rmorphM /=.
  transitivity (RtoC (sqrt (S_basis.cell_area l)) * RtoC (/ sqrt (S_basis.cell_area l)) * (g 0 0 * RtoC (lat_u l).1 + g 0 1 * RtoC (lat_u l).2)).
    by rewrite ss mul1r.
  by move: (g 0 0) (g 0 1) => p q; Cring.
have := h 1; rewrite m22 row2E => <-; rewrite -!RmulE !rmorphM /=.
transitivity (RtoC (sqrt (S_basis.cell_area l)) * RtoC (/ sqrt (S_basis.cell_area l)) * (g 0 0 * RtoC (lat_v l).1 + g 0 1 * RtoC (lat_v l).2)).
  by rewrite ss mul1r.
by move: (g 0 0) (g 0 1) => p q; Cring.
Qed.
Lemma gradient_unique l gx gy gx' gy' du dv : nondegenerate l ->
  gradient_of l gx gy du dv -> gradient_of l gx' gy' du dv -> gx = gx' /\ gy = gy'.
Proof.
rewrite /nondegenerate /S_basis.cell_area => hn [h1 h2] [h3 h4].
have c0 : cross_product (lat_u l) (lat_v l) <> 0%coqR by move=> e; apply: hn; rewrite e Rabs_R0.
move: h1 h2; rewrite -h3 -h4 => {h3 h4}.
move: c0; rewrite /cross_product; case: (lat_u l) (lat_v l) => [u1 u2] [v1 v2] /= c0 h1 h2.
have d0 : RtoC (u1 * v2 - u2 * v1) != 0 :> C by apply: RtoC_neq0.
have E1 : (gx - gx') * RtoC u1 + (gy - gy') * RtoC u2 = 0.
  transitivity (gx * RtoC u1 + gy * RtoC u2 - (gx' * RtoC u1 + gy' * RtoC u2)); first Cring.
  by rewrite h1 subrr.
have E2 : (gx - gx') * RtoC v1 + (gy - gy') * RtoC v2 = 0.
  transitivity (gx * RtoC v1 + gy * RtoC v2 - (gx' * RtoC v1 + gy' * RtoC v2)); first Cring.
  by rewrite h2 subrr.
have D : RtoC (u1 * v2 - u2 * v1) = RtoC u1 * RtoC v2 - RtoC u2 * RtoC v1 :> C by rewrite -!rmorphM -rmorphB.
split; apply/subr0_eq; apply: (mulfI d0); rewrite mulr0 D.
  transitivity (RtoC v2 * ((gx - gx') * RtoC u1 + (gy - gy') * RtoC u2) - RtoC u2 * ((gx - gx') * RtoC v1 + (gy - gy') * RtoC v2)); last by rewrite E1 E2 !mulr0 subr0.
  by Cring.
transitivity (RtoC u1 * ((gx - gx') * RtoC v1 + (gy - gy') * RtoC v2) - RtoC v1 * ((gx - gx') * RtoC u1 + (gy - gy') * RtoC u2)); last by rewrite E1 E2 !mulr0 subr0.
by Cring.
Qed.
Lemma mxget_ord nx ny (x : 'M[C]_(nx, ny)) (i : 'I_nx) (j : 'I_ny) : mxget x i j = x i j.
Proof. by rewrite (mxgetE x (ltn_ord i) (ltn_ord j)); congr (x _ _); exact: val_inj. Qed.
Lemma forward_gradientP nx ny l B (x : 'M[C]_(nx, ny)) : normalized_basis l = Val B ->
  forward_gradient l x (gradients B x).
Proof.
move=> hB i j; have := cartesian_gradient ((forward_difference x).1 i j) ((forward_difference x).2 i j) hB.
set c1 := cartesian _ _ _ 0 0; set c2 := cartesian _ _ _ 0 1.
have e1 : c1 = (gradients B x).1 i j by rewrite [RHS]mxE.
have e2 : c2 = (gradients B x).2 i j by rewrite [RHS]mxE.
move: c1 c2 e1 e2 => c1 c2 e1 e2.
have -> : (forward_difference x).1 i j = RtoC (INR nx) * (x (next i) j - x i j).
  by rewrite mxE mulrC -[in RHS]mxget_ord.
have -> : (forward_difference x).2 i j = RtoC (INR ny) * (x i (next j) - x i j).
  by rewrite mxE mulrC -[x i (next j)]mxget_ord.
by rewrite -e1 -e2.
Qed.

(** The gradient of the padded array without its margin is the periodic central difference. *)
Lemma partial_gradientE nx ny (arr : 'M[C]_(nx, ny)) :
  partial_gradient arr =
  (\matrix_(i, j) ((mxget arr ((i + 1) %% nx) j - mxget arr ((i + nx - 1) %% nx) j) / RtoC 2 * RtoC (INR nx)),
   \matrix_(i, j) ((mxget arr i ((j + 1) %% ny) - mxget arr i ((j + ny - 1) %% ny)) / RtoC 2 * RtoC (INR ny))).
Proof.
have pg a b : (a < nx + 2)%N -> (b < ny + 2)%N ->
    mxget (pad_wrap arr) a b = mxget arr ((a + nx - 1) %% nx) ((b + ny - 1) %% ny).
  by move=> ha hb; rewrite (mxgetE _ ha hb) mxE.
have m1 k N : (k < N)%N -> ((k + 1 + N - 1) %% N = k)%N.
  by move=> h; rewrite addn1 addSn subn1 /= modnDr modn_small.
have m2 k N : (k < N)%N -> ((k + 1 + 1 + N - 1) %% N = (k + 1) %% N)%N.
  by move=> h; rewrite [(k + 1 + 1)%N]addn1 addSn subn1 /= modnDr.
have e0 k N : (k < N)%N -> (k + 1 == (N + 2).-1)%N = false by move=> h; apply/eqP; rewrite addn2 /=; natlia.
congr (_, _); apply/matrixP => i j; rewrite [LHS]mxE [RHS]mxE /unpad mxE; congr (_ * _).
- have hi : (i + 1 < nx + 2)%N by have := ltn_ord i; rewrite addn1 addn2 ltnS => h; apply: ltnW.
  have hi' : (i + 1 + 1 < nx + 2)%N by have := ltn_ord i; rewrite !addn1 addn2 !ltnS.
  have h0 : (i < nx + 2)%N by apply: leq_trans (ltn_ord i) (leq_addr _ _).
  have hj : (j + 1 < ny + 2)%N by have := ltn_ord j; rewrite addn1 addn2 ltnS => h; apply: ltnW.
  rewrite (mxgetE _ hi hj) mxE /gradient_1d; cbn [nat_of_ord].
  rewrite addn1 eqn0Ngt /= -addn1 e0 ?ltn_ord // addn1 /= -[i.+2]addn1 -[i.+1]addn1 !pg //.
  by rewrite m2 ?m1 ?ltn_ord.
- have hi : (i + 1 < nx + 2)%N by have := ltn_ord i; rewrite addn1 addn2 ltnS => h; apply: ltnW.
  have hj' : (j + 1 + 1 < ny + 2)%N by have := ltn_ord j; rewrite !addn1 addn2 !ltnS.
  have h0 : (j < ny + 2)%N by apply: leq_trans (ltn_ord j) (leq_addr _ _).
  have hj : (j + 1 < ny + 2)%N by have := ltn_ord j; rewrite addn1 addn2 ltnS => h; apply: ltnW.
  rewrite (mxgetE _ hi hj) mxE /gradient_1d; cbn [nat_of_ord].
  rewrite (addn1 j) eqn0Ngt /= -(addn1 j) e0 ?ltn_ord // (addn1 j) /= -[j.+2]addn1 -[j.+1]addn1 !pg //.
  by rewrite m2 ?m1 ?ltn_ord.
Qed.
Lemma central_gradientP nx ny l (x : 'M[C]_(nx, ny)) g : compute_gradient x l = Val g -> central_gradient l x g.
Proof.
rewrite /compute_gradient => h; binv h B hB; rewrite (transformE _ hB) in h; case: h => <- i j.
have := cartesian_gradient ((partial_gradient x).1 i j) ((partial_gradient x).2 i j) hB.
rewrite /vmap; cbn [fst snd]; rewrite 2![in X in _ -> X]mxE.
set c1 := cartesian _ _ _ 0 0; set c2 := cartesian _ _ _ 0 1; move: c1 c2 => c1 c2.
have -> : (partial_gradient x).1 i j = RtoC (INR nx / 2) * (x (next i) j - x (previous i) j).
  rewrite partial_gradientE mxE -[in RHS]mxget_ord -[x (previous i) j]mxget_ord /Rdiv -RmulE rmorphM /=  RtoC_inv; last lra.
  by Cring.
have -> : (partial_gradient x).2 i j = RtoC (INR ny / 2) * (x i (next j) - x i (previous j)).
  rewrite partial_gradientE mxE -[x i (next j)]mxget_ord -[x i (previous j)]mxget_ord /Rdiv -RmulE rmorphM /= RtoC_inv; last lra.
  by Cring.
by [].
Qed.
(** [compute_gradient] returns the central-difference gradient, in units of the square root of the
    unit cell area; it is defined for every lattice with an area. *)
Theorem C49_gradient nx ny (x : 'M[C]_(nx, ny)) l :
  (nondegenerate l -> exists g, compute_gradient x l = Val g) /\
  (forall g, compute_gradient x l = Val g -> central_gradient l x g /\ nondegenerate l) /\
  (forall g h, nondegenerate l -> central_gradient l x g -> central_gradient l x h -> g = h).
Proof.
split; [|split].
- by move=> /basis_total [B hB]; rewrite /compute_gradient hB /= (transformE _ hB); eexists.
- move=> g hg; split; first exact: central_gradientP.
  by move: hg; rewrite /compute_gradient => h; binv h B hB; have [c0 _] := basisV hB; exact: Rabs_no_R0.
move=> [g1 g2] [h1 h2] hn hg hh; congr (_, _); apply/matrixP => i j; have [] := gradient_unique hn (hg i j) (hh i j); by [].
Qed.

(** ** The filtered gradient *)
Lemma doubled_resolves nx ny n (expn : n.-tuple (Z * Z)) : n <> 0%N ->
  resolves (doubled_shape nx ny expn).1 (doubled_shape nx ny expn).2 expn.
Proof.
move=> n0; apply: (fun h => proj2 (proj1 (validateP _ _ expn) h)).
rewrite /validate_shape_for_expansion /doubled_shape /min_array_shape_for_expansion /check.
have -> : n != 0%N by apply/eqP. cbn [bind fst snd].
have nn (s : seq Z) : (0 <= foldr Z.max 0 s)%coqZ by elim: s => [|x s IH] /=; lia.
have := nn [seq Z.abs c.1 | c <- expn]; have := nn [seq Z.abs c.2 | c <- expn].
move: (foldr _ _ _) (foldr _ _ _) => a b ha hb.
have k c (f : bool) : (0 <= c)%coqZ -> Z.ltb (Z.of_nat (Z.to_nat (2 * c + 1) * (if f then 2 else 1))%N) (2 * c + 1) = false.
  by move=> hc; apply/Z.ltb_ge; rewrite -multE Nat2Z.inj_mul; case: f; rewrite Z2Nat.id; lia.
by rewrite !k.
Qed.
(** The grid of the filtered gradient: twice the smallest grid that resolves the expansion, except
    along an axis of the array with a single entry, where it is that smallest grid. *)
Theorem C49_grid nx ny n (expn : n.-tuple (Z * Z)) : n <> 0%N -> exists m1 m2, [/\
  resolves m1 m2 expn, forall p q, resolves p q expn -> (m1 <= p)%N /\ (m2 <= q)%N,
  (nx = 1%N -> (doubled_shape nx ny expn).1 = m1) /\ ((2 <= nx)%N -> (doubled_shape nx ny expn).1 = (2 * m1)%N) &
  (ny = 1%N -> (doubled_shape nx ny expn).2 = m2) /\ ((2 <= ny)%N -> (doubled_shape nx ny expn).2 = (2 * m2)%N)].
Proof.
move=> /eqP n0; rewrite /doubled_shape /min_array_shape_for_expansion /check n0.
set A := foldr _ _ _; set B := foldr _ _ _.
have ge (f : Z * Z -> Z) (s : seq (Z * Z)) : (forall i, (i < size s)%N -> (Z.abs (f (nth (0, 0)%coqZ s i)) <= foldr Z.max 0%coqZ [seq Z.abs (f c) | c <- s])%coqZ) /\
    (foldr Z.max 0%coqZ [seq Z.abs (f c) | c <- s] = 0%coqZ \/
     exists2 i, (i < size s)%N & foldr Z.max 0%coqZ [seq Z.abs (f c) | c <- s] = Z.abs (f (nth (0, 0)%coqZ s i))) /\
    (0 <= foldr Z.max 0%coqZ [seq Z.abs (f c) | c <- s])%coqZ.
  elim: s => [|c s [IH1 [IH2 IH3]]] /=; first by split=> //; split; [left|lia].
  split; first by case=> [|i] hi /=; [|have := IH1 i hi]; lia.
  split; last lia.
  case: (Z.max_spec (Z.abs (f c)) (foldr Z.max 0%coqZ [seq Z.abs (f c) | c <- s])) => [[_ ->]|[_ ->]]; last by right; exists 0%N.
  by case: IH2 => [->|[i hi ->]]; [left|right; exists i.+1].
have [a1 [a2 a3]] := ge fst (tval expn); have [b1 [b2 b3]] := ge snd (tval expn); rewrite -/A in a1 a2 a3; rewrite -/B in b1 b2 b3.
clearbody A B; clear ge.
exists (Z.to_nat (2 * A + 1)), (Z.to_nat (2 * B + 1)); split.
- move=> i; have hi : (i < size (tval expn))%N by rewrite size_tuple.
  by have := a1 _ hi; have := b1 _ hi; rewrite !(tnth_nth (0, 0)%coqZ); lia.
- move=> p q h; have i0 : (0 < n)%N by rewrite lt0n.
  have [p0 q0] := h (Ordinal i0).
  split; apply/leP.
  + case: a2 => [->|[i hi ->]]; first lia.
    by move: (hi); rewrite size_tuple => hi'; have [] := h (Ordinal hi'); rewrite (tnth_nth (0, 0)%coqZ) /=; lia.
  + case: b2 => [->|[i hi ->]]; first lia.
    by move: (hi); rewrite size_tuple => hi'; have [] := h (Ordinal hi'); rewrite (tnth_nth (0, 0)%coqZ) /=; lia.
- by cbn [fst]; split=> [->|h]; [rewrite ltnn; exact: muln1|rewrite h; exact: mulnC].
- by cbn [snd]; split=> [->|h]; [rewrite ltnn; exact: muln1|rewrite h; exact: mulnC].
Qed.
Lemma filterE nx ny n (x : 'M[C]_(nx, ny)) (expn : n.-tuple (Z * Z)) : n <> 0%N -> distinct expn -> resolves nx ny expn ->
  filter_and_adjust_resolution x expn =
  Val (fourier_series expn (\col_i fourier_coefficient x (tnth expn i)) (doubled_shape nx ny expn).1 (doubled_shape nx ny expn).2).
Proof.
move=> n0 hd hr; have [y hy] := fft_total x n0 hr.
rewrite /filter_and_adjust_resolution hy /= /ifft validV /=; last exact: doubled_resolves. 2: by [].
rewrite ifftE //; last exact: doubled_resolves.
by rewrite (fft_entry hy).
Qed.

(** ** The objective *)
Lemma sum2_scale nx ny (c : R) (f : 'I_nx -> 'I_ny -> R) :
  (\sum_i \sum_j (c * f i j))%R = (c * (\sum_i \sum_j f i j)%R)%coqR.
Proof. by rewrite -RmulE mulr_sumr; apply: eq_bigr => i _; rewrite mulr_sumr. Qed.
Lemma objectiveP nx ny n (expn : n.-tuple (Z * Z)) l B target (w : 'I_nx -> 'I_ny -> R) fw sw F x rv FL :
  normalized_basis l = Val B -> reciprocal l = Val rv ->
  (forall F : 'M[C]_(n, 2), FL F = \sum_i \sum_c Cmod (F i c) ^+ 2 * wavenumber2 expn l rv i) ->
  (0 <= fw)%coqR -> (0 <= sw)%coqR ->
  objective expn l target w fw sw F x <-> x = loss_value expn B w fw sw FL target F.
Proof.
move=> hB hrv hFL f0 s0.
have hn : nondegenerate l := reciprocal_nondegenerate hrv.
have aE : alignment_loss (synth nx ny expn F) target w = mean (fun i j => w i j * (abs2 ((field_series expn F nx ny).1 i j - target.1 i j)%R + abs2 ((field_series expn F nx ny).2 i j - target.2 i j)%R))%coqR.
  rewrite /alignment_loss /mean -multE mult_INR; congr (_ / _)%coqR; apply: eq_bigr => i _; apply: eq_bigr => j _.
  by rewrite !RexpE !Cmod_sqr.
have fE (k : 'I_n -> R * R) : (forall i, bragg l (tnth expn i) (k i)) ->
  FL F = (\sum_i (abs2 (F i 0) + abs2 (F i 1)) * (length2 (k i) * S_basis.cell_area l)%coqR)%R.
  move=> hk; rewrite hFL; apply: eq_bigr => i _; rewrite big_ord_recl big_ord1.
  have -> : lift ord0 ord0 = 1 :> 'I_2 by exact: val_inj.
  rewrite -mulrDl !RexpE !Cmod_sqr; congr (_ * _).
  by have /(braggP _ _ hrv) -> := hk i.
have sE (gx gy : vfield nx ny) : forward_gradient l (field_series expn F nx ny).1 gx -> forward_gradient l (field_series expn F nx ny).2 gy ->
  mean (fun i j => (length_at gx i j ^ 2 + length_at gy i j ^ 2) / 4)%coqR =
  (/ INR (2 * nx * ny * 2) * (gradient_total B (synth nx ny expn F).1 + gradient_total B (synth nx ny expn F).2))%coqR.
  move=> hx hy; have u (y : 'M[C]_(nx, ny)) (g : vfield nx ny) i j : forward_gradient l y g -> (length_at g i j ^ 2 = abs2 ((gradients B y).1 i j) + abs2 ((gradients B y).2 i j))%coqR.
    by move=> h; rewrite /length_at length_sqr; have [-> ->] := gradient_unique hn (h i j) (forward_gradientP y hB i j).
  have -> : mean (fun i j => (length_at gx i j ^ 2 + length_at gy i j ^ 2) / 4)%coqR =
    mean (fun i j => / 4 * (abs2 ((gradients B (synth nx ny expn F).1).1 i j) + abs2 ((gradients B (synth nx ny expn F).1).2 i j)
      + (abs2 ((gradients B (synth nx ny expn F).2).1 i j) + abs2 ((gradients B (synth nx ny expn F).2).2 i j))))%coqR.
    rewrite /mean; congr (_ / _)%coqR; apply: eq_bigr => i _; apply: eq_bigr => j _.
    by rewrite (u _ _ _ _ hx) (u _ _ _ _ hy) /Rdiv Rmult_comm.
  rewrite /mean sum2_scale.
  have -> : (\sum_i \sum_j (abs2 ((gradients B (synth nx ny expn F).1).1 i j) + abs2 ((gradients B (synth nx ny expn F).1).2 i j)
      + (abs2 ((gradients B (synth nx ny expn F).2).1 i j) + abs2 ((gradients B (synth nx ny expn F).2).2 i j)))%coqR)%R =
    (gradient_total B (synth nx ny expn F).1 + gradient_total B (synth nx ny expn F).2)%coqR.
    by rewrite -RaddE -big_split; apply: eq_bigr => i _; rewrite -big_split.
  rewrite -!multE !mult_INR; move: (gradient_total _ _) (gradient_total _ _) => a b.
  have -> : INR 2 = 2%coqR by []. rewrite /Rdiv !Rinv_mult.
  have -> : (R1 + R1 = 2)%coqR by lra.
  by move: (/ INR nx)%coqR (/ INR ny)%coqR => p q; ring.
have vE : loss_value expn B w fw sw FL target F = (alignment_loss (synth nx ny expn F) target w + fw * FL F
   + sw * (/ INR (2 * nx * ny * 2) * (gradient_total B (synth nx ny expn F).1 + gradient_total B (synth nx ny expn F).2)))%coqR.
  rewrite /loss_value; congr (_ + _ + _)%coqR.
    by case: Rlt_dec => h; cbn [is_left] => //; rewrite (_ : fw = 0%coqR) ?Rmult_0_l //; lra.
  by case: Rlt_dec => h; cbn [is_left] => //; rewrite (_ : sw = 0%coqR) ?Rmult_0_l //; lra.
split=> [[k [gx [gy [hk hx hy ->]]]]|->].
  by rewrite vE aE (fE k hk) (sE _ _ hx hy).
exists (fun i => order_vector rv (tnth expn i)), (gradients B (synth nx ny expn F).1), (gradients B (synth nx ny expn F).2).
have hk i : bragg l (tnth expn i) (order_vector rv (tnth expn i)) by apply/(braggP _ _ hrv).
have hx := forward_gradientP (synth nx ny expn F).1 hB; have hy := forward_gradientP (synth nx ny expn F).2 hB.
by split=> //; rewrite vE aE (fE _ hk) (sE _ _ hx hy).
Qed.

(** ** The theorem *)
(** The Fourier coefficients of the two components of a field. *)
Definition field_coefficients nx ny n (v : vfield nx ny) (expn : n.-tuple (Z * Z)) : 'M[C]_(n, 2) :=
  \matrix_(i, c) fourier_coefficient (if c == 0 then v.1 else v.2) (tnth expn i).
Lemma field_coefficients_col nx ny n (v : vfield nx ny) (expn : n.-tuple (Z * Z)) :
  (col 0 (field_coefficients v expn) = \col_i fourier_coefficient v.1 (tnth expn i)) *
  (col 1 (field_coefficients v expn) = \col_i fourier_coefficient v.2 (tnth expn i)).
Proof. by split; apply/colP => i; rewrite !mxE. Qed.
Lemma fft_fieldE nx ny n (v : vfield nx ny) (expn : n.-tuple (Z * Z)) : n <> 0%N -> resolves nx ny expn ->
  fft_field v expn = Val (field_coefficients v expn).
Proof.
move=> n0 hr; have [x hx] := fft_total v.1 n0 hr; have [y hy] := fft_total v.2 n0 hr.
rewrite /fft_field hx hy /=; congr Val; apply/matrixP => i c.
by rewrite [LHS]mxE [RHS]mxE (fft_entry hx) (fft_entry hy) !mxE; case: eqP.
Qed.
Lemma not_1d_weight nx ny (g : vfield nx ny) : (is_1d_field g).1 = false -> exists i j, (tolerance < length_at g i j)%coqR.
Proof.
rewrite /is_1d_field; cbn [fst] => /negbT; rewrite !negb_or => /andP [/andP [/allPn [[i j] _]]]; cbn [fst snd].
rewrite negb_or => /andP [h _] _ _; exists i, j; move: h; rewrite magnitudeE.
have l0 : (0 <= length_at g i j)%coqR by exact: length_ge0.
by case: (isclose0P l0) => // h _; apply: Rnot_le_lt.
Qed.
(** The target of the alignment: the unit vector along the contour lines, or its Jones vector. *)
Definition alignment_target nx ny (jones : bool) (g : vfield nx ny) : vfield nx ny :=
  let t := normalize_elementwise (g.2, - g.1) in if jones then normalize_jones t else t.
(** The Fourier-filtered gradient of the array, sampled on a grid of its own and divided by its
    largest length, and the number of points of that grid. *)
Definition filtered_gradient nx ny n (grad : vfield nx ny) (expn : n.-tuple (Z * Z)) N1 N2 : vfield N1 N2 :=
  normalize (field_series expn (field_coefficients grad expn) N1 N2).
Lemma bindE (A T : Type) (a : A) (k : A -> res T) : bind (Val a) k = k a.
Proof. by []. Qed.
Lemma tangent_fieldE nx ny n (arr : 'M[C]_(nx, ny)) (expn : n.-tuple (Z * Z)) l jones fw sw steps grad gx gy x :
  n <> 0%N -> compute_gradient arr l = Val grad ->
  filter_and_adjust_resolution grad.1 expn = Val gx -> filter_and_adjust_resolution grad.2 expn = Val gy ->
  let g := normalize (gx, gy) in let t := alignment_target jones g in
  let loss z := match field_loss (@unflat n z) expn l t (field_magnitude g) (fw / INR n) (sw / INR n) with
                | Val x => x | Exn _ => 0%coqR end in
  (is_1d_field g).1 = false -> forall F0,
  fft_field (if jones then t else normalize (g.2, - g.1)) expn = Val F0 ->
  field_loss F0 expn l t (field_magnitude g) (fw / INR n) (sw / INR n) = Val x ->
  validate_shape_for_expansion (nx, ny) expn = Val tt ->
  compute_tangent_field arr expn l jones fw sw steps =
  (v <- (z <- newton loss steps (flat F0);; ifft_field (unflat z) expn nx ny);; Val (normalize v)).
Proof.
move=> /eqP n0 h1 h2 h3 g t loss h4 F0 h5 h6 h7; rewrite /compute_tangent_field n0 /check h1 bindE h2 bindE h3 bindE.
rewrite -/g; case e1d: (is_1d_field g) => [b a]; move: h4; rewrite e1d => e; cbn [fst] in e; rewrite e.
rewrite -/(alignment_target jones g) -/t h5 bindE h6 bindE h7 bindE.
by [].
Qed.
Theorem C49_unique_minimiser nx ny n (arr : 'M[C]_(nx, ny)) (expn : n.-tuple (Z * Z)) l jones fw sw :
  n <> 0%N -> distinct expn -> resolves nx ny expn -> nondegenerate l ->
  (0 <= fw)%coqR -> (0 <= sw)%coqR -> (0 < fw \/ 0 < sw)%coqR ->
  exists grad, central_gradient l arr grad /\
  let g := filtered_gradient grad expn (doubled_shape nx ny expn).1 (doubled_shape nx ny expn).2 in
  let value := objective expn l (alignment_target jones g) (length_at g) (fw / INR n) (sw / INR n) in
  (is_1d_field g).1 = false -> exists F,
  [/\ (forall steps, compute_tangent_field arr expn l jones fw sw steps.+1 = Val (normalize (field_series expn F nx ny))),
      (forall G, exists y, value G y) &
      forall G x y, value F x -> value G y -> (x <= y)%coqR /\ (x = y -> G = F)].
Proof.
move=> n0 hd hr hn f0 s0 fs; have [_ [hc _]] := C49_gradient arr l.
have [grad hg] := proj1 (C49_gradient arr l) hn; exists grad; split; first by have [] := hc _ hg.
set N1 := (doubled_shape nx ny expn).1; set N2 := (doubled_shape nx ny expn).2.
move=> g value h1d.
have hr2 : resolves N1 N2 expn by exact: doubled_resolves.
have [B hB] := basis_total hn; have [rv hrv [FL hFL eFL]] := fourier_lossE expn hB.
have np : (0 < INR n)%coqR by apply: lt_0_INR; move/eqP: n0; rewrite -lt0n => /ltP.
have f0' : (0 <= fw / INR n)%coqR by apply: Rmult_le_pos => //; left; exact: Rinv_0_lt_compat.
have s0' : (0 <= sw / INR n)%coqR by apply: Rmult_le_pos => //; left; exact: Rinv_0_lt_compat.
have fs' : (0 < fw / INR n \/ 0 < sw / INR n)%coqR by case: fs => h; [left|right]; exact: Rdiv_lt_0_compat.
have w0 i j : (0 <= length_at g i j)%coqR by exact: length_ge0.
have w1 : exists i j, (0 < length_at g i j)%coqR.
  by have [i [j h]] := not_1d_weight h1d; exists i, j; have := tolerance_gt0; lra.
set t := alignment_target jones g.
have [F [hF1 hF2]] := loss_minimiser n0 hr2 hd hB w0 w1 fs' t hrv eFL.
exists F; split.
- have gE : normalize (fourier_series expn (\col_i fourier_coefficient grad.1 (tnth expn i)) N1 N2,
       fourier_series expn (\col_i fourier_coefficient grad.2 (tnth expn i)) N1 N2) = g.
    by rewrite /g /filtered_gradient /field_series !field_coefficients_col.
  have wE : field_magnitude g = length_at g.
    apply: FunctionalExtensionality.functional_extensionality => i.
    by apply: FunctionalExtensionality.functional_extensionality => j; exact: magnitudeE.
  move=> steps; have k1 := filterE grad.1 n0 hd hr; have k2 := filterE grad.2 n0 hd hr.
  have E := tangent_fieldE (jones := jones) (fw := fw) (sw := sw) steps.+1 n0 hg k1 k2.
  rewrite -/N1 -/N2 gE in E.
  have k3 := fft_fieldE (if jones then alignment_target jones g else normalize (g.2, - g.1)) n0 hr2.
  have k4 := field_lossE n0 hr2 hd hB (field_magnitude g) (fw / INR n) (sw / INR n) t _ hFL.
  have {}E := E _ h1d _ k3 (k4 _) (validV n0 hr); rewrite {}E.
  rewrite (_ : (fun z => _) = fun z => loss_value expn B (length_at g) (fw / INR n) (sw / INR n) FL t (@unflat n z)).
    by rewrite hF1 bindE flatK (ifft_fieldE n0 hr).
  by apply: FunctionalExtensionality.functional_extensionality => z; rewrite k4 wE.
- by move=> G; exists (loss_value expn B (length_at g) (fw / INR n) (sw / INR n) FL t G); apply/(objectiveP _ _ _ _ hB hrv eFL).
move=> G x y /(objectiveP _ _ _ _ hB hrv eFL f0' s0') -> /(objectiveP _ _ _ _ hB hrv eFL f0' s0') ->.
by have [h1 h2] := hF2 G; split=> // e; apply: h2.
Qed.

(** ** A case: the array [1 + 2 cos(2 pi i / 3) + 2 cos(2 pi j / 3)] on the unit square *)
Lemma E_sin N g : E N g - E N (- g) = RtoC (2 * sin (2 * PI * (IZR g / INR N))) * Ci.
Proof. by rewrite EN /E cexp_i; Creim; ring. Qed.
Lemma wave_next N g (i : 'I_N) : wave N g (next i) = wave N g i * E N g.
Proof.
have N0 : (0 < N)%N := leq_ltn_trans (leq0n i) (ltn_ord i).
by rewrite /= waveM // !waveE -ED; congr (E _ _); rewrite -plusE Nat2Z.inj_add; lia.
Qed.
Lemma wave_previous N g (i : 'I_N) : wave N g (previous i) = wave N g i * E N (- g).
Proof.
have N0 : (0 < N)%N := leq_ltn_trans (leq0n i) (ltn_ord i).
rewrite /= waveM // !waveE -ED -[RHS]mulr1 -(E_mulN g N0) -ED; congr (E _ _).
by rewrite -minusE -plusE Nat2Z.inj_sub ?Nat2Z.inj_add; [lia|natlia].
Qed.
Lemma difference_series nx ny n (expn : n.-tuple (Z * Z)) (y : 'cV[C]_n) (i : 'I_nx) (j : 'I_ny) :
  RtoC (INR nx / 2) * (fourier_series expn y nx ny (next i) j - fourier_series expn y nx ny (previous i) j) =
    fourier_series expn (\col_k (RtoC (INR nx * sin (2 * PI * (IZR (tnth expn k).1 / INR nx))) * Ci * y k 0)) nx ny i j /\
  RtoC (INR ny / 2) * (fourier_series expn y nx ny i (next j) - fourier_series expn y nx ny i (previous j)) =
    fourier_series expn (\col_k (RtoC (INR ny * sin (2 * PI * (IZR (tnth expn k).2 / INR ny))) * Ci * y k 0)) nx ny i j.
Proof.
split; rewrite [fourier_series _ _ _ _ _ _]mxE [X in _ - X]mxE [RHS]mxE -sumrB mulr_sumr; apply: eq_bigr => k _;
  rewrite wave_next wave_previous mxE.
- have -> : RtoC (INR nx * sin (2 * PI * (IZR (tnth expn k).1 / INR nx))) * Ci =
    RtoC (INR nx / 2) * (E nx (tnth expn k).1 - E nx (- (tnth expn k).1)).
    by rewrite E_sin; move: (sin _) => s; move: (INR _) => m; Creim; field.
  by move: (RtoC _) (E _ _) (E _ _) (wave _ _ _) (wave _ _ _) (y k 0) => a b c d e f; Cring.
- have -> : RtoC (INR ny * sin (2 * PI * (IZR (tnth expn k).2 / INR ny))) * Ci =
    RtoC (INR ny / 2) * (E ny (tnth expn k).2 - E ny (- (tnth expn k).2)).
    by rewrite E_sin; move: (sin _) => s; move: (INR _) => m; Creim; field.
  by move: (RtoC _) (E _ _) (E _ _) (wave _ _ _) (wave _ _ _) (y k 0) => a b c d e f; Cring.
Qed.

Definition cross : 5.-tuple (Z * Z) := [tuple (0, 0); (1, 0); (-1, 0); (0, 1); (0, -1)]%coqZ.
Definition square : lattice := Lattice (1, 0)%coqR (0, 1)%coqR.
Definition bumps : 'M[C]_(3, 3) := \matrix_(i, j) RtoC (1 + 2 * cos (2 * PI * (INR i / 3)) + 2 * cos (2 * PI * (INR j / 3))).
Lemma sum5 (f : 'I_5 -> C) : \sum_i f i = f 0 + f 1 + f (inord 2) + f (inord 3) + f (inord 4).
Proof.
rewrite !big_ord_recl big_ord0 addr0 !addrA; congr (_ + f _ + f _ + f _ + f _);
  by apply: val_inj; rewrite /= ?inordK.
Qed.
Lemma cross_series (y : 'cV[C]_5) nx ny (i : 'I_nx) (j : 'I_ny) : fourier_series cross y nx ny i j =
  y 0 0 + y 1 0 * wave nx 1 i + y (inord 2) 0 * wave nx (-1) i + y (inord 3) 0 * wave ny 1 j + y (inord 4) 0 * wave ny (-1) j.
Proof.
rewrite mxE sum5.
have w0 N a : wave N 0 a = 1 by rewrite waveE Z.mul_0_l E0.
by rewrite !(tnth_nth (0, 0)%coqZ) /= !inordK //= !w0 ?mulr1 ?mul1r.
Qed.
Lemma bumps_series : bumps = fourier_series cross (const_mx 1) 3 3.
Proof.
apply/matrixP => i j; rewrite cross_series !mxE !mul1r /wave !cexp_i.
have -> : (2 * PI * (-1 * INR i / INR 3) = - (2 * PI * (INR i / 3)))%coqR by rewrite /=; field.
have -> : (2 * PI * (-1 * INR j / INR 3) = - (2 * PI * (INR j / 3)))%coqR by rewrite /=; field.
have -> : (2 * PI * (1 * INR i / INR 3) = (2 * PI * (INR i / 3)))%coqR by rewrite /=; field.
have -> : (2 * PI * (1 * INR j / INR 3) = (2 * PI * (INR j / 3)))%coqR by rewrite /=; field.
by rewrite !cos_neg !sin_neg; Creim; ring.
Qed.
Lemma square_gradient gx gy du dv : gradient_of square gx gy du dv -> gx = du /\ gy = dv.
Proof.
have a : S_basis.cell_area square = 1%coqR by rewrite /S_basis.cell_area /cross_product /= -[RHS]Rabs_R1; f_equal; ring.
rewrite /gradient_of a sqrt_1 /= -[RtoC 1]/(1 : C) -[RtoC 0]/(0 : C) !mulr1 !mulr0 !mul1r addr0 add0r.
by case.
Qed.
Lemma sin_pi3 : (sin (PI / 3) * sin (PI / 3) = 3 / 4)%coqR.
Proof.
rewrite sin_PI3; have := sqrt_sqrt 3 ltac:(lra); move: (sqrt 3) => s e.
have -> : (s / 2 * (s / 2) = s * s / 4)%coqR by field.
by rewrite e.
Qed.
Lemma bumps_field g N1 N2 i j : (0 < N1)%N -> (0 < N2)%N -> central_gradient square bumps g ->
  let v := field_series cross (field_coefficients g cross) N1 N2 in
  v.1 i j = RtoC (- 6 * sin (PI / 3) * sin (2 * PI * (INR i / INR N1))) /\
  v.2 i j = RtoC (- 6 * sin (PI / 3) * sin (2 * PI * (INR j / INR N2))).
Proof.
move=> p1 p2 hg v.
set c1 := \col_k (RtoC (INR 3 * sin (2 * PI * (IZR (tnth cross k).1 / INR 3))) * Ci * (const_mx 1 : 'cV[C]_5) k 0).
set c2 := \col_k (RtoC (INR 3 * sin (2 * PI * (IZR (tnth cross k).2 / INR 3))) * Ci * (const_mx 1 : 'cV[C]_5) k 0).
have [e1 e2] : g.1 = fourier_series cross c1 3 3 /\ g.2 = fourier_series cross c2 3 3.
  split; apply/matrixP => a b; have [h1 h2] := square_gradient (hg a b);
    have [d1 d2] := difference_series cross (const_mx 1) a b.
    by rewrite h1 bumps_series d1.
  by rewrite h2 bumps_series d2.
have hd : distinct cross.
  move=> [a ha] [b hb]; rewrite !(tnth_nth (0, 0)%coqZ) /= => e; apply: val_inj => /=.
  by case: a ha e => [|[|[|[|[|a]]]]] //; case: b hb => [|[|[|[|[|b]]]]].
have hr : resolves 3 3 cross.
  by case=> a ha; rewrite !(tnth_nth (0, 0)%coqZ) /=; case: a ha => [|[|[|[|[|a]]]]].
have f1 : col 0 (field_coefficients g cross) = c1.
  by rewrite field_coefficients_col; apply/colP => k; rewrite mxE e1 coefficient_series.
have f2 : col 1 (field_coefficients g cross) = c2.
  by rewrite field_coefficients_col; apply/colP => k; rewrite mxE e2 coefficient_series.
have sp : sin (2 * PI * (1 / INR 3))%coqR = sin (PI / 3)%coqR.
  have -> : (2 * PI * (1 / INR 3) = PI - PI / 3)%coqR by rewrite /=; field.
  by rewrite -sin_PI_x; f_equal; ring.
have sn : sin (2 * PI * (-1 / INR 3))%coqR = (- sin (PI / 3))%coqR.
  by rewrite -sp -sin_neg; f_equal; rewrite /=; field.
have s0 : sin (2 * PI * (0 / INR 3))%coqR = 0%coqR by rewrite /Rdiv Rmult_0_l Rmult_0_r sin_0.
have w N a : (0 < N)%N -> wave N 1 a - wave N (-1) a = RtoC (2 * sin (2 * PI * (INR a / INR N))) * Ci.
  move=> N0; have n0 : INR N <> 0%coqR by apply: not_0_INR; natlia.
  rewrite /wave !cexp_i.
  have -> : (2 * PI * (-1 * INR a / INR N) = - (2 * PI * (INR a / INR N)))%coqR by field.
  have -> : (2 * PI * (1 * INR a / INR N) = (2 * PI * (INR a / INR N)))%coqR by field.
  by rewrite cos_neg sin_neg; Creim; ring.
have i3 : INR 3 = 3%coqR by rewrite /=; ring.
split.
  rewrite /v /field_series; cbn [fst]; rewrite f1 cross_series !mxE !(tnth_nth (0, 0)%coqZ) /= !inordK //= s0 sp sn.
  transitivity (RtoC (3 * sin (PI / 3)) * Ci * (wave N1 1 i - wave N1 (-1) i)); last first.
    by rewrite w //; move: (sin _) (sin _) => s t; Creim; ring.
  by move: (sin _) (wave N1 _ _) (wave N1 _ _) (wave N2 _ _) (wave N2 _ _) => s a b c d; Creim; ring.
rewrite /v /field_series; cbn [snd]; rewrite f2 cross_series !mxE !(tnth_nth (0, 0)%coqZ) /= !inordK //= s0 sp sn.
transitivity (RtoC (3 * sin (PI / 3)) * Ci * (wave N2 1 j - wave N2 (-1) j)); last first.
  by rewrite w //; move: (sin _) (sin _) => s t; Creim; ring.
by move: (sin _) (wave N1 _ _) (wave N1 _ _) (wave N2 _ _) (wave N2 _ _) => s a b c d; Creim; ring.
Qed.
Lemma bumps_not_1d g N1 N2 : N1 = 6%N -> N2 = 6%N -> central_gradient square bumps g ->
  (is_1d_field (filtered_gradient g cross N1 N2)).1 = false.
Proof.
move=> -> -> hg; rewrite /filtered_gradient; set v := field_series _ _ _ _.
have vE (i j : 'I_6) : v.1 i j = RtoC (- 6 * sin (PI / 3) * sin (2 * PI * (INR i / INR 6))) /\
  v.2 i j = RtoC (- 6 * sin (PI / 3) * sin (2 * PI * (INR j / INR 6))) by exact: bumps_field.
have s0 : sin (2 * PI * (INR (0%R : 'I_6) / INR 6))%coqR = 0%coqR by rewrite /= /Rdiv Rmult_0_l Rmult_0_r sin_0.
have s1 : sin (2 * PI * (INR (1%R : 'I_6) / INR 6))%coqR = sin (PI / 3)%coqR by f_equal; rewrite /=; field.
have q0 : (- 6 * sin (PI / 3) * 0 = 0)%coqR by ring.
have q1 : (- 6 * sin (PI / 3) * sin (PI / 3) = - (9 / 2))%coqR.
  by have := sin_pi3; move: (sin _) => s e; rewrite Rmult_assoc e; field.
have v10 : ((v.1 1 0 = RtoC (- (9 / 2))%coqR) * (v.2 1 0 = RtoC 0%coqR))%type.
  by have [-> ->] := vE 1 0; rewrite s0 s1 q0 q1.
have v01 : ((v.1 0 1 = RtoC 0%coqR) * (v.2 0 1 = RtoC (- (9 / 2))%coqR))%type.
  by have [-> ->] := vE 0 1; rewrite s0 s1 q0 q1.
have l10 : length_at v 1 0 = (9 / 2)%coqR.
  by rewrite /length_at !v10; apply: length_eq; rewrite ?/abs2 ?reimE; lra.
have l01 : length_at v 0 1 = (9 / 2)%coqR.
  by rewrite /length_at !v01; apply: length_eq; rewrite ?/abs2 ?reimE; lra.
have f9 : (norm_factor v <= 9)%coqR.
  rewrite /norm_factor; case: ifP => _; first lra.
  have [i [j <-]] := @max_attained _ _ v ltac:(by have := max_ge v 1 0; rewrite l10; lra).
  rewrite /length_at lengthE; have [-> ->] := vE i j.
  have -> : 9%coqR = sqrt (9 * 9) by rewrite sqrt_square //; lra.
  apply: sqrt_le_1_alt; rewrite /abs2 !reimE.
  have := sin_pi3; move: (sin (PI / 3)) => s e.
  have b t : (sin t * sin t <= 1)%coqR by have := sin2_cos2 t; rewrite /Rsqr; have := Rle_0_sqr (cos t); rewrite /Rsqr; lra.
  have := b (2 * PI * (INR i / INR 6))%coqR; have := b (2 * PI * (INR j / INR 6))%coqR; move: (sin (2 * PI * (INR i / INR 6))) (sin (2 * PI * (INR j / INR 6))) => y x h1 h2.
  have -> : ((- 6 * s * y) * (- 6 * s * y) + 0 * 0 + ((- 6 * s * x) * (- 6 * s * x) + 0 * 0) = 36 * (s * s) * (x * x + y * y))%coqR by ring.
  by rewrite e; lra.
have f0 := norm_factor_gt0 v; have fi : (/ 9 <= / norm_factor v)%coqR by apply: Rinv_le_contravar.
have t1 : (tolerance < 9 / 2 * / norm_factor v)%coqR by have := tolerance_lt1; rewrite /tolerance; lra.
have m10 : (tolerance < length_at (normalize v) 1%R 0%R)%coqR by rewrite normalize_length l10.
have m01 : (tolerance < length_at (normalize v) 0%R 1%R)%coqR by rewrite normalize_length l01.
apply: (not_1d _ _ m10 m01) => //.
have d (x : R) : RtoC x / RtoC (norm_factor v) = RtoC (x / norm_factor v).
  by rewrite -RtoC_inv -?rmorphM //=; lra.
have [n1 n2] := normalizeE v 1 0; have [n3 n4] := normalizeE v 0 1.
rewrite !v10 !d in n1 n2; rewrite !v01 !d in n3 n4.
by apply: (perpendicular (n1, n2, n3, n4)) => //; rewrite /Rdiv; ring.
Qed.
Example ex_C49 : [/\ distinct cross, resolves 3 3 cross, nondegenerate square &
  forall g, central_gradient square bumps g ->
  (is_1d_field (filtered_gradient g cross (doubled_shape 3 3 cross).1 (doubled_shape 3 3 cross).2)).1 = false].
Proof.
split.
- move=> [a ha] [b hb]; rewrite !(tnth_nth (0, 0)%coqZ) /= => e; apply: val_inj => /=.
  by case: a ha e => [|[|[|[|[|a]]]]] //; case: b hb => [|[|[|[|[|b]]]]].
- by case=> a ha; rewrite !(tnth_nth (0, 0)%coqZ) /=; case: a ha => [|[|[|[|[|a]]]]].
- by rewrite /nondegenerate /S_basis.cell_area /cross_product /= (_ : (1 * 1 - 0 * 0 = 1)%coqR) ?Rabs_R1; lra.
- by move=> g; apply: bumps_not_1d.
Qed.
Print Assumptions C49_gradient.
Print Assumptions C49_grid.
Print Assumptions C49_unique_minimiser.

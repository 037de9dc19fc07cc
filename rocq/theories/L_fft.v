(** Proofs about discrete Fourier transforms. *)
From Coq Require Import Reals ZArith Lra Lia.
From mathcomp Require Import all_ssreflect all_algebra.
From Verif Require Import CField Err LinAlg M_utils M_basis M_fft S_fft L_scattering.
Set Implicit Arguments. Unset Strict Implicit. Unset Printing Implicit Defensive.
Import GRing.Theory.
Local Open Scope ring_scope.

(** ** Roots of unity *)
Lemma posZ N : (0 < N)%N -> (0 < Z.of_nat N)%coqZ.
Proof. by move=> /ltP h; lia. Qed.
Definition E (N : nat) (z : Z) : C := cexp (Ci * RtoC (2 * PI * (IZR z / INR N))%coqR).

Lemma E0 N : E N 0 = 1.
Proof.
rewrite /E; have -> : (2 * PI * (IZR 0 / INR N) = 0)%coqR by rewrite /Rdiv; ring.
by rewrite -[RtoC 0]/(0 : C) mulr0 cexp0.
Qed.
Lemma ED N y z : E N (y + z)%coqZ = E N y * E N z.
Proof.
rewrite /E -cexpD -mulrDr -rmorphD /=; congr (cexp (_ * RtoC _)).
by rewrite plus_IZR -[RHS]/((_ + _)%coqR); rewrite /Rdiv; ring.
Qed.
Lemma EN N z : E N (- z)%coqZ = Cconj (E N z).
Proof.
have c (t : R) : Cconj (Ci * RtoC t) = Ci * RtoC (- t)%coqR by Creim; ring.
rewrite /E cexp_conj c; congr (cexp (_ * RtoC _)).
by rewrite opp_IZR /Rdiv; ring.
Qed.
Lemma E_natmul N z (k : nat) : E N (Z.of_nat k * z)%coqZ = E N z ^+ k.
Proof.
elim: k => [|k IH]; first by rewrite E0.
by rewrite Nat2Z.inj_succ Z.mul_succ_l ED IH exprSr.
Qed.
Lemma cexp_i t : cexp (Ci * RtoC t) = (cos t, sin t).
Proof.
rewrite /cexp !reimE; have -> : (R0 * t - R1 * R0 = 0)%coqR by ring.
by have -> : (R0 * R0 + R1 * t = t)%coqR; [ring|rewrite exp_0 !Rmult_1_l].
Qed.
Lemma cexp_2pi : cexp (Ci * RtoC (2 * PI)%coqR) = 1.
Proof. by rewrite cexp_i cos_2PI sin_2PI. Qed.
Lemma E_N N : (0 < N)%N -> E N (Z.of_nat N) = 1.
Proof.
move=> h; rewrite /E -INR_IZR_INZ.
have -> : (2 * PI * (INR N / INR N) = 2 * PI)%coqR; last exact: cexp_2pi.
by field; apply: not_0_INR => e; rewrite e in h.
Qed.
Lemma E_mulN N k : (0 < N)%N -> E N (k * Z.of_nat N)%coqZ = 1.
Proof.
move=> h; case: (Z_le_gt_dec 0 k) => hk.
  by rewrite -(Z2Nat.id k) // E_natmul E_N // expr1n.
have -> : (k * Z.of_nat N = - (Z.of_nat (Z.to_nat (- k)) * Z.of_nat N))%coqZ by rewrite Z2Nat.id; lia.
by rewrite EN E_natmul E_N // expr1n rmorph1.
Qed.
Lemma E_mod N z : (0 < N)%N -> E N (z mod Z.of_nat N)%coqZ = E N z.
Proof.
move=> h; have hN := posZ h.
rewrite {2}(Z_div_mod_eq_full z (Z.of_nat N)) ED Z.mul_comm E_mulN // mul1r //.
Qed.
Lemma E_eqmod N y z : (0 < N)%N -> (y mod Z.of_nat N = z mod Z.of_nat N)%coqZ -> E N y = E N z.
Proof. by move=> h e; rewrite -(E_mod y) // e E_mod. Qed.
Lemma E_neq1 N z : (0 < N)%N -> (z mod Z.of_nat N <> 0)%coqZ -> E N z != 1.
Proof.
move=> h nz; rewrite -E_mod //; have hN := posZ h.
have [z0 z1] := Z.mod_pos_bound z (Z.of_nat N) ltac:(lia).
move: (z mod Z.of_nat N)%coqZ nz z0 z1 => y nz y0 y1.
apply/eqP => e; have := congr1 re e.
rewrite /E cexp_i /re /=.
set t := (2 * PI * _)%coqR => ec.
have pN : (0 < INR N)%coqR by apply: lt_0_INR; lia.
have t2 : (0 < t / 2 < PI)%coqR.
  have a : (0 < IZR y)%coqR by apply: IZR_lt; lia.
  have b : (IZR y < INR N)%coqR by rewrite INR_IZR_INZ; apply: IZR_lt; lia.
  have c : (0 < IZR y / INR N < 1)%coqR.
    split; first by apply: Rdiv_lt_0_compat.
    by apply: (Rmult_lt_reg_r (INR N)) => //; rewrite /Rdiv Rmult_assoc Rinv_l; lra.
  by have p := PI_RGT_0; rewrite /t; nra.
have s := sin_gt_0 (t / 2)%coqR (proj1 t2) (proj2 t2).
have := cos_2a_sin (t / 2)%coqR.
have -> : (2 * (t / 2) = t)%coqR by field.
by rewrite ec; nra.
Qed.
Lemma natC N : (1 : C) *+ N = RtoC (INR N).
Proof. by elim: N => [|k IH] //; rewrite mulrS IH S_INR addrC; Creim; ring. Qed.
Lemma E_sum N z : (0 < N)%N ->
  \sum_(a < N) E N (z * Z.of_nat a)%coqZ = if Z.eqb (z mod Z.of_nat N) 0 then RtoC (INR N) else 0.
Proof.
move=> h; under eq_bigr => a _ do rewrite Z.mul_comm E_natmul.
case: Z.eqb_spec => e.
  have -> : E N z = 1 by rewrite -E_mod // e E0.
  under eq_bigr => a _ do rewrite expr1n.
  by rewrite sumr_const card_ord natC.
have ne := E_neq1 h e; have h1 := subrX1 (E N z) N.
rewrite -E_natmul in h1; have h2 : E N (Z.of_nat N * z)%coqZ = 1 by rewrite Z.mul_comm E_mulN.
rewrite h2 subrr in h1; move/esym/eqP: h1; rewrite mulf_eq0 subr_eq0 (negbTE ne) /= => /eqP.
exact.
Qed.

Lemma waveE N g a : wave N g a = E N (g * Z.of_nat a)%coqZ.
Proof. by rewrite /wave /E mult_IZR -INR_IZR_INZ. Qed.
Lemma dft_kernelE N k a : dft_kernel N k a = E N (- (Z.of_nat k * Z.of_nat a))%coqZ.
Proof.
rewrite EN /dft_kernel /E mult_IZR -!INR_IZR_INZ.
have c (t : R) : Cconj (Ci * RtoC t) = - (Ci * RtoC t) by Creim; ring.
by rewrite cexp_conj c.
Qed.
Lemma E_neq0 N z : E N z != 0. Proof. exact: cexp_neq0. Qed.

(** ** Index arithmetic *)
Lemma gather_mod N z : (0 < N)%N -> (- Z.of_nat N <= z < Z.of_nat N)%coqZ ->
  Z.of_nat (gather_index N z) = (z mod Z.of_nat N)%coqZ /\ (gather_index N z < N)%N.
Proof.
move=> h hz; have hN := posZ h; rewrite /gather_index.
case: Z.ltb_spec => s.
- have -> : (z mod Z.of_nat N = z + Z.of_nat N)%coqZ.
    by symmetry; apply: (Z.mod_unique_pos _ _ (-1)%coqZ); lia.
  by split; [lia|apply/ltP; lia].
- rewrite Z.mod_small; last by lia.
  by split; [lia|apply/ltP; lia].
Qed.
Lemma scatter_gather N z : (0 < N)%N -> (- Z.of_nat N <= z < Z.of_nat N)%coqZ ->
  scatter_index N z = Some (gather_index N z).
Proof.
move=> h hz; have hN := posZ h; rewrite /scatter_index /gather_index.
case: Z.ltb_spec => s; set y := (Z.min _ _).
- have -> : (0 <=? z + Z.of_nat N)%coqZ && (z + Z.of_nat N <? Z.of_nat N)%coqZ.
    by apply/andP; split; [apply/Z.leb_spec0|apply/Z.ltb_spec0]; lia.
  by congr (Some (Z.to_nat _)); rewrite /y; lia.
- have -> : (0 <=? z)%coqZ && (z <? Z.of_nat N)%coqZ.
    by apply/andP; split; [apply/Z.leb_spec0|apply/Z.ltb_spec0]; lia.
  by congr (Some (Z.to_nat _)); rewrite /y; lia.
Qed.

Lemma foldr_max_le (s : seq Z) (b : Z) : (0 <= b)%coqZ ->
  ((foldr Z.max 0 s <= b)%coqZ <-> forall z, List.In z s -> (z <= b)%coqZ).
Proof.
move=> b0; elim: s => [|x s IH] /=; first by split=> // _ z [].
split; first by move=> h z [<-|/(proj1 IH)]; [lia|apply; lia].
move=> h; apply: Z.max_lub; first by apply: h; left.
by apply/IH => z hz; apply: h; right.
Qed.
Lemma in_tnth (A : Type) n (t : n.-tuple A) x : List.In x t <-> exists i, x = tnth t i.
Proof.
case: t => s hs; elim: s n hs => [|y s IH] n hs /=.
  by split=> // -[[m hm] _]; move: (hm); rewrite -(eqP hs).
case: n hs => [//|n] hs; have hs' : size s == n by exact: hs.
have {}IH := IH n hs'; rewrite IH; split.
- case=> [<-|[i ->]]; first by exists ord0.
  by exists (lift ord0 i); rewrite !(tnth_nth y).
- case=> i ->; case: (unliftP ord0 i) => [j ->|->]; last by left.
  by right; exists j; rewrite !(tnth_nth y).
Qed.

Lemma validateP n nx ny (expn : n.-tuple (Z * Z)) :
  validate_shape_for_expansion (nx, ny) expn = Val tt <-> n <> 0%N /\ resolves nx ny expn.
Proof.
have nn (s : seq Z) : (0 <= foldr Z.max 0 s)%coqZ by elim: s => [|x s IH] /=; lia.
rewrite /validate_shape_for_expansion /min_array_shape_for_expansion /check; case: eqP => hn /=.
  by split=> // -[].
set M1 := foldr _ _ _; set M2 := foldr _ _ _.
have h1 i : (Z.abs (tnth expn i).1 <= M1)%coqZ.
  apply: (proj1 (foldr_max_le _ (nn _))); first exact: Z.le_refl.
  by apply: (@List.in_map _ _ (fun c : Z * Z => Z.abs c.1)); apply/in_tnth; exists i.
have h2 i : (Z.abs (tnth expn i).2 <= M2)%coqZ.
  apply: (proj1 (foldr_max_le _ (nn _))); first exact: Z.le_refl.
  by apply: (@List.in_map _ _ (fun c : Z * Z => Z.abs c.2)); apply/in_tnth; exists i.
have h1' b : (0 <= b)%coqZ -> (forall i, (Z.abs (tnth expn i).1 <= b)%coqZ) -> (M1 <= b)%coqZ.
  move=> b0 h; apply/foldr_max_le => // z hz.
  have [c [<- hc]] := proj1 (List.in_map_iff (fun c : Z * Z => Z.abs c.1) expn z) hz.
  by case/in_tnth: hc => i ->; apply: h.
have h2' b : (0 <= b)%coqZ -> (forall i, (Z.abs (tnth expn i).2 <= b)%coqZ) -> (M2 <= b)%coqZ.
  move=> b0 h; apply/foldr_max_le => // z hz.
  have [c [<- hc]] := proj1 (List.in_map_iff (fun c : Z * Z => Z.abs c.2) expn z) hz.
  by case/in_tnth: hc => i ->; apply: h.
have n0 : (0 < n)%N by rewrite lt0n; apply/eqP.
have M10 := nn [seq Z.abs c.1 | c <- expn]; have M20 := nn [seq Z.abs c.2 | c <- expn].
rewrite -/M1 in M10; rewrite -/M2 in M20.
move: M1 M2 M10 M20 h1 h2 h1' h2' => M1 M2 M10 M20 h1 h2 h1' h2'.
rewrite [match M1 with 0%coqZ => _ | _ => _ end](_ : _ = (2 * M1)%coqZ) //.
rewrite [match M2 with 0%coqZ => _ | _ => _ end](_ : _ = (2 * M2)%coqZ) //.
have k1 : resolves nx ny expn -> (2 * M1 < Z.of_nat nx)%coqZ.
  move=> hr; have hx := proj1 (hr (Ordinal n0)).
  have hb : (0 <= (Z.of_nat nx - 1) / 2)%coqZ by apply: Z.div_pos; lia.
  suff : (M1 <= (Z.of_nat nx - 1) / 2)%coqZ by have := Z.mul_div_le (Z.of_nat nx - 1) 2; lia.
  by apply: h1' => // i; apply: Z.div_le_lower_bound; have := proj1 (hr i); lia.
have k2 : resolves nx ny expn -> (2 * M2 < Z.of_nat ny)%coqZ.
  move=> hr; have hx := proj2 (hr (Ordinal n0)).
  have hb : (0 <= (Z.of_nat ny - 1) / 2)%coqZ by apply: Z.div_pos; lia.
  suff : (M2 <= (Z.of_nat ny - 1) / 2)%coqZ by have := Z.mul_div_le (Z.of_nat ny - 1) 2; lia.
  by apply: h2' => // i; apply: Z.div_le_lower_bound; have := proj2 (hr i); lia.
case: (Z.ltb_spec (Z.of_nat nx)) => g1; case: (Z.ltb_spec (Z.of_nat ny)) => g2; split=> //=.
- by move=> [_ hr]; have := k1 hr; lia.
- by move=> [_ hr]; have := k1 hr; lia.
- by move=> [_ hr]; have := k2 hr; lia.
- by move=> _; split=> // i; have := h1 i; have := h2 i; lia.
Qed.
Lemma validateE n nx ny (expn : n.-tuple (Z * Z)) :
  validate_shape_for_expansion (nx, ny) expn = Val tt \/
  validate_shape_for_expansion (nx, ny) expn = Exn ValueError.
Proof.
rewrite /validate_shape_for_expansion /min_array_shape_for_expansion /check.
by case: eqP => hn /=; [right|case: (~~ _); [left|right]].
Qed.
Lemma resolves_pos nx ny n (expn : n.-tuple (Z * Z)) : n <> 0%N -> resolves nx ny expn ->
  (0 < nx)%N /\ (0 < ny)%N.
Proof.
move=> hn hr; have n0 : (0 < n)%N by rewrite lt0n; apply/eqP.
by have [] := hr (Ordinal n0); split; apply/ltP; lia.
Qed.

(** ** Coefficients *)
Lemma mxgetE nx ny (x : 'M[C]_(nx, ny)) i j (hi : (i < nx)%N) (hj : (j < ny)%N) :
  mxget x i j = x (Ordinal hi) (Ordinal hj).
Proof. by rewrite /mxget !insubT. Qed.

Lemma fft2_entry nx ny (x : 'M[C]_(nx, ny)) (g : Z * Z) : (0 < nx)%N -> (0 < ny)%N ->
  (- Z.of_nat nx <= g.1 < Z.of_nat nx)%coqZ -> (- Z.of_nat ny <= g.2 < Z.of_nat ny)%coqZ ->
  mxget (\matrix_(k, l) (fft2 x k l / RtoC (INR (nx * ny)%N)))
    (gather_index nx g.1) (gather_index ny g.2) = fourier_coefficient x g.
Proof.
move=> px py hx hy; have [ex lx] := gather_mod px hx; have [ey ly] := gather_mod py hy.
rewrite (mxgetE _ lx ly) !mxE /fourier_coefficient mult_INR; congr (_ / _).
apply: eq_bigr => a _; apply: eq_bigr => b _; congr (_ * _).
rewrite rmorphM /= !waveE !dft_kernelE -!EN /= ex ey; congr (_ * _); apply: E_eqmod => //.
- by rewrite -!Z.mul_opp_r Zmult_mod_idemp_l.
- by rewrite -!Z.mul_opp_r Zmult_mod_idemp_l.
Qed.
Lemma fft_entry nx ny n (x : 'M[C]_(nx, ny)) (expn : n.-tuple (Z * Z)) y :
  fft x expn = Val y -> y = \col_i fourier_coefficient x (tnth expn i).
Proof.
rewrite /fft; case: (validateE nx ny expn) => e; rewrite e //= => -[<-].
have [n0 hr] := proj1 (validateP nx ny expn) e; have [px py] := resolves_pos n0 hr.
apply/colP => i; rewrite mxE [RHS]mxE fft2_entry //; have := hr i; lia.
Qed.
Lemma conv_entry nx ny n (x : 'M[C]_(nx, ny)) (expn : n.-tuple (Z * Z)) T :
  fourier_convolution_matrix x expn = Val T ->
  T = \matrix_(i, j) fourier_coefficient x (standard_toeplitz_index expn i j).
Proof.
rewrite /fourier_convolution_matrix; case: (validateE nx ny expn) => e; rewrite e //= => -[<-].
have [n0 hr] := proj1 (validateP nx ny expn) e; have [px py] := resolves_pos n0 hr.
apply/matrixP => i j; rewrite mxE [RHS]mxE.
rewrite (@fft2_entry nx ny x (standard_toeplitz_index expn i j)) //=; have := hr i; have := hr j; lia.
Qed.
Lemma fft_total nx ny n (x : 'M[C]_(nx, ny)) (expn : n.-tuple (Z * Z)) :
  n <> 0%N -> resolves nx ny expn -> exists y, fft x expn = Val y.
Proof. by move=> h0 hr; rewrite /fft (proj2 (validateP nx ny expn)) //=; eexists. Qed.
Lemma conv_total nx ny n (x : 'M[C]_(nx, ny)) (expn : n.-tuple (Z * Z)) :
  n <> 0%N -> resolves nx ny expn -> exists T, fourier_convolution_matrix x expn = Val T.
Proof.
by move=> h0 hr; rewrite /fourier_convolution_matrix (proj2 (validateP nx ny expn)) //=; eexists.
Qed.

(** ** Writing coefficients *)
Lemma foldl_last (I : eqType) (s : seq I) (P : pred I) (f : I -> C) (a : C) : uniq s ->
  {in s &, forall i j, P i -> P j -> i = j} ->
  foldl (fun acc i => if P i then f i else acc) a s =
  if has P s then \sum_(i <- s) (if P i then f i else 0) else a.
Proof.
elim: s a => [|x s IH] a //= /andP[hx hu] hP.
rewrite IH //; last by move=> i j hi hj; apply: hP; rewrite inE ?hi ?hj orbT.
rewrite big_cons; case px: (P x) => /=; last by rewrite add0r.
have hn i : i \in s -> P i = false.
  move=> hi; apply/negP => pi; move/negP: hx; apply.
  by rewrite (hP x i) ?inE ?eqxx ?hi ?orbT.
case: hasP => [[i hi pi]|_]; first by rewrite hn in pi.
by rewrite big_seq big1 ?addr0 // => i hi; rewrite hn.
Qed.

Lemma foldl_ext (A B : Type) (f g : A -> B -> A) a s : (forall a b, f a b = g a b) ->
  foldl f a s = foldl g a s.
Proof. by move=> h; elim: s a => [|x s IH] a //=; rewrite h IH. Qed.

Lemma gather_inj N y z : (2 * Z.abs y < Z.of_nat N)%coqZ -> (2 * Z.abs z < Z.of_nat N)%coqZ ->
  gather_index N y = gather_index N z -> y = z.
Proof.
move=> hy hz e; have p : (0 < N)%N by apply/ltP; lia.
have [ey _] := @gather_mod N y p ltac:(lia); have [ez _] := @gather_mod N z p ltac:(lia).
rewrite e ez in ey.
have d : ((y - z) mod Z.of_nat N = 0)%coqZ by rewrite Zminus_mod -ey Z.sub_diag Zmod_0_l.
have [k hk] := proj1 (Z.mod_divide (y - z) (Z.of_nat N) ltac:(lia)) d.
suff : k = 0%coqZ by lia.
nia.
Qed.

Lemma scatterE nx ny n (expn : n.-tuple (Z * Z)) (y : 'cV[C]_n) k l :
  resolves nx ny expn -> distinct expn ->
  scatter nx ny expn y k l =
  \sum_i (if (gather_index nx (tnth expn i).1 == k) && (gather_index ny (tnth expn i).2 == l)
          then y i 0 else 0).
Proof.
move=> hr hd; rewrite mxE.
have px : (0 < nx)%N by apply: leq_ltn_trans (ltn_ord k).
have py : (0 < ny)%N by apply: leq_ltn_trans (ltn_ord l).
set P := fun i => (gather_index nx (tnth expn i).1 == k) && (gather_index ny (tnth expn i).2 == l).
rewrite (@foldl_ext _ _ _ (fun acc i => if P i then y i 0 else acc)).
- rewrite foldl_last ?enum_uniq //.
    rewrite big_enum /=; case: hasP => [//|hn]; rewrite big1 // => i _.
    by case hp: (_ && _) => //; case: hn; exists i; rewrite ?mem_enum.
  move=> i j _ _ /andP[/eqP a /eqP b] /andP[/eqP c /eqP d]; apply: hd.
  have := hr i; have := hr j; move: a b c d.
  case: (tnth expn i) (tnth expn j) => [u v] [u' v'] /= a b c d [? ?] [? ?].
  by rewrite (@gather_inj nx u u') // ?a ?c // (@gather_inj ny v v') // b d.
- move=> acc i; rewrite !scatter_gather //; have := hr i; lia.
Qed.

Lemma ifftE nx ny n (expn : n.-tuple (Z * Z)) (y : 'cV[C]_n) :
  n <> 0%N -> resolves nx ny expn -> distinct expn ->
  ifft_values y expn nx ny = fourier_series expn y nx ny.
Proof.
move=> n0 hr hd; have [px py] := resolves_pos n0 hr.
apply/matrixP => a b; rewrite /ifft_values /ifft2_forward mxE [RHS]mxE.
transitivity (\sum_(k < nx) \sum_i \sum_(l < ny)
   (if (gather_index nx (tnth expn i).1 == k) && (gather_index ny (tnth expn i).2 == l)
    then y i 0 else 0) * (Cconj (dft_kernel nx k a) * Cconj (dft_kernel ny l b))).
  apply: eq_bigr => k _; rewrite exchange_big; apply: eq_bigr => l _.
  by rewrite scatterE // mulr_suml.
rewrite exchange_big; apply: eq_bigr => i _ /=.
have [ex lx] := @gather_mod nx (tnth expn i).1 px ltac:(have := hr i; lia).
have [ey ly] := @gather_mod ny (tnth expn i).2 py ltac:(have := hr i; lia).
rewrite (bigD1 (Ordinal lx)) //= [X in _ + X]big1 ?addr0; last first.
  move=> k hk; apply: big1 => l _; case: eqP => [e|_]; last by rewrite mul0r.
  by case/eqP: hk; apply: val_inj.
rewrite (bigD1 (Ordinal ly)) //= [X in _ + X]big1 ?addr0; last first.
  move=> l hl; case: (_ =P nat_of_ord l) => [e|_]; last by rewrite andbF mul0r.
  by case/eqP: hl; apply: val_inj.
rewrite !eqxx /= !dft_kernelE -!EN !waveE /= !Z.opp_involutive ex ey.
by congr (_ * (_ * _)); apply: E_eqmod => //; rewrite Zmult_mod_idemp_l.
Qed.

(** ** Orthogonality *)
Lemma coefficient_wave nx ny (f g : Z * Z) : (0 < nx)%N -> (0 < ny)%N ->
  fourier_coefficient (\matrix_(a < nx, b < ny) (wave nx f.1 a * wave ny f.2 b)) g =
  if Z.eqb ((f.1 - g.1) mod Z.of_nat nx) 0 && Z.eqb ((f.2 - g.2) mod Z.of_nat ny) 0 then 1 else 0.
Proof.
move=> px py; rewrite /fourier_coefficient.
have e : \sum_(a < nx) \sum_(b < ny) (\matrix_(a < nx, b < ny) (wave nx f.1 a * wave ny f.2 b)) a b *
         Cconj (wave nx g.1 a * wave ny g.2 b) =
         (\sum_(a < nx) E nx ((f.1 - g.1) * Z.of_nat a)%coqZ) * (\sum_(b < ny) E ny ((f.2 - g.2) * Z.of_nat b)%coqZ).
  rewrite mulr_suml; apply: eq_bigr => a _; rewrite mulr_sumr; apply: eq_bigr => b _.
  rewrite mxE rmorphM /= !waveE -!EN !Z.mul_sub_distr_r -!Z.add_opp_r !ED; move: (E _ _) (E _ _) (E _ _) (E _ _) => p q r s.
  by rewrite -!mulrA; congr (_ * _); rewrite !mulrA; congr (_ * _); rewrite mulrC.
rewrite e !E_sum //.
have nz N : (0 < N)%N -> RtoC (INR N) != 0.
  by move=> h; apply/eqP => /(congr1 re) /= e0; have := lt_0_INR N ltac:(exact/ltP); rewrite /re /= in e0; lra.
case: Z.eqb; case: Z.eqb; rewrite ?mul0r ?mulr0 ?mul0r // -[RtoC (_ * _)%coqR]/(RtoC (INR nx * INR ny)).
by rewrite rmorphM divff // mulf_neq0 ?nz.
Qed.
Lemma coefficient_sum nx ny (I : finType) (x : I -> 'M[C]_(nx, ny)) (c : I -> C) g :
  fourier_coefficient (\matrix_(a, b) \sum_i c i * x i a b) g = \sum_i c i * fourier_coefficient (x i) g.
Proof.
rewrite /fourier_coefficient.
under [RHS]eq_bigr => i _ do rewrite mulrA mulr_sumr.
rewrite -mulr_suml; congr (_ / _).
rewrite [RHS]exchange_big; apply: eq_bigr => a _.
under [RHS]eq_bigr => i _ do rewrite mulr_sumr.
rewrite [RHS]exchange_big; apply: eq_bigr => b _; rewrite mxE mulr_suml.
by apply: eq_bigr => i _; rewrite mulrA.
Qed.
Lemma coefficient_series nx ny n (expn : n.-tuple (Z * Z)) (y : 'cV[C]_n) (i : 'I_n) :
  resolves nx ny expn -> distinct expn ->
  fourier_coefficient (fourier_series expn y nx ny) (tnth expn i) = y i 0.
Proof.
move=> hr hd.
have n0 : n <> 0%N by move=> e; have := leq_ltn_trans (leq0n _) (ltn_ord i); rewrite e.
have [px py] := resolves_pos n0 hr.
transitivity (\sum_j y j 0 * fourier_coefficient (\matrix_(a < nx, b < ny)
   (wave nx (tnth expn j).1 a * wave ny (tnth expn j).2 b)) (tnth expn i)).
  rewrite -coefficient_sum; congr (fourier_coefficient _ _); apply/matrixP => a b.
  by rewrite !mxE; apply: eq_bigr => j _; rewrite mxE.
rewrite (bigD1 i) //= coefficient_wave // !Z.sub_diag !Zmod_0_l /= mulr1 big1 ?addr0 // => j hj.
rewrite coefficient_wave //; case: ifP => [/andP[/Z.eqb_spec h1 /Z.eqb_spec h2]|_]; last by rewrite mulr0.
case/eqP: hj; apply: hd; have := hr i; have := hr j.
move: h1 h2; case: (tnth expn i) (tnth expn j) => [u v] [u' v']; cbn [fst snd] => h1 h2 [? ?] [? ?].
have z N d : (Z.abs d < Z.of_nat N)%coqZ -> (d mod Z.of_nat N = 0)%coqZ -> d = 0%coqZ.
  move=> hd0 hm; have [k hk] := proj1 (Z.mod_divide d (Z.of_nat N) ltac:(lia)) hm.
  have k0 : k = 0%coqZ by nia.
  by rewrite hk k0.
have := z nx (u' - u)%coqZ ltac:(lia) h1; have := z ny (v' - v)%coqZ ltac:(lia) h2.
by move=> a b; congr (_, _); lia.
Qed.

(** ** Algebra of coefficients *)
Lemma coefficientD nx ny (x y : 'M[C]_(nx, ny)) a g :
  fourier_coefficient (a *: x + y) g = a * fourier_coefficient x g + fourier_coefficient y g.
Proof.
rewrite /fourier_coefficient [a * _]mulrA -mulrDl; congr (_ / _).
rewrite mulr_sumr -big_split; apply: eq_bigr => i _ /=.
rewrite mulr_sumr -big_split; apply: eq_bigr => j _ /=.
by rewrite !mxE mulrDl mulrA.
Qed.
Lemma coefficient_conj nx ny (x : 'M[C]_(nx, ny)) g :
  fourier_coefficient (map_mx Cconj x) g = Cconj (fourier_coefficient x (- g.1, - g.2)%coqZ).
Proof.
rewrite /fourier_coefficient [RHS]rmorphM fmorphV /= Cconj_RC; congr (_ / _).
rewrite rmorph_sum; apply: eq_bigr => i _; rewrite rmorph_sum; apply: eq_bigr => j _ /=.
rewrite mxE rmorphM /= !rmorphM /= !waveE -!EN /= !Z.mul_opp_l.
by rewrite ?Z.opp_involutive.
Qed.
Lemma coefficient_const nx ny (c : C) g : (0 < nx)%N -> (0 < ny)%N ->
  fourier_coefficient (const_mx c : 'M_(nx, ny)) g =
  if Z.eqb (g.1 mod Z.of_nat nx) 0 && Z.eqb (g.2 mod Z.of_nat ny) 0 then c else 0.
Proof.
move=> px py.
transitivity (c * fourier_coefficient (\matrix_(a < nx, b < ny) (wave nx 0 a * wave ny 0 b)) g).
  rewrite -[RHS]addr0 -[X in _ + X](_ : fourier_coefficient (0 : 'M_(nx,ny)) g = _).
    rewrite -coefficientD; congr (fourier_coefficient _ _); apply/matrixP => a b.
    by rewrite addr0 !mxE !waveE /= !E0 !mulr1.
  rewrite /fourier_coefficient big1 ?mul0r // => a _; rewrite big1 // => b _.
  by rewrite mxE mul0r.
rewrite (@coefficient_wave nx ny (0, 0)%coqZ g) //.
have m N z : (0 < N)%N -> Z.eqb ((0 - z) mod Z.of_nat N) 0 = Z.eqb (z mod Z.of_nat N) 0.
  move=> /ltP p; have nz : Z.of_nat N <> 0%coqZ by lia.
  have d := Z.mod_divide _ _ nz; apply/Z.eqb_spec/Z.eqb_spec => /d [k hk]; apply/d; exists (- k)%coqZ; lia.
rewrite !m //.
by case: ifP => _; rewrite ?mulr1 ?mulr0.
Qed.
(** Multiplying by a plane wave shifts the coefficients. *)
Lemma coefficient_shift nx ny (x : 'M[C]_(nx, ny)) (f g : Z * Z) :
  fourier_coefficient (pointwise x (\matrix_(a, b) (wave nx f.1 a * wave ny f.2 b))) g =
  fourier_coefficient x (g.1 - f.1, g.2 - f.2)%coqZ.
Proof.
rewrite /fourier_coefficient; congr (_ / _).
apply: eq_bigr => a _; apply: eq_bigr => b _; rewrite !mxE !rmorphM /= !waveE -!EN.
have s p q r : E p (- ((q - r) * Z.of_nat a))%coqZ = E p (r * Z.of_nat a)%coqZ * E p (- (q * Z.of_nat a))%coqZ.
  by rewrite -ED; congr (E _ _); ring.
have s' p q r : E p (- ((q - r) * Z.of_nat b))%coqZ = E p (r * Z.of_nat b)%coqZ * E p (- (q * Z.of_nat b))%coqZ.
  by rewrite -ED; congr (E _ _); ring.
rewrite s s'; move: (E _ _) (E _ _) (E _ _) (E _ _) (x a b) => p q r t u; toC; ring.
Qed.

(** Proofs about fields on grids, coordinates and heights. *)
From Coq Require Import Reals ZArith Lra Lia FunctionalExtensionality.
From mathcomp Require Import all_ssreflect all_algebra.
From Verif Require Import CField Err LinAlg M_utils M_basis M_fft M_fmm_matrices M_fmm M_scattering M_fields S_stack S_maxwell S_fft S_fields L_scattering L_stack L_maxwell L_fft L_scale.
Set Implicit Arguments. Unset Strict Implicit. Unset Printing Implicit Defensive.
Import GRing.Theory.
Local Open Scope ring_scope.

Lemma f6_ext A B (f g : A -> B) x : (forall y, f y = g y) -> fields6_map f x = fields6_map g x.
Proof. by move=> e; rewrite /fields6_map !e. Qed.
Lemma f6_comp A B D (f : A -> B) (g : B -> D) x : fields6_map g (fields6_map f x) = fields6_map (fun y => g (f y)) x.
Proof. by []. Qed.
Lemma f6_mapM A B (f : A -> res B) (g : A -> B) x : (forall y, f y = Val (g y)) -> fields6_mapM f x = Val (fields6_map g x).
Proof. by move=> e; rewrite /fields6_mapM !e. Qed.

Definition bragg_vector n (rv : lattice) (expn : n.-tuple (Z * Z)) (i : 'I_n) : R * R :=
  (2 * PI * (IZR (tnth expn i).1 * (lat_u rv).1 + IZR (tnth expn i).2 * (lat_v rv).1),
   2 * PI * (IZR (tnth expn i).1 * (lat_u rv).2 + IZR (tnth expn i).2 * (lat_v rv).2))%coqR.
Lemma reciprocalV plv rv : reciprocal plv = Val rv ->
  [/\ dot (lat_u rv) (lat_u plv) = 1%coqR, dot (lat_u rv) (lat_v plv) = 0%coqR,
      dot (lat_v rv) (lat_u plv) = 0%coqR & dot (lat_v rv) (lat_v plv) = 1%coqR].
Proof.
move=> H; binv H r hr; case: H => <-; case/recipRV: hr => /eqP h ->; rewrite /dot /= RinvE.
move: h; rewrite /cross_product R0E => h; split; field => // e; apply: h; lra.
Qed.
Lemma bragg_vectorP plv rv n (expn : n.-tuple (Z * Z)) i : reciprocal plv = Val rv ->
  bragg plv (tnth expn i) (bragg_vector rv expn i).
Proof.
move=> /reciprocalV [a b c d]; rewrite /bragg /bragg_vector; move: a b c d; rewrite /dot /=.
move: (IZR (tnth expn i).1) (IZR (tnth expn i).2) => p q; move: (lat_u rv) (lat_v rv) (lat_u plv) (lat_v plv) => [u1 u2] [v1 v2] [a1 a2] [b1 b2] /= h1 h2 h3 h4.
split.
- transitivity (2 * PI * (p * (u1 * a1 + u2 * a2) + q * (v1 * a1 + v2 * a2)))%coqR; first by ring.
  by rewrite h1 h3; ring.
- transitivity (2 * PI * (p * (u1 * b1 + u2 * b2) + q * (v1 * b1 + v2 * b2)))%coqR; first by ring.
  by rewrite h2 h4; ring.
Qed.
Lemma coordinatesE n m p (f : fields6 'M[C]_(n, m)) (l : layer_solve_result n) (x y : 'I_p -> R) rv :
  reciprocal (primitive_lattice_vectors l) = Val rv ->
  fields_on_coordinates f l x y =
  Val (fields6_map (fun F pt j => plane_waves (in_plane_wavevector l) (bragg_vector rv (expansion l)) F (x pt, y pt) j) f,
       fun pt => (x pt, y pt)).
Proof.
move=> h; rewrite /fields_on_coordinates /transverse_wavevectors h /=.
congr (Val (_, _)); apply: f6_ext => F; apply: functional_extensionality => pt.
apply: functional_extensionality => j; apply: eq_bigr => i _; congr (_ * cexp (_ * RtoC _)).
by rewrite !mxE /dot /bragg_vector /vadd.
Qed.
Lemma cexp_2piZ (z : Z) : cexp (Ci * RtoC (2 * PI * IZR z)%coqR) = 1.
Proof.
have := @E_mulN 1 z isT; rewrite /E => <-; congr (cexp (_ * RtoC _)).
by rewrite mult_IZR /=; field.
Qed.
Lemma dotDl a b c : dot (vadd a b) c = (dot a c + dot b c)%coqR. Proof. rewrite /dot /=; ring. Qed.
Lemma dotDr a b c : dot c (vadd a b) = (dot c a + dot c b)%coqR. Proof. rewrite /dot /=; ring. Qed.
Lemma bragg_lattice plv o G a b : bragg plv o G ->
  dot G (lattice_point plv a b) = (2 * PI * IZR (a * o.1 + b * o.2))%coqR.
Proof.
rewrite /bragg /lattice_point /dot /= => -[h1 h2]; rewrite plus_IZR !mult_IZR.
transitivity (IZR a * (2 * PI * IZR o.1) + IZR b * (2 * PI * IZR o.2))%coqR; last by ring.
rewrite -h1 -h2; ring.
Qed.
Lemma plane_waves_bloch n m plv k G (f : 'M[C]_(n, m)) (expn : n.-tuple (Z * Z)) r a b j :
  (forall i, bragg plv (tnth expn i) (G i)) ->
  plane_waves k G f (vadd r (lattice_point plv a b)) j =
  cexp (Ci * RtoC (dot k (lattice_point plv a b))) * plane_waves k G f r j.
Proof.
move=> h; rewrite /plane_waves big_distrr; apply: eq_bigr => i _ /=.
have -> : Ci * RtoC (dot (vadd k (G i)) (vadd r (lattice_point plv a b))) =
  Ci * RtoC (dot k (lattice_point plv a b)) + Ci * RtoC (dot (vadd k (G i)) r)
  + Ci * RtoC (2 * PI * IZR (a * (tnth expn i).1 + b * (tnth expn i).2))%coqR.
  rewrite -(bragg_lattice a b (h i)) -!mulrDr -!rmorphD /=; congr (_ * RtoC _).
  by rewrite !RaddE dotDr !dotDl; ring.
by rewrite !cexpD cexp_2piZ mulr1; Cring.
Qed.

Lemma waveM N g a : (0 < N)%N -> wave N g (a %% N) = wave N g a.
Proof.
move=> N0; rewrite !waveE; apply: E_eqmod => //.
have := posZ N0 => p.
have -> : Z.of_nat a = (Z.of_nat (a %% N) + Z.of_nat (a %/ N) * Z.of_nat N)%coqZ.
  by rewrite {1}(divn_eq a N) /addn /muln /= Nat2Z.inj_add Nat2Z.inj_mul; lia.
by rewrite Z.mul_add_distr_l Z.mul_assoc Z_mod_plus_full.
Qed.
Lemma grid_dot plv rv n (expn : n.-tuple (Z * Z)) k shape (i j : nat) o :
  reciprocal plv = Val rv -> (0 < shape.1)%N -> (0 < shape.2)%N ->
  cexp (Ci * RtoC (dot (vadd k (bragg_vector rv expn o)) (unit_cell_coordinate plv shape i j))) =
  wave shape.1 (tnth expn o).1 i * wave shape.2 (tnth expn o).2 j *
  cexp (Ci * RtoC (dot k (unit_cell_coordinate plv shape i j))).
Proof.
move=> hr s1 s2; rewrite /wave -!cexpD -!mulrDr -!rmorphD /=; congr (cexp (_ * RtoC _)).
rewrite !RaddE dotDl; have [h1 h2] := bragg_vectorP expn o hr.
transitivity (dot (bragg_vector rv expn o) (unit_cell_coordinate plv shape i j) + dot k (unit_cell_coordinate plv shape i j))%coqR; first by ring.
congr Rplus.
transitivity (INR i / INR shape.1 * dot (bragg_vector rv expn o) (lat_u plv)
             + INR j / INR shape.2 * dot (bragg_vector rv expn o) (lat_v plv))%coqR.
  by rewrite /dot /unit_cell_coordinate /=; ring.
rewrite h1 h2; field; split; apply: not_0_INR; by [move: s2; case: shape.2|move: s1; case: shape.1].
Qed.
Lemma gridE n m (f : fields6 'M[C]_(n, m)) (l : layer_solve_result n) shape nuc rv :
  reciprocal (primitive_lattice_vectors l) = Val rv -> distinct (expansion l) ->
  n <> 0%N -> resolves shape.1 shape.2 (expansion l) ->
  fields_on_grid f l shape nuc =
  Val (fields6_map (fun F (pt : grid_point shape nuc) j => plane_waves (in_plane_wavevector l) (bragg_vector rv (expansion l)) F
           (unit_cell_coordinate (primitive_lattice_vectors l) shape pt.1 pt.2) j) f,
       fun pt : grid_point shape nuc => unit_cell_coordinate (primitive_lattice_vectors l) shape pt.1 pt.2).
Proof.
move=> hr hd n0 hres; have hv : validate_shape_for_expansion shape (expansion l) = Val tt.
  by rewrite [shape]surjective_pairing; apply/validateP.
have [s1 s2] := resolves_pos n0 hres.
rewrite /fields_on_grid hv; cbn [bind].
rewrite (@f6_mapM _ _ _ (fun F (pt : grid_point shape nuc) j => plane_waves (in_plane_wavevector l) (bragg_vector rv (expansion l)) F
           (unit_cell_coordinate (primitive_lattice_vectors l) shape pt.1 pt.2) j)) // => F.
congr Val; apply: functional_extensionality => pt; apply: functional_extensionality => j.
have m1 : (pt.1 %% shape.1 < shape.1)%N by rewrite ltn_mod.
have m2 : (pt.2 %% shape.2 < shape.2)%N by rewrite ltn_mod.
rewrite ifftE // (mxgetE _ m1 m2) mxE /plane_waves big_distrl; apply: eq_bigr => i _ /=.
rewrite grid_dot // !mxE !waveM // -!mulrA; congr (_ * (_ * (_ * _))).
Qed.

(** ** Columns *)
Definition cols p m m' (s : 'I_m' -> 'I_m) (M : 'M[C]_(p, m)) : 'M[C]_(p, m') := \matrix_(i, j) M i (s j).
Lemma cols_mul p q m m' (s : 'I_m' -> 'I_m) (A : 'M[C]_(p, q)) (M : 'M[C]_(q, m)) : cols s (A *m M) = A *m cols s M.
Proof. by apply/matrixP=> i j; rewrite !mxE; apply: eq_bigr => k _; rewrite mxE. Qed.
Lemma cols_us p q m m' (s : 'I_m' -> 'I_m) (M : 'M[C]_(p + q, m)) : usubmx (cols s M) = cols s (usubmx M).
Proof. by apply/matrixP=> i j; rewrite !mxE. Qed.
Lemma cols_ds p q m m' (s : 'I_m' -> 'I_m) (M : 'M[C]_(p + q, m)) : dsubmx (cols s M) = cols s (dsubmx M).
Proof. by apply/matrixP=> i j; rewrite !mxE. Qed.
Lemma cols_col p q m m' (s : 'I_m' -> 'I_m) (M : 'M[C]_(p, m)) (N : 'M[C]_(q, m)) : col_mx (cols s M) (cols s N) = cols s (col_mx M N).
Proof. by apply/matrixP=> i j; rewrite !mxE; case: split => k; rewrite mxE. Qed.
Lemma cols_N p m m' (s : 'I_m' -> 'I_m) (M : 'M[C]_(p, m)) : - cols s M = cols s (- M).
Proof. by apply/matrixP=> i j; rewrite !mxE. Qed.
Lemma cols_D p m m' (s : 'I_m' -> 'I_m) (M N : 'M[C]_(p, m)) : cols s M + cols s N = cols s (M + N).
Proof. by apply/matrixP=> i j; rewrite !mxE. Qed.
Lemma cols_Z p m m' (s : 'I_m' -> 'I_m) c (M : 'M[C]_(p, m)) : c *: cols s M = cols s (c *: M).
Proof. by apply/matrixP=> i j; rewrite !mxE. Qed.
Lemma cols_row p m m' (s : 'I_m' -> 'I_m) v (M : 'M[C]_(p, m)) : rowscale v (cols s M) = cols s (rowscale v M).
Proof. by apply/matrixP=> i j; rewrite !mxE. Qed.
Lemma fields_cols n m m' (s : 'I_m' -> 'I_m) (a b : 'M[C]_(n + n, m)) (l : layer_solve_result n) :
  fields_from_wave_amplitudes (cols s a) (cols s b) l =
  rmap (fields6_map (cols s)) (fields_from_wave_amplitudes a b l).
Proof.
rewrite /fields_from_wave_amplitudes bind_rmap; apply: eq_bind => M _.
rewrite bind_rmap; apply: eq_bind => k _; rewrite bind_rmap; apply: eq_bind => w _.
rewrite bind_rmap; apply: eq_bind => r _ /=.
rewrite /fields6_map /= cols_col -cols_mul !(cols_us, cols_ds) !cols_N !cols_row !cols_N !cols_D -!cols_mul !cols_Z.
by [].
Qed.

(** An xy slice function treats the columns separately. *)
Definition columnwise n P (fn : fields_xy_slice_fn n P) := forall m m' (s : 'I_m' -> 'I_m) f l,
  fn m' (fields6_map (cols s) f) l =
  rmap (fun gx => (fields6_map (fun (h : xyfield P m) pt j => h pt (s j)) gx.1, gx.2)) (fn m f l).
Lemma coordinates_columnwise n p (x y : 'I_p -> R) :
  columnwise (fun m (f : fields6 'M[C]_(n, m)) l => fields_on_coordinates f l x y).
Proof.
move=> m m' s f l; rewrite /fields_on_coordinates bind_rmap; apply: eq_bind => k _ /=.
congr (Val (_, _)); rewrite !f6_comp; apply: f6_ext => F.
apply: functional_extensionality => pt; apply: functional_extensionality => j.
by apply: eq_bigr => i _; rewrite mxE.
Qed.
Lemma grid_columnwise n shape nuc :
  columnwise (fun m (f : fields6 'M[C]_(n, m)) l => fields_on_grid f l shape nuc).
Proof.
move=> m m' s f l; rewrite /fields_on_grid; case: (validate_shape_for_expansion _ _) => [[]|e] //=.
congr (Val (_, _)); rewrite /fields6_map /=.
suff h (F : 'M[C]_(n, m)) j : col j (cols s F) = col (s j) F.
  by congr Fields; apply: functional_extensionality => pt; apply: functional_extensionality => j; rewrite h.
by apply/matrixP=> a b; rewrite !mxE.
Qed.

(** ** Heights *)
Lemma linspaceE t num i : (i < num)%N -> linspace0 t num i = sample_height t num i.
Proof.
rewrite /linspace0 /sample_height; case: eqP => [-> |_ _]; last by rewrite /Rdiv; ring.
by case: i => // _; rewrite /= /Rdiv !Rmult_0_l.
Qed.
Lemma flat_zK znum m (z : 'I_znum) (b : 'I_m) : flat_z (flat_index z b) = z.
Proof.
have m0 : (0 < m)%N by case: m b => // -[].
by rewrite /flat_z /= divnMDl // divn_small ?addn0.
Qed.
Lemma flat_bK znum m (z : 'I_znum) (b : 'I_m) : flat_b (flat_index z b) = b.
Proof. by apply: val_inj; rewrite /= modnMDl modn_small. Qed.

Lemma nth_errorE A (x0 : A) s i : (i < size s)%N -> List.nth_error s i = Some (nth x0 s i).
Proof. by elim: s i => [|x s IH] [|i] //=; exact: IH. Qed.
Lemma nth_error_cat A (s1 s2 : seq A) i : List.nth_error (s1 ++ s2) i =
  if (i < size s1)%N then List.nth_error s1 i else List.nth_error s2 (i - size s1).
Proof. by elim: s1 i => [|x s1 IH] [|i] //=; rewrite ?subn0 // IH ltnS subSS. Qed.
Lemma nth_error_size A (s : seq A) i x : List.nth_error s i = Some x -> (i < size s)%N.
Proof. by elim: s i => [|y s IH] [|i] //= /IH. Qed.
Lemma nth_error_map A B (f : A -> B) s i : List.nth_error [seq f x | x <- s] i = omap f (List.nth_error s i).
Proof. by elim: s i => [|x s IH] [|i] //=; exact: IH. Qed.
Lemma propagate_cols n m m' (s : 'I_m' -> 'I_m) (a : 'M[C]_(n + n, m)) (d : 'rV[R]_m) (l : layer_solve_result n) :
  cols s (propagate_amplitude a d l) = propagate_amplitude (cols s a) (\row_j d 0 (s j)) l.
Proof. by apply/matrixP=> i j; rewrite !mxE. Qed.

Lemma layer3dV n m P (fn : fields_xy_slice_fn n P) a b (l : layer_solve_result n) t znum g xy zo :
  columnwise fn -> @layer_fields_3d_gen n m P fn a b l t znum = Val (g, xy, zo) ->
  [/\ size g = znum, size zo = znum &
      forall i, (i < znum)%N -> exists f h,
      [/\ reported_fields l t a b (sample_height t znum i) = Val f, fn m f l = Val (h, xy),
          List.nth_error g i = Some h & List.nth_error zo i = Some (sample_height t znum i)]].
Proof.
move=> hc; rewrite /layer_fields_3d_gen.
set zo' := [seq _ | i <- iota 0 znum]; set zf := (\row_c _ : 'rV_(znum * m)).
set fa := (\matrix_(i, c) a i _); set fb := (\matrix_(i, c) b i _).
rewrite /colocate_amplitudes => H; binv H f hf; binv H gx hg; case: gx hg H => g0 xy0 hg [<- <- <-].
split; first by rewrite size_map size_enum_ord.
  by rewrite size_map size_iota.
move=> i hi; pose z := Ordinal hi; pose s j : 'I_(znum * m) := flat_index z j.
have ea : cols s fa = a by apply/matrixP=> p j; rewrite !mxE flat_bK.
have eb : cols s fb = b by apply/matrixP=> p j; rewrite !mxE flat_bK.
have ez j : zf 0 (s j) = sample_height t znum i.
  by rewrite mxE flat_zK /zo' (nth_map 0%N) ?size_iota // nth_iota // add0n linspaceE.
exists (fields6_map (cols s) f), (fields6_map (fun (h : xyfield P (znum * m)) pt b => h pt (s b)) g0).
split.
- have := fields_cols s (propagate_amplitude fa zf l) (propagate_amplitude fb (const_mx t - zf) l) l.
  rewrite hf !propagate_cols ea eb => h; rewrite /reported_fields /colocate_amplitudes; cbn [fst snd].
  have e1 : const_mx (sample_height t znum i) = \row_j zf 0 (s j) :> 'rV_m by apply/rowP=> j; rewrite [RHS]mxE mxE ez.
  have e2 : const_mx t - const_mx (sample_height t znum i) = \row_j (const_mx t - zf) 0 (s j) :> 'rV_m.
    by apply/rowP=> j; rewrite [RHS]mxE ![in LHS]mxE [X in _ = X]mxE [X in _ = _ + X]mxE ez mxE.
  by rewrite e2 e1 h.
- by rewrite hc hg.
- by rewrite nth_error_map (nth_errorE z) ?size_enum_ord // (nth_ord_enum z z).
- by rewrite /zo' nth_error_map (nth_errorE 0%N) ?size_iota // nth_iota // add0n /= linspaceE.
Qed.

Lemma loopV n m P (fn : fields_xy_slice_fn n P) z0 layers g oxy zs :
  columnwise fn -> @stack_fields_3d_loop n m P fn z0 layers = Val (g, oxy, zs) ->
  let znums := [seq x.2 | x <- layers] in
  let ts := [seq x.1.2 | x <- layers] in
  [/\ size g = sumn znums, size zs = sumn znums,
      (oxy = None -> layers = [::]) &
      forall k i a b l t znum, List.nth_error layers k = Some (a, b, l, t, znum) -> (i < znum)%N ->
      exists f h xy,
      [/\ reported_fields l t a b (sample_height t znum i) = Val f, fn m f l = Val (h, xy),
          List.nth_error g (sumn (take k znums) + i) = Some h,
          List.nth_error zs (sumn (take k znums) + i) = Some (z0 + rsum (take k ts) + sample_height t znum i)%coqR &
          k.+1 = size layers -> oxy = Some xy]].
Proof.
move=> hc; elim: layers z0 g oxy zs => [|[[[[a b] l] t] znum] rest IH] z0 g oxy zs /=.
  by case=> <- <- <-; split=> // -[].
move=> H; binv H x hx; case: x hx H => [[g1 xy1] zo1] hx H; binv H y hy; case: y hy H => [[gs xys] zs1] hy [<- <- <-].
have [s1 s2 h1] := layer3dV hc hx; have [s3 s4 on h2] := IH _ _ _ _ hy.
split.
- by rewrite size_cat s1 s3.
- by rewrite size_cat size_map s2 s4.
- by case: xys {hy on h2}.
- case=> [|k] i a' b' l' t' znum'.
    case=> <- <- <- <- <- hi; have [f [h [r1 r2 r3 r4]]] := h1 i hi.
    exists f, h, xy1; split=> //=.
    + by rewrite add0n nth_error_cat s1 hi.
    + by rewrite add0n nth_error_cat size_map s2 hi nth_error_map r4 /=; congr Some; ring.
    + case=> e; have e' : rest = [::] by case: (rest) e.
      by move: hy; rewrite e' /= => -[_ <- _].
  move=> e hi; have [f [h [xy [r1 r2 r3 r4 r5]]]] := h2 k i _ _ _ _ _ e hi.
  exists f, h, xy; split=> //=.
  + by rewrite nth_error_cat s1 -addnA ltnNge leq_addr addKn.
  + rewrite nth_error_cat size_map s2 -addnA ltnNge leq_addr addKn r4; congr Some.
    by rewrite /rsum /=; ring.
  + by case=> e'; rewrite (r5 e').
Qed.

(** *** Ascending heights *)
Lemma ascending_cat s1 s2 : ascending s1 -> ascending s2 ->
  (forall x y, List.In x s1 -> List.In y s2 -> (x <= y)%coqR) -> ascending (s1 ++ s2).
Proof.
elim: s1 => [|x s1 IH] //= [h1 h2] h3 h4; split; last first.
  by apply: IH => // *; apply: h4 => //; right.
move=> y; rewrite -[s1 ++ s2]/(app s1 s2) List.in_app_iff => -[hy|hy]; first exact: h1.
by apply: h4 => //; left.
Qed.
Lemma in_map A B (f : A -> B) s y : List.In y [seq f x | x <- s] <-> exists x, f x = y /\ List.In x s.
Proof.
elim: s => [|x s IH] /=; first by split=> // -[x []].
rewrite IH; split.
- by case=> [<-|[z [e hz]]]; [exists x; split=> //; left|exists z; split=> //; right].
- by case=> z [e [->|hz]]; [left|right; exists z].
Qed.
Lemma in_iota a k i : List.In i (iota a k) <-> (a <= i < a + k)%N.
Proof.
elim: k a => [|k IH] a /=; first by rewrite addn0; split=> // /andP [h1 h2]; move: (leq_trans h2 h1); rewrite ltnn.
rewrite IH addSnnS; split.
- by case=> [->|/andP [h ->]]; [rewrite leqnn /= addnS ltnS leq_addr|rewrite (ltnW h)].
- by case/andP=> h ->; rewrite andbT; move: h; rewrite leq_eqVlt => /orP [/eqP ->|]; [left|right].
Qed.
Lemma linspace_bounds t num i : (0 <= t)%coqR -> (i < num)%N -> (0 <= linspace0 t num i <= t)%coqR.
Proof.
move=> t0 hi; rewrite /linspace0; case: eqP => [_|ne]; first by lra.
have p : (0 < INR (num - 1))%coqR by apply: lt_0_INR; apply/ltP; rewrite subn_gt0; case: num hi ne => [|[|num]].
have le : (INR i <= INR (num - 1))%coqR by apply: le_INR; apply/leP; case: num hi {ne p} => // num; rewrite subn1.
have i0 := pos_INR i.
have q0 : (0 <= INR i / INR (num - 1))%coqR by apply: Rmult_le_pos => //; left; apply: Rinv_0_lt_compat.
have q1 : (INR i / INR (num - 1) <= 1)%coqR.
  by apply: (Rmult_le_reg_r (INR (num - 1))) => //; rewrite /Rdiv Rmult_assoc Rinv_l ?Rmult_1_r ?Rmult_1_l //; lra.
by split; nra.
Qed.
Lemma linspace_mono t num i j : (0 <= t)%coqR -> (i <= j)%N -> (linspace0 t num i <= linspace0 t num j)%coqR.
Proof.
move=> t0 hij; rewrite /linspace0; case: eqP => _; first by lra.
have le : (INR i <= INR j)%coqR by apply: le_INR; apply/leP.
apply: Rmult_le_compat_l => //; apply: Rmult_le_compat_r => //.
case: (num - 1)%N => [|k]; first by rewrite /= Rinv_0; lra.
by left; apply: Rinv_0_lt_compat; apply: lt_0_INR; apply/ltP.
Qed.
Lemma linspace_ascending t num a k : (0 <= t)%coqR ->
  ascending [seq linspace0 t num i | i <- iota a k].
Proof.
move=> t0; elim: k a => [|k IH] a //=; split=> // y; rewrite in_map => -[i [<- /in_iota/andP [h _]]].
by apply: linspace_mono => //; exact: ltnW.
Qed.
Lemma loop_heights n m P (fn : fields_xy_slice_fn n P) z0 layers g oxy zs :
  @stack_fields_3d_loop n m P fn z0 layers = Val (g, oxy, zs) ->
  (forall x, List.In x layers -> (0 <= x.1.2)%coqR) ->
  ascending zs /\ forall z, List.In z zs -> (z0 <= z <= z0 + rsum [seq x.1.2 | x <- layers])%coqR.
Proof.
elim: layers z0 g oxy zs => [|[[[[a b] l] t] znum] rest IH] z0 g oxy zs /=; first by case=> _ _ <- _; split.
move=> H hp; binv H x hx; case: x hx H => [[g1 xy1] zo1] hx H; binv H y hy; case: y hy H => [[gs xys] zs1] hy [_ _ <-].
have t0 : (0 <= t)%coqR by apply: (hp (a, b, l, t, znum)); left.
have [h1 h2] : ascending zs1 /\ forall z, List.In z zs1 -> (z0 + t <= z <= z0 + t + rsum [seq x.1.2 | x <- rest])%coqR.
  by apply: IH hy _ => x hx'; apply: hp; right.
have rp : (0 <= rsum [seq x.1.2 | x <- rest])%coqR.
  elim: (rest) hp => [|x r IHr] /= hp; first by lra.
  have := hp x (or_intror (or_introl erefl)); have : (0 <= rsum [seq x.1.2 | x <- r])%coqR; last by rewrite /rsum /=; lra.
  by apply: IHr => y [<-|hy']; apply: hp; [left|right; right].
have ez : zo1 = [seq linspace0 t znum i | i <- iota 0 znum].
  move: hx; rewrite /layer_fields_3d_gen; case: (colocate_amplitudes _ _ _ _ _) => ? ? H.
  by binv H u hu; binv H v hv; case: v hv H => ? ? _ [_ _ <-].
have hz z : List.In z [seq (z + z0)%coqR | z <- zo1] -> (z0 <= z <= z0 + t)%coqR.
  rewrite in_map ez => -[y [<- ]]; rewrite in_map => -[i [<- /in_iota/andP [_ hi]]].
  by have := @linspace_bounds t znum i t0 hi; lra.
split.
- apply: ascending_cat => //; last by move=> x y /hz hx' /h2 hy'; lra.
  have := @linspace_ascending t znum 0 znum t0; rewrite -ez; elim: (zo1) => [|x s IHs] //= [q1 q2]; split; last exact: IHs.
  by move=> y; rewrite in_map => -[w [<- /q1]]; lra.
- move=> z; rewrite -[_ ++ _]/(app _ zs1) List.in_app_iff => -[/hz|/h2]; rewrite /rsum /=; rewrite /rsum in rp *; lra.
Qed.

(** *** Rounding *)
Lemma round_half_evenP x : (Rabs (x - IZR (round_half_even x)) <= 1 / 2)%coqR.
Proof.
rewrite /round_half_even; have [h1 h2] := base_Int_part x.
case: Rlt_dec => h /=; first by rewrite Rabs_pos_eq; lra.
case: Rlt_dec => h' /=; first by rewrite plus_IZR Rabs_left1; lra.
have e : (x - IZR (Int_part x) = 1 / 2)%coqR by lra.
by case: Z.even; [rewrite Rabs_pos_eq; lra|rewrite plus_IZR Rabs_left1; lra].
Qed.
Lemma round_countP x spacing k : round_count x spacing = Val k ->
  spacing <> 0%coqR /\ (Rabs (x / spacing - INR k) <= 1 / 2)%coqR.
Proof.
rewrite /round_count => H; binv H r hr; have [/eqP h e] := recipRV hr.
move: H; case: Z.ltb_spec => // hz [<-]; split=> //.
by rewrite INR_IZR_INZ Z2Nat.id // e; exact: round_half_evenP.
Qed.

(** C22-C26: expansions, reciprocal lattices, in-plane wavevectors, Brillouin zone grids. *)
From Coq Require Import Reals ZArith Lra Lia.
From mathcomp Require Import all_ssreflect all_algebra.
From Verif Require Import CField Err LinAlg M_utils M_basis M_fft M_fmm_matrices M_fmm M_scattering M_fields M_expansion S_maxwell S_fields S_basis L_scattering L_fields L_basis.
Set Implicit Arguments. Unset Strict Implicit. Unset Printing Implicit Defensive.

(** ** C22: generate_expansion *)
Section Generate.
Variables (argsort : argsort_fn) (plv : lattice).
Hypothesis argsortP : argsort_spec argsort.

Lemma generateV num trunc s : generate_expansion argsort plv num trunc = Val s ->
  exists rv, reciprocal plv = Val rv /\ exists G,
  s = take_order G (argsort [seq vector_magnitude rv c | c <- G]) /\ uniq G /\
  ((1 <= num)%coqZ -> (0, 0)%coqZ \in G).
Proof.
rewrite /generate_expansion => H; binv H rv hr; exists rv; split=> //; have p := PI_RGT_0.
case: trunc H => [[<-]|H].
- eexists; split; first by []; split; first by apply: filter_uniq; apply: uniq_mesh; exact: uniq_arangeZ.
  move=> n1; rewrite mem_filter mem_mesh !mem_arangeZ /=; apply/andP; split; last first.
    have : (- num / 2 <= 0)%coqZ by apply: Z.div_le_upper_bound; lia.
    have : (0 <= num / 2)%coqZ by apply: Z.div_pos; lia.
    by move=> h1 h2; apply/andP; split; apply/andP; split; (apply/Z.leb_spec0 || apply/Z.ltb_spec0); lia.
  have -> : vector_magnitude rv (0, 0)%coqZ = 0%coqR.
    by rewrite /vector_magnitude /norm2 /= !Rmult_0_l !Rplus_0_l Rmult_0_l Rplus_0_l sqrt_0.
  case: Rlt_dec => //= -[]; apply: sqrt_lt_R0; rewrite (area_rv hr).
  apply: Rdiv_lt_0_compat => //; apply: Rmult_lt_0_compat; first by apply: (IZR_lt 0); lia.
  by apply: Rinv_0_lt_compat; exact: (area_pos hr).
- binv H nu hu; binv H nv hv; case: H => <-; eexists; split; first by [].
  split; first by apply: uniq_mesh; exact: uniq_arangeZ.
  have [_ eu ev] := areaP hr.
  have nz w : (w.1 <> 0 \/ w.2 <> 0)%coqR -> (0 < norm2 w)%coqR.
    by move=> hw; apply: sqrt_lt_R0; case: hw => hw; [have := Rsqr_pos_lt _ hw|have := Rsqr_pos_lt _ hw]; rewrite /Rsqr; nra.
  have [d11 d12 d21 d22] := reciprocalV hr.
  have ku : (0 < norm2 (lat_u rv))%coqR.
    apply: nz; case: (Req_dec (lat_u rv).1 0) => [e1|]; last by left.
    by right=> e2; move: d11; rewrite /dot e1 e2; lra.
  have kv : (0 < norm2 (lat_v rv))%coqR.
    apply: nz; case: (Req_dec (lat_v rv).1 0) => [e1|]; last by left.
    by right=> e2; move: d22; rewrite /dot e1 e2; lra.
  move=> n1; have [x [x0 _ hx]] := quadratic_solution (Rdiv_lt_0_compat _ _ ku kv) n1 hu.
  have [y [y0 _ hy]] := quadratic_solution (Rdiv_lt_0_compat _ _ kv ku) n1 hv.
  have nn z t : (0 <= t)%coqR -> (Rabs (IZR z - t) <= 1 / 2)%coqR -> (0 <= z)%coqZ.
    move=> t0; rewrite Rabs_minus_sym => h; have := Rle_trans _ _ _ (Rle_abs _) h => h'; have : (-1 < IZR z)%coqR by lra.
    by move/(lt_IZR (-1)); lia.
  rewrite mem_mesh !mem_arangeZ /=; have := nn _ _ x0 hx; have := nn _ _ y0 hy => h1 h2.
  by apply/andP; split; apply/andP; split; (apply/Z.leb_spec0 || apply/Z.ltb_spec0); lia.
Qed.

(** C22: for either truncation the orders are pairwise distinct and sorted by the length of
    their reciprocal lattice vectors, and (0, 0) comes first. *)
Theorem C22_orders num trunc s : generate_expansion argsort plv num trunc = Val s ->
  [/\ uniq s, by_length plv s & (1 <= num)%coqZ -> nth (1, 1)%coqZ s 0 = (0, 0)%coqZ].
Proof.
case/generateV=> rv [hr [G [-> [uG h0]]]]; split.
- by rewrite (perm_uniq (take_order_perm argsortP _ _)).
- exact: sorted_by_length.
- move=> n1; have i0 : (0, 0)%coqZ \in take_order G (argsort [seq vector_magnitude rv c | c <- G]).
    by rewrite (perm_mem (take_order_perm argsortP _ _)) h0.
  rewrite (set_nth_default (0, 0)%coqZ); first exact: (zero_first hr (@sorted_by_length _ _ _ argsortP hr G) i0).
  by case: (take_order _ _) i0.
Qed.

(** Circular truncation: which orders are returned. The candidates are the orders with both
    indices in the python range(-num // 2, num // 2 + 1). *)
Theorem C22_circular num s (o : Z * Z) : generate_expansion argsort plv num Circular = Val s ->
  (o \in s <->
   in_circle plv num o /\ (- num / 2 <= o.1 <= num / 2)%coqZ /\ (- num / 2 <= o.2 <= num / 2)%coqZ).
Proof. by rewrite /generate_expansion => H; binv H rv hr; case: H => <-; exact: circular_mem. Qed.

(** When neither lattice vector is too long compared with the other, the candidate range
    covers the circle: all orders in the circle are returned, and only these, and they are
    closed under negation. *)
Lemma circle_negate num o : in_circle plv num o -> in_circle plv num (- o.1, - o.2)%coqZ.
Proof.
case=> G [[h1 h2] h]; exists (- G.1, - G.2)%coqR; split; first split.
- by move: h1; rewrite /dot /= opp_IZR; lra.
- by move: h2; rewrite /dot /= opp_IZR; lra.
- suff -> : length2 (- G.1, - G.2)%coqR = length2 G by [].
  by rewrite /length2 /dot /=; ring.
Qed.
Theorem C22_circular_complete num s : (0 <= num)%coqZ -> compact plv num ->
  generate_expansion argsort plv num Circular = Val s ->
  (forall o, o \in s <-> in_circle plv num o) /\ negation_closed s.
Proof.
move=> n0 [cu cv] H; have hs o := C22_circular o H.
have e o : o \in s <-> in_circle plv num o.
  rewrite hs; split=> [[]//|hc]; split=> //.
  have [rv [hr _]] := generateV H.
  have h2 : (0 <= num / 2)%coqZ by apply: Z.div_pos; lia.
  have lo : (- num / 2 <= - (num / 2))%coqZ.
    by apply: Z.div_le_upper_bound; have := Z.mul_div_le num 2; lia.
  have b1 := circle_bound hr hc h2 (fun G (h : bragg plv o G) => proj1 h) cu.
  have b2 := circle_bound hr hc h2 (fun G (h : bragg plv o G) => proj2 h) cv.
  move: b1 b2; case: (o) => a b; cbn [fst snd]; lia.
by split=> // o /e /circle_negate h; apply/e.
Qed.

(** For an even number of terms the candidate range is symmetric, so the result is closed
    under negation for every lattice. *)
Theorem C22_circular_even num s : Z.even num ->
  generate_expansion argsort plv num Circular = Val s -> negation_closed s.
Proof.
move=> /Zeven_bool_iff /Zeven_ex [m ->] H o; have hs := C22_circular _ H; move=> /hs [hc hb].
apply/hs; split; first exact: circle_negate.
move: hb; have -> : (- (2 * m) / 2 = - m)%coqZ by rewrite -Z.mul_opp_r Z.mul_comm Z.div_mul.
have -> : (2 * m / 2 = m)%coqZ by rewrite Z.mul_comm Z.div_mul.
by case: (o) => a b; cbn [fst snd]; lia.
Qed.

(** generate_expansion succeeds for every lattice with a nonzero cell area and raises or
    gives non-finite values for no other. *)
Theorem C22_defined num trunc : (1 <= num)%coqZ -> nondegenerate plv ->
  exists s, generate_expansion argsort plv num trunc = Val s.
Proof.
move=> n1 nd; have [rv hr] := reciprocal_total nd.
rewrite /generate_expansion hr; cbn [bind]; case: trunc; first by eexists.
have [d11 d12 d21 d22] := reciprocalV hr.
have nz w w' : dot w w' = 1%coqR -> (0 < norm2 w)%coqR.
  rewrite /dot /norm2 => h; apply: sqrt_lt_R0.
  case: (Req_dec w.1 0) => [e1|ne]; last by have := Rsqr_pos_lt _ ne; have := Rle_0_sqr w.2; rewrite /Rsqr; lra.
  case: (Req_dec w.2 0) => [e2|ne]; last by have := Rsqr_pos_lt _ ne; have := Rle_0_sqr w.1; rewrite /Rsqr; lra.
  by move: h; rewrite e1 e2; lra.
have ku := nz _ _ d11; have kv := nz _ _ d22.
rewrite /basis_coefficients_parallelogramic.
have [a ->] := quadratic_total (Rdiv_lt_0_compat _ _ ku kv) n1; cbn [bind].
by have [b ->] := quadratic_total (Rdiv_lt_0_compat _ _ kv ku) n1; eexists.
Qed.

(** ** C23: parallelogramic truncation *)
Theorem C23_parallelogramic num s : (1 <= num)%coqZ ->
  generate_expansion argsort plv num Parallelogramic = Val s ->
  exists (nu nv : nat) (x y : R),
  [/\ (forall o : Z * Z, o \in s <-> (Z.abs o.1 <= Z.of_nat nu)%coqZ /\ (Z.abs o.2 <= Z.of_nat nv)%coqZ),
      uniq s, size s = ((2 * nu + 1) * (2 * nv + 1))%N, negation_closed s &
  (** the requested count and the aspect ratio of the reciprocal lattice determine [x, y] *)
  [/\ (0 <= x /\ 0 <= y)%coqR, ((2 * x + 1) * (2 * y + 1) = IZR num)%coqR,
      (x * sqrt (length2 (lat_v plv)) = y * sqrt (length2 (lat_u plv)))%coqR,
      (Rabs (INR nu - x) <= 1 / 2)%coqR & (Rabs (INR nv - y) <= 1 / 2)%coqR]].
Proof.
move=> n1; rewrite /generate_expansion => H; binv H rv hr.
have [d0 eu ev] := areaP hr.
have ap := area_pos hr.
have nu_ : norm2 (lat_u rv) = (sqrt (length2 (lat_v plv)) / cell_area plv)%coqR.
  rewrite eu /norm2 /cell_area -sqrt_Rsqr_abs -sqrt_div_alt; last by exact: Rsqr_pos_lt.
  by congr sqrt; rewrite /length2 /dot /Rsqr /=; field.
have nv_ : norm2 (lat_v rv) = (sqrt (length2 (lat_u plv)) / cell_area plv)%coqR.
  rewrite ev /norm2 /cell_area -sqrt_Rsqr_abs -sqrt_div_alt; last by exact: Rsqr_pos_lt.
  by congr sqrt; rewrite /length2 /dot /Rsqr /=; field.
have lu : (0 < sqrt (length2 (lat_u plv)))%coqR.
  apply: sqrt_lt_R0; rewrite /length2 /dot; move: d0; rewrite /cross_product.
  by move: (lat_u plv) (lat_v plv) => [a b] [c d] /= d0; case: (Req_dec a 0) => [e|ne]; [case: (Req_dec b 0) => [e'|ne]|]; [case: d0; rewrite e e'; ring| |]; have := Rsqr_pos_lt _ ne; rewrite /Rsqr; nra.
have lv : (0 < sqrt (length2 (lat_v plv)))%coqR.
  apply: sqrt_lt_R0; rewrite /length2 /dot; move: d0; rewrite /cross_product.
  by move: (lat_u plv) (lat_v plv) => [a b] [c d] /= d0; case: (Req_dec c 0) => [e|ne]; [case: (Req_dec d 0) => [e'|ne]|]; [case: d0; rewrite e e'; ring| |]; have := Rsqr_pos_lt _ ne; rewrite /Rsqr; nra.
set U := sqrt (length2 (lat_u plv)) in lu nv_ *; set V := sqrt (length2 (lat_v plv)) in lv nu_ *.
have r1 : (norm2 (lat_u rv) / norm2 (lat_v rv) = V / U)%coqR by rewrite nu_ nv_; field; lra.
have r2 : (norm2 (lat_v rv) / norm2 (lat_u rv) = / (V / U))%coqR by rewrite nu_ nv_; field; lra.
have rp : (0 < V / U)%coqR by apply: Rdiv_lt_0_compat.
have rp' : (0 < / (V / U))%coqR by apply: Rinv_0_lt_compat.
rewrite /basis_coefficients_parallelogramic r1 r2 in H.
binv H zu hu; binv H zv hv; case: H => <-.
have [x [x0 qx hx]] := quadratic_solution rp n1 hu.
have [y [y0 qy hy]] := quadratic_solution rp' n1 hv.
have yx := quadratic_unique rp x0 y0 qx qy.
have nn z t : (0 <= t)%coqR -> (Rabs (IZR z - t) <= 1 / 2)%coqR -> (0 <= z)%coqZ.
  move=> t0; rewrite Rabs_minus_sym => h; have := Rle_trans _ _ _ (Rle_abs _) h => h'; have : (-1 < IZR z)%coqR by lra.
  by move/(lt_IZR (-1)); lia.
have zu0 := nn _ _ x0 hx; have zv0 := nn _ _ y0 hy.
have mem (o : Z * Z) : o \in take_order (meshgrid_flat (arangeZ (- zu) (zu + 1)) (arangeZ (- zv) (zv + 1)))
    (argsort [seq vector_magnitude rv c | c <- meshgrid_flat (arangeZ (- zu) (zu + 1)) (arangeZ (- zv) (zv + 1))])
    <-> (Z.abs o.1 <= zu)%coqZ /\ (Z.abs o.2 <= zv)%coqZ.
  rewrite (perm_mem (take_order_perm argsortP _ _)) mem_mesh !mem_arangeZ.
  split=> [/andP [/andP [/Z.leb_spec0 h1 /Z.ltb_spec0 h2] /andP [/Z.leb_spec0 h3 /Z.ltb_spec0 h4]]|[h1 h2]]; first lia.
  by apply/andP; split; apply/andP; split; (apply/Z.leb_spec0 || apply/Z.ltb_spec0); lia.
exists (Z.to_nat zu), (Z.to_nat zv), x, y; split.
- by move=> o; rewrite !Z2Nat.id.
- by rewrite (perm_uniq (take_order_perm argsortP _ _)); apply: uniq_mesh; exact: uniq_arangeZ.
- rewrite (perm_size (take_order_perm argsortP _ _)) size_mesh !size_arangeZ.
  by congr muln; apply/eqP; rewrite eqn_leq; apply/andP; split; apply/leP; rewrite -!plusE -!multE; lia.
- move=> o /mem h; apply/mem; move: h; case: (o) => a b; cbn [fst snd]; lia.
split=> //.
- by rewrite yx.
- by rewrite yx; field; lra.
- by rewrite INR_IZR_INZ Z2Nat.id.
- by rewrite INR_IZR_INZ Z2Nat.id.
Qed.
End Generate.

(** A square lattice is compact for every number of terms. *)
Theorem C22_square p num : (0 <= num)%coqZ -> (p <> 0)%coqR -> compact (Lattice (p, 0)%coqR (0, p)%coqR) num.
Proof.
move=> n0 p0; have pp : (0 < p * p)%coqR by have := Rsqr_pos_lt _ p0.
have pi : (3 < PI)%coqR by have := PI2_3_2; lra.
have area : cell_area (Lattice (p, 0)%coqR (0, p)%coqR) = (p * p)%coqR.
  by rewrite /cell_area /cross_product /= Rmult_0_l Rminus_0_r Rabs_pos_eq //; lra.
have h : (IZR num <= PI * (IZR (num / 2) + 1) ^ 2)%coqR.
  have h2 : (0 <= IZR (num / 2))%coqR by apply: (IZR_le 0); apply: Z.div_pos; lia.
  have : (IZR num <= 2 * IZR (num / 2) + 1)%coqR.
    by rewrite -mult_IZR -plus_IZR; apply: IZR_le; have := Z.mod_pos_bound num 2; have := Z.div_mod num 2; lia.
  by have : (0 <= PI * IZR (num / 2) * IZR (num / 2))%coqR by [apply: Rmult_le_pos => //; apply: Rmult_le_pos; lra]; have : (0 <= (PI - 1) * IZR (num / 2))%coqR by [apply: Rmult_le_pos; lra]; lra.
have e w : length2 w = (p * p)%coqR -> (length2 w * IZR num <= PI * cell_area (Lattice (p, 0)%coqR (0, p)%coqR) * (IZR (num / 2) + 1) ^ 2)%coqR.
  by move=> ->; rewrite area; have := Rmult_le_compat_l _ _ _ (Rlt_le _ _ pp) h; lra.
by split; apply: e; rewrite /length2 /dot /=; ring.
Qed.

(** There is a function that does what [numpy.argsort] is assumed to do. *)
Definition sort_indices (s : seq R) : seq nat :=
  sort (fun i j => is_left (Rle_dec (nth R0 s i) (nth R0 s j))) (iota 0 (size s)).
Theorem argsort_exists : argsort_spec sort_indices.
Proof.
move=> s; split; first by rewrite perm_sort.
move=> i j /andP [hij hj].
set leT := fun i j => is_left (Rle_dec (nth R0 s i) (nth R0 s j)).
have tot : total leT.
  by move=> a b; rewrite /leT; case: Rle_dec => //= h; case: Rle_dec => //= h'; lra.
have tr : transitive leT.
  by move=> b a c; rewrite /leT; do 2 (case: Rle_dec => //= ?); case: Rle_dec => //= ?; lra.
have re : reflexive leT by move=> a; rewrite /leT; case: Rle_dec => //= ?; lra.
have := sorted_leq_nth tr re 0%N (sort_sorted tot (iota 0 (size s))).
move=> /(_ i j); rewrite !inE size_sort size_iota hj (leq_ltn_trans hij hj) => /(_ isT isT hij).
by rewrite /leT /sort_indices; case: Rle_dec.
Qed.

(** The circle is not always covered: a rectangular cell of size 1 x 1/100 with one term. *)
Definition slab := Lattice (1, 0)%coqR (0, 1 / 100)%coqR.
Lemma slab_area : cell_area slab = (1 / 100)%coqR.
Proof. by rewrite /cell_area /cross_product /= Rabs_pos_eq; lra. Qed.
Theorem C22_circular_refuted : exists plv num s,
  [/\ nondegenerate plv, (1 <= num)%coqZ, forall argsort, argsort_spec argsort ->
      generate_expansion argsort plv num Circular = Val (s argsort) &
      forall argsort, argsort_spec argsort ->
      [/\ in_circle plv num (1, 0)%coqZ, (1, 0)%coqZ \notin s argsort, (- 1, 0)%coqZ \in s argsort &
          ~ negation_closed (s argsort)]].
Proof.
have [rv hr] : exists rv, reciprocal slab = Val rv by apply: reciprocal_total; rewrite /nondegenerate slab_area; lra.
exists slab, 1%coqZ, (fun argsort => basis_coefficients_circular argsort rv 1); split.
- by rewrite /nondegenerate slab_area; lra.
- by [].
- by move=> argsort _; rewrite /generate_expansion hr.
move=> argsort hs.
have c z : (IZR z * IZR z = 1)%coqR -> in_circle slab 1 (z, 0)%coqZ.
  move=> hz; exists (2 * PI * IZR z, 0)%coqR; split; first by rewrite /bragg /dot /=; split; lra.
  rewrite slab_area /length2 /dot /=; have pp := PI_RGT_0; have p4 := PI_4.
  have -> : (PI * (2 * PI * IZR z * (2 * PI * IZR z) + 0 * 0) = 4 * PI * PI * PI * (IZR z * IZR z))%coqR by ring.
  have : (PI * (PI * PI) <= 4 * (PI * PI))%coqR by apply: Rmult_le_compat_r; nra.
  by rewrite hz; nra.
have h1 : in_circle slab 1 (1, 0)%coqZ by apply: c; lra.
have h2 : (1, 0)%coqZ \notin basis_coefficients_circular argsort rv 1.
  by apply/negP => /(circular_mem hs hr) [_ [[_ h] _]]; move: h; cbn [fst]; rewrite /Z.div /=; lia.
have h3 : (- 1, 0)%coqZ \in basis_coefficients_circular argsort rv 1.
  apply/(circular_mem hs hr); split; first by apply: c; lra.
  by cbn [fst snd]; rewrite /Z.div /=; lia.
by split=> // hn; have := hn _ h3; move/negP: h2.
Qed.

(** ** C24: reciprocal lattice *)
Theorem C24_dual plv : nondegenerate plv -> exists rv, reciprocal plv = Val rv /\
  [/\ dot (lat_u rv) (lat_u plv) = 1%coqR, dot (lat_u rv) (lat_v plv) = 0%coqR,
      dot (lat_v rv) (lat_u plv) = 0%coqR & dot (lat_v rv) (lat_v plv) = 1%coqR].
Proof. by move=> nd; have [rv hr] := reciprocal_total nd; exists rv; split=> //; exact: reciprocalV. Qed.
Theorem C24_involution plv : nondegenerate plv ->
  exists rv, reciprocal plv = Val rv /\ reciprocal rv = Val plv.
Proof.
move=> nd; have [rv hr] := reciprocal_total nd; exists rv; split=> //.
have [h eu ev] := areaP hr.
have nd' : nondegenerate rv.
  rewrite /nondegenerate /cell_area (area_rv hr); apply: Rinv_neq_0_compat; exact: Rabs_no_R0.
have [rw hr'] := reciprocal_total nd'; rewrite hr'; congr Val.
have [h' eu' ev'] := areaP hr'.
case: plv rw {hr hr' nd nd'} h eu ev eu' ev' => [[u1 u2] [v1 v2]] [[a1 a2] [b1 b2]].
rewrite /cross_product /= => h eu ev; move: h'; rewrite eu ev /cross_product /=.
set d := (u1 * v2 - u2 * v1)%coqR in h *.
have -> : (v2 / d * (u1 / d) - - v1 / d * (- u2 / d) = / d)%coqR by rewrite /d; field.
move=> h' -> ->; congr Lattice; congr pair; field; exact: h.
Qed.
(** Degenerate lattices have no finite reciprocal. *)
Theorem C24_degenerate plv : ~ nondegenerate plv -> reciprocal plv = Exn NonFinite.
Proof.
move=> h; rewrite /reciprocal /recipR; case: eqP => //= ne; case: h.
by exact: Rabs_no_R0.
Qed.
(** [transverse_wavevectors] adds to the in-plane wavevector the reciprocal lattice vector
    (times 2 pi) of each order. *)
Theorem C24_transverse_wavevectors n plv k (expn : n.-tuple (Z * Z)) : nondegenerate plv ->
  exists kt, transverse_wavevectors k plv expn = Val kt /\
  forall i, exists G, bragg plv (tnth expn i) G /\ (kt.1 ord0 i, kt.2 ord0 i) = vadd k G.
Proof.
move=> nd; have [rv hr] := reciprocal_total nd; rewrite /transverse_wavevectors hr; eexists; split; first by [].
move=> i; exists (bragg_vector rv expn i); split; first exact: bragg_vectorP.
by rewrite /= !mxE.
Qed.

(** ** C25: in-plane wavevector of a plane wave *)
Theorem C25_wavevector wavelength polar azimuth eps : (wavelength <> 0)%coqR -> (0 <= re eps)%coqR ->
  exists k, plane_wave_in_plane_wavevector wavelength polar azimuth eps = Val k /\
  let k0 := (2 * PI / wavelength * sqrt (re eps))%coqR in
  (** magnitude and azimuthal direction *)
  [/\ k.1 = (k0 * sin polar * cos azimuth)%coqR, k.2 = (k0 * sin polar * sin azimuth)%coqR,
      length2 k = ((k0 * sin polar) ^ 2)%coqR &
  (** with the z component it has the length of a wavevector in the medium *)
      (length2 k + (k0 * cos polar) ^ 2 = (2 * PI / wavelength) ^ 2 * re eps)%coqR].
Proof.
move=> w0 e0; rewrite /plane_wave_in_plane_wavevector /angular_frequency /recipR.
case: eqP => [e|_] //; cbn [bind negb]; case: Rlt_dec => [h|h] /=; first by exfalso; lra.
eexists; split; first by [].
have sc a : (sin a * sin a + cos a * cos a = 1)%coqR by have := sin2_cos2 a.
rewrite /= /length2 /dot /= RinvE; have q := sqrt_sqrt _ e0; rewrite /Rdiv.
set s := sqrt (re eps) in q *; set w := (2 * PI * / wavelength)%coqR.
have a1 := sc azimuth; have p1 := sc polar.
have l2 : (w * sin polar * cos azimuth * s * (w * sin polar * cos azimuth * s) +
  w * sin polar * sin azimuth * s * (w * sin polar * sin azimuth * s) = (w * s * sin polar) ^ 2)%coqR.
  transitivity ((w * s * sin polar) ^ 2 * (sin azimuth * sin azimuth + cos azimuth * cos azimuth))%coqR; first by ring.
  by rewrite a1; ring.
split; [ring|ring|by rewrite l2; ring|rewrite l2].
transitivity (w * w * (s * s) * (sin polar * sin polar + cos polar * cos polar))%coqR; first by ring.
by rewrite p1 q; ring.
Qed.
(** A zero wavelength or a negative real part of the permittivity gives non-finite values. *)
Theorem C25_undefined wavelength polar azimuth eps : (wavelength = 0 \/ re eps < 0)%coqR ->
  plane_wave_in_plane_wavevector wavelength polar azimuth eps = Exn NonFinite.
Proof.
rewrite /plane_wave_in_plane_wavevector /angular_frequency /recipR; case=> h.
  by case: eqP.
by case: eqP => //= _; case: Rlt_dec.
Qed.

(** ** C26: Brillouin zone grid *)
Lemma brillouin_samples (a : nat) : (0 < a)%N ->
  arangeR (- (1 / 2) + / IZR (Z.of_nat a) / 2)%coqR (1 / 2)%coqR (/ IZR (Z.of_nat a))%coqR =
  [seq cell_centre a i | i <- iota 0 a].
Proof.
move=> a0; have a1 : (1 <= INR a)%coqR by apply: (le_INR 1); apply/leP.
rewrite /arangeR -INR_IZR_INZ.
have -> : ((1 / 2 - (- (1 / 2) + / INR a / 2)) / / INR a = INR a - 1 / 2)%coqR by field; lra.
have -> : Rceil (INR a - 1 / 2) = Z.of_nat a.
  rewrite /Rceil; have := base_Int_part (- (INR a - 1 / 2)); set z := Int_part _ => -[h1 h2].
  have e1 : (IZR z <= IZR (- Z.of_nat a) + 1 / 2)%coqR by rewrite opp_IZR -INR_IZR_INZ; lra.
  have e2 : (IZR (- Z.of_nat a) - 1 / 2 < IZR z)%coqR by rewrite opp_IZR -INR_IZR_INZ; lra.
  have f1 : (IZR z < IZR (- Z.of_nat a + 1))%coqR by rewrite plus_IZR; lra.
  have f2 : (IZR (- Z.of_nat a - 1) < IZR z)%coqR by rewrite minus_IZR; lra.
  by move/lt_IZR: f1; move/lt_IZR: f2; lia.
rewrite Nat2Z.id; apply: eq_map => i; rewrite /cell_centre; field; lra.
Qed.
Lemma tuple_ltN (a b : nat) : (0 < a)%N -> (0 < b)%N -> tuple_lt (Z.of_nat a, Z.of_nat b) (1, 1)%coqZ = false.
Proof.
move=> /ltP a0 /ltP b0; rewrite /tuple_lt /=.
have -> : Z.ltb (Z.of_nat a) 1 = false by apply/Z.ltb_nlt; lia.
by have -> : Z.ltb (Z.of_nat b) 1 = false; [apply/Z.ltb_nlt; lia|rewrite andbF].
Qed.
Lemma brillouinE plv rv (a b : nat) : (0 < a)%N -> (0 < b)%N -> reciprocal plv = Val rv ->
  brillouin_zone_in_plane_wavevector [:: Z.of_nat a; Z.of_nat b] plv =
  Val [seq [seq (2 * PI * (i * (lat_u rv).1 + j * (lat_v rv).1), 2 * PI * (i * (lat_u rv).2 + j * (lat_v rv).2))%coqR
           | j <- [seq cell_centre b j | j <- iota 0 b]] | i <- [seq cell_centre a i | i <- iota 0 a]].
Proof.
move=> a0 b0 hr; rewrite /brillouin_zone_in_plane_wavevector tuple_ltN // /check; cbn [negb].
rewrite /py_inv; have -> : Z.eqb (Z.of_nat a) 0 = false by apply/Z.eqb_neq; move/ltP: a0; lia.
have -> : Z.eqb (Z.of_nat b) 0 = false by apply/Z.eqb_neq; move/ltP: b0; lia.
by cbn [bind]; rewrite hr !brillouin_samples.
Qed.
Lemma nth_grid (a b i j : nat) (f : R -> R -> R * R) : (i < a)%N -> (j < b)%N ->
  nth (0, 0)%coqR (nth [::] [seq [seq f x y | y <- [seq cell_centre b j | j <- iota 0 b]] | x <- [seq cell_centre a i | i <- iota 0 a]] i) j
  = f (cell_centre a i) (cell_centre b j).
Proof.
move=> hi hj; rewrite -!map_comp (nth_map 0%N) ?size_iota //= -map_comp (nth_map 0%N) ?size_iota //=.
by rewrite !nth_iota.
Qed.
Lemma fractionsP plv rv x y : reciprocal plv = Val rv ->
  at_fractions plv x y (2 * PI * (x * (lat_u rv).1 + y * (lat_v rv).1), 2 * PI * (x * (lat_u rv).2 + y * (lat_v rv).2))%coqR.
Proof.
move=> /reciprocalV [a b c d]; rewrite /at_fractions; move: a b c d; rewrite /dot /=.
move: (lat_u rv) (lat_v rv) (lat_u plv) (lat_v plv) => [u1 u2] [v1 v2] [a1 a2] [b1 b2] /= h1 h2 h3 h4.
split.
- transitivity (2 * PI * (x * (u1 * a1 + u2 * a2) + y * (v1 * a1 + v2 * a2)))%coqR; first by ring.
  by rewrite h1 h3; ring.
- transitivity (2 * PI * (x * (u1 * b1 + u2 * b2) + y * (v1 * b1 + v2 * b2)))%coqR; first by ring.
  by rewrite h2 h4; ring.
Qed.
(** For positive counts [a, b] the result has [a] rows of [b] wavevectors, the one in row [i]
    and column [j] being at the centre of cell [(i, j)] of the zone. *)
Theorem C26_grid plv (a b : nat) : (0 < a)%N -> (0 < b)%N -> nondegenerate plv ->
  exists g, brillouin_zone_in_plane_wavevector [:: Z.of_nat a; Z.of_nat b] plv = Val g /\
  [/\ size g = a, (forall i, (i < a)%N -> size (nth [::] g i) = b) &
      forall i j, (i < a)%N -> (j < b)%N ->
      at_fractions plv (cell_centre a i) (cell_centre b j) (nth (0, 0)%coqR (nth [::] g i) j)].
Proof.
move=> a0 b0 nd; have [rv hr] := reciprocal_total nd.
rewrite (brillouinE a0 b0 hr); eexists; split; first by [].
split; first by rewrite !size_map size_iota.
- by move=> i hi; rewrite (nth_map 0%coqR) ?size_map ?size_iota.
- move=> i j hi hj; rewrite (nth_grid (fun x y => (2 * PI * (x * (lat_u rv).1 + y * (lat_v rv).1), 2 * PI * (x * (lat_u rv).2 + y * (lat_v rv).2))%coqR)) //.
  exact: fractionsP.
Qed.
(** Wavevectors are determined by their fractions. *)
Theorem C26_fractions_unique plv x y k k' : nondegenerate plv ->
  at_fractions plv x y k -> at_fractions plv x y k' -> k = k'.
Proof.
rewrite /nondegenerate /cell_area => nd [h1 h2] [h3 h4].
have d0 : (cross_product (lat_u plv) (lat_v plv) <> 0)%coqR by move=> e; apply: nd; rewrite e Rabs_R0.
rewrite -h3 in h1; rewrite -h4 in h2; move: h1 h2 d0; rewrite /dot /cross_product.
case: k k' (lat_u plv) (lat_v plv) {nd h3 h4} => [a b] [c d] [u1 u2] [v1 v2] /= h1 h2 d0.
have e1 : ((a - c) * (u1 * v2 - u2 * v1) = 0)%coqR by
  transitivity ((a * u1 + b * u2 - (c * u1 + d * u2)) * v2 - (a * v1 + b * v2 - (c * v1 + d * v2)) * u2)%coqR; [ring|rewrite h1 h2; ring].
have e2 : ((b - d) * (u1 * v2 - u2 * v1) = 0)%coqR by
  transitivity ((a * v1 + b * v2 - (c * v1 + d * v2)) * u1 - (a * u1 + b * u2 - (c * u1 + d * u2)) * v1)%coqR; [ring|rewrite h1 h2; ring].
case/Rmult_integral: e1 => // e1; case/Rmult_integral: e2 => // e2; congr pair; lra.
Qed.
(** The cell centres lie strictly inside the zone, are equally spaced and symmetric, and 0 is
    among them exactly for an odd count. *)
Theorem C26_centres a i : (i < a)%N ->
  [/\ (- (1 / 2) < cell_centre a i < 1 / 2)%coqR,
      cell_centre a (a - 1 - i) = (- cell_centre a i)%coqR,
      (i.+1 < a)%N -> (cell_centre a i.+1 - cell_centre a i = 1 / INR a)%coqR &
      (cell_centre a i = 0%coqR <-> a = (2 * i + 1)%N)].
Proof.
move=> hi; have a1 : (1 <= INR a)%coqR by apply: (le_INR 1); apply/leP; exact: leq_ltn_trans hi.
have i0 := pos_INR i.
have i1 : (INR i + 1 <= INR a)%coqR by rewrite -S_INR; apply: le_INR; apply/leP.
have ia := Rinv_0_lt_compat (INR a) ltac:(lra).
have e : cell_centre a i = ((INR i + 1 / 2 - INR a / 2) * / INR a)%coqR by rewrite /cell_centre; field; lra.
split.
- rewrite /cell_centre; split.
    by have : (0 < (INR i + 1 / 2) / INR a)%coqR by [apply: Rdiv_lt_0_compat; lra]; lra.
  have : ((INR i + 1 / 2) / INR a < 1)%coqR; last lra.
  by apply: (Rmult_lt_reg_r (INR a)); [lra|rewrite /Rdiv Rmult_assoc Rinv_l; lra].
- rewrite /cell_centre.
  have -> : INR (a - 1 - i) = (INR a - 1 - INR i)%coqR.
    by rewrite -subnDA -minusE minus_INR ?plus_INR /=; [ring|apply/leP].
  by field; lra.
- by move=> _; rewrite /cell_centre S_INR; field; lra.
- rewrite e; split.
  + case/Rmult_integral=> [h|h]; last lra.
    apply: INR_eq; rewrite plus_INR mult_INR /=; lra.
  + move=> h; have -> : INR a = (2 * INR i + 1)%coqR by rewrite h plus_INR mult_INR.
    by field; move: i0; lra.
Qed.
(** The grid is symmetric under negation, and contains zero exactly when both counts are odd. *)
Theorem C26_symmetric plv (a b : nat) g i j : nondegenerate plv ->
  brillouin_zone_in_plane_wavevector [:: Z.of_nat a; Z.of_nat b] plv = Val g ->
  (i < a)%N -> (j < b)%N ->
  let k i j := nth (0, 0)%coqR (nth [::] g i) j in
  k (a - 1 - i)%N (b - 1 - j)%N = (- (k i j).1, - (k i j).2)%coqR.
Proof.
move=> nd h hi hj; have a0 : (0 < a)%N by exact: leq_ltn_trans hi. have b0 : (0 < b)%N by exact: leq_ltn_trans hj.
have [g' [hg [_ _ hk]]] := C26_grid a0 b0 nd; move: h; rewrite hg => -[<-] k.
have ha : (a - 1 - i < a)%N by rewrite -subnDA ltn_subrL a0.
have hb : (b - 1 - j < b)%N by rewrite -subnDA ltn_subrL b0.
apply: (C26_fractions_unique nd (hk _ _ ha hb)).
have [_ -> _ _] := C26_centres hi; have [_ -> _ _] := C26_centres hj.
have [h1 h2] := hk _ _ hi hj; rewrite /at_fractions -/(k i j) in h1 h2 *.
by move: h1 h2; rewrite /dot /=; split; lra.
Qed.
Theorem C26_contains_zero plv (a b : nat) g : nondegenerate plv -> (0 < a)%N -> (0 < b)%N ->
  brillouin_zone_in_plane_wavevector [:: Z.of_nat a; Z.of_nat b] plv = Val g ->
  ((exists i j, [/\ (i < a)%N, (j < b)%N & nth (1, 1)%coqR (nth [::] g i) j = (0, 0)%coqR]) <-> odd a && odd b).
Proof.
move=> nd a0 b0 h; have [g' [hg [sz szr hk]]] := C26_grid a0 b0 nd; move: h; rewrite hg => -[e]; subst g'.
have dn i j : (i < a)%N -> (j < b)%N -> nth (1, 1)%coqR (nth [::] g i) j = nth (0, 0)%coqR (nth [::] g i) j.
  by move=> hi hj; apply: set_nth_default; rewrite szr.
have z0 : at_fractions plv 0 0 (0, 0)%coqR by rewrite /at_fractions /dot /=; split; ring.
have pp := PI_RGT_0.
split.
- case=> i [j [hi hj]]; rewrite dn // => e; have [] := hk _ _ hi hj; rewrite e /dot /= => h1 h2.
  have [_ _ _ ha] := C26_centres hi; have [_ _ _ hb] := C26_centres hj.
  have /ha -> : cell_centre a i = 0%coqR by apply: (Rmult_eq_reg_l (2 * PI)); lra.
  have /hb -> : cell_centre b j = 0%coqR by apply: (Rmult_eq_reg_l (2 * PI)); lra.
  by rewrite !mul2n !addn1 /= !odd_double.
- case/andP=> oa ob; have ea := odd_double_half a; have eb := odd_double_half b; rewrite oa ob in ea eb.
  have hi : (a./2 < a)%N by move: (a./2) ea => x; rewrite add1n -addnn => <-; rewrite ltnS leq_addr.
  have hj : (b./2 < b)%N by move: (b./2) eb => x; rewrite add1n -addnn => <-; rewrite ltnS leq_addr.
  exists a./2, b./2; split=> //; rewrite dn //.
  apply: (C26_fractions_unique nd _ z0); have := hk _ _ hi hj.
  have [_ _ _ [_ ->]] := C26_centres hi; last by rewrite -[LHS]ea mul2n addnC.
  by have [_ _ _ [_ ->]] := C26_centres hj; last by rewrite -[LHS]eb mul2n addnC.
Qed.
(** Validation: a shape that is not a pair, a first count below one, or a first count equal to
    one with a second count below one raise ValueError... *)
Theorem C26_raises plv (shape : seq Z) :
  (size shape <> 2%N \/ (nth 0%coqZ shape 0 < 1)%coqZ \/ nth 0%coqZ shape 0 = 1%coqZ /\ (nth 0%coqZ shape 1 < 1)%coqZ) ->
  brillouin_zone_in_plane_wavevector shape plv = Exn ValueError.
Proof.
rewrite /brillouin_zone_in_plane_wavevector; case: shape => [|a [|b [|c s]]] //= h.
rewrite /check /tuple_lt /=.
case: h => [//|[h|[-> h]]]; first by case: Z.ltb_spec0.
by rewrite Z.eqb_refl /=; case: (Z.ltb_spec0 b) => // _; rewrite orbT.
Qed.
(** ... but other nonpositive second counts do not: zero raises ZeroDivisionError, and a
    negative one returns rows without any wavevector. *)
Theorem C26_nonpositive_refuted plv (a : nat) : (1 < a)%N -> nondegenerate plv ->
  brillouin_zone_in_plane_wavevector [:: Z.of_nat a; 0%coqZ] plv = Exn ZeroDivisionError /\
  brillouin_zone_in_plane_wavevector [:: Z.of_nat a; (-1)%coqZ] plv = Val (nseq a [::]).
Proof.
move=> a1 nd; have [rv hr] := reciprocal_total nd; move/ltP: (a1) => la.
have t b : tuple_lt (Z.of_nat a, b) (1, 1)%coqZ = false.
  by rewrite /tuple_lt /=; case: Z.ltb_spec0 => [|_]; [lia|]; case: Z.eqb_spec => //; lia.
rewrite /brillouin_zone_in_plane_wavevector !t /check /py_inv; cbn [negb].
case: Z.eqb_spec => [|_]; first lia.
cbn [bind Z.eqb]; split=> //; rewrite hr; cbn [bind]; congr Val.
rewrite brillouin_samples; last by apply: ltn_trans a1.
have -> : arangeR (- (1 / 2) + / -1 / 2)%coqR (1 / 2)%coqR (/ -1)%coqR = [::].
  have -> : (/ -1 = -1)%coqR by field.
  rewrite /arangeR; have -> : ((1 / 2 - (- (1 / 2) + -1 / 2)) / -1 = - (3 / 2))%coqR by field.
  rewrite /Rceil Ropp_involutive; have [h1 h2] := base_Int_part (3 / 2).
  have : (0 < IZR (Int_part (3 / 2)))%coqR by lra.
  by move/(lt_IZR 0) => h; case: (Int_part (3 / 2)) h => [| |] //=; lia.
rewrite /= -map_comp -[in nseq a _](size_iota 0 a).
by elim: (iota 0 a) => //= x s ->.
Qed.

(** The hypotheses are met: an oblique lattice. *)
Definition oblique := Lattice (2, 0)%coqR (1, 3)%coqR.
Example oblique_nondegenerate : nondegenerate oblique.
Proof. by rewrite /nondegenerate /cell_area /cross_product /= Rabs_pos_eq; lra. Qed.
Example ex_C22 : exists s, generate_expansion sort_indices oblique 5 Circular = Val s /\ (0, 0)%coqZ \in s /\ uniq s.
Proof.
have [s h] := @C22_defined sort_indices oblique 5 Circular ltac:(lia) oblique_nondegenerate; exists s; split=> //.
have [u _ z] := C22_orders argsort_exists h; split=> //; have := z ltac:(lia).
by case: s {h u z} => [|x s] //= ->; rewrite inE eqxx.
Qed.
(** A compact lattice that is not square. *)
Example ex_compact : compact oblique 10.
Proof.
have pi : (3 < PI)%coqR by have := PI2_3_2; lra.
rewrite /compact /cell_area /cross_product /length2 /dot /= /Z.div /= Rabs_pos_eq; last lra.
by split; nra.
Qed.
Example ex_C26 : exists g, brillouin_zone_in_plane_wavevector [:: 3; 2]%coqZ oblique = Val g /\ size g = 3%N.
Proof. by have [g [h [sz _ _]]] := @C26_grid oblique 3 2 isT isT oblique_nondegenerate; exists g. Qed.

Print Assumptions C22_orders.
Print Assumptions C22_circular.
Print Assumptions C22_circular_complete.
Print Assumptions C22_circular_even.
Print Assumptions C22_defined.
Print Assumptions C22_square.
Print Assumptions C22_circular_refuted.
Print Assumptions C23_parallelogramic.
Print Assumptions C24_dual.
Print Assumptions C24_involution.
Print Assumptions C24_degenerate.
Print Assumptions C24_transverse_wavevectors.
Print Assumptions C25_wavevector.
Print Assumptions C25_undefined.
Print Assumptions C26_grid.
Print Assumptions C26_fractions_unique.
Print Assumptions C26_centres.
Print Assumptions C26_symmetric.
Print Assumptions C26_contains_zero.
Print Assumptions C26_raises.
Print Assumptions C26_nonpositive_refuted.

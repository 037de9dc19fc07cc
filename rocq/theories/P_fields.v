(** C20, C44: fields on grids, at coordinates and through the layers of a stack. *)
From Coq Require Import Reals ZArith Lra Lia FunctionalExtensionality.
From mathcomp Require Import all_ssreflect all_algebra.
From Verif Require Import CField Err LinAlg M_utils M_basis M_fft M_fmm_matrices M_fmm M_scattering M_fields S_stack S_maxwell S_fft S_fields L_scattering L_stack L_example L_maxwell L_fft L_fmm P_fmm L_scale L_fields.
Set Implicit Arguments. Unset Strict Implicit. Unset Printing Implicit Defensive.
Import GRing.Theory.
Local Open Scope ring_scope.

(** ** C20 *)

(** [fields_on_coordinates] is the sum of the plane waves with wavevectors [k + G_i], [G_i] the
    reciprocal lattice vector of order [i]; the coordinates are returned as given. *)
Theorem C20_coordinates n m p (f : fields6 'M[C]_(n, m)) (l : layer_solve_result n) (x y : 'I_p -> R) g xy :
  fields_on_coordinates f l x y = Val (g, xy) ->
  exists G, [/\ forall i, bragg (primitive_lattice_vectors l) (tnth (expansion l) i) (G i),
      g = fields6_map (fun F pt => plane_waves (in_plane_wavevector l) G F (x pt, y pt)) f &
      forall pt, xy pt = (x pt, y pt)].
Proof.
case e : (reciprocal (primitive_lattice_vectors l)) => [rv|ex]; last first.
  by rewrite /fields_on_coordinates /transverse_wavevectors e.
rewrite (coordinatesE _ _ _ e) => -[<- <-]; exists (bragg_vector rv (expansion l)); split=> // i.
exact: bragg_vectorP.
Qed.
Print Assumptions C20_coordinates.

(** It is defined exactly for lattice vectors that are not collinear. *)
Theorem C20_coordinates_defined n m p (f : fields6 'M[C]_(n, m)) (l : layer_solve_result n) (x y : 'I_p -> R) :
  (exists r, fields_on_coordinates f l x y = Val r) <->
  cross_product (lat_u (primitive_lattice_vectors l)) (lat_v (primitive_lattice_vectors l)) <> 0%coqR.
Proof.
rewrite /fields_on_coordinates /transverse_wavevectors /reciprocal /recipR.
case: eqP => [e|ne] /=; split=> //; last by eexists.
by case.
Qed.
Print Assumptions C20_coordinates_defined.

(** Bloch's condition: a translation by [a u + b v] multiplies every field by
    [exp(i k . (a u + b v))]. *)
Theorem C20_bloch n m p (f : fields6 'M[C]_(n, m)) (l : layer_solve_result n) (x y : 'I_p -> R) (a b : Z) g xy g' xy' :
  let T := lattice_point (primitive_lattice_vectors l) a b in
  fields_on_coordinates f l x y = Val (g, xy) ->
  fields_on_coordinates f l (fun pt => x pt + T.1)%coqR (fun pt => y pt + T.2)%coqR = Val (g', xy') ->
  g' = fields6_map (times (cexp (Ci * RtoC (dot (in_plane_wavevector l) T)))) g.
Proof.
move=> T; case e : (reciprocal (primitive_lattice_vectors l)) => [rv|ex]; last first.
  by rewrite /fields_on_coordinates /transverse_wavevectors e.
rewrite !(coordinatesE _ _ _ e) => -[<- _] [<- _]; rewrite f6_comp; apply: f6_ext => F.
apply: functional_extensionality => pt; apply: functional_extensionality => j; rewrite /times.
rewrite -(@plane_waves_bloch _ _ (primitive_lattice_vectors l) _ _ _ (expansion l)) // => i.
exact: bragg_vectorP.
Qed.
Print Assumptions C20_bloch.

(** The fields of [fields_on_grid] are those of [fields_on_coordinates] at the returned
    coordinates, for any list of grid points. *)
Theorem C20_grid n m (f : fields6 'M[C]_(n, m)) (l : layer_solve_result n) shape nuc g xy :
  distinct (expansion l) ->
  cross_product (lat_u (primitive_lattice_vectors l)) (lat_v (primitive_lattice_vectors l)) <> 0%coqR ->
  fields_on_grid f l shape nuc = Val (g, xy) ->
  forall p (points : 'I_p -> grid_point shape nuc),
  fields_on_coordinates f l (fun i => (xy (points i)).1) (fun i => (xy (points i)).2) =
  Val (fields6_map (fun h i => h (points i)) g, fun i => xy (points i)).
Proof.
move=> hd hc hg p points; case e : (reciprocal (primitive_lattice_vectors l)) => [rv|ex]; last first.
  move: e; rewrite /reciprocal /recipR; case: eqP => // e; case: hc; exact: e.
have [n0 hr] : n <> 0%N /\ resolves shape.1 shape.2 (expansion l).
  move: hg; rewrite /fields_on_grid.
  case hv : (validate_shape_for_expansion shape (expansion l)) => [[]|ex] // _.
  by apply/validateP; rewrite -surjective_pairing.
move: hg; rewrite (gridE _ _ e) // (coordinatesE _ _ _ e) => -[<- <-]; rewrite f6_comp.
congr (Val (_, _)); apply: functional_extensionality => i; by rewrite -surjective_pairing.
Qed.
Print Assumptions C20_grid.

(** The coordinates: point [(i, j)] of a [(nx, ny)] grid is at [(i/nx) u + (j/ny) v], also in
    the repeated cells. *)
Theorem C20_grid_coordinates n m (f : fields6 'M[C]_(n, m)) (l : layer_solve_result n) shape nuc g xy :
  fields_on_grid f l shape nuc = Val (g, xy) -> forall pt,
  let u := lat_u (primitive_lattice_vectors l) in let v := lat_v (primitive_lattice_vectors l) in
  xy pt = (INR pt.1 / INR shape.1 * u.1 + INR pt.2 / INR shape.2 * v.1,
           INR pt.1 / INR shape.1 * u.2 + INR pt.2 / INR shape.2 * v.2)%coqR.
Proof. by rewrite /fields_on_grid => H; binv H r hr; case: H => _ <-. Qed.
Print Assumptions C20_grid_coordinates.

(** Tiling: the value in another unit cell is the value in the first times the Bloch phase. *)
Theorem C20_tiling n m (f : fields6 'M[C]_(n, m)) (l : layer_solve_result n) shape nuc g xy :
  distinct (expansion l) ->
  cross_product (lat_u (primitive_lattice_vectors l)) (lat_v (primitive_lattice_vectors l)) <> 0%coqR ->
  fields_on_grid f l shape nuc = Val (g, xy) ->
  forall (pt pt' : grid_point shape nuc) (a b : nat),
  (pt'.1 = a * shape.1 + pt.1 :> nat)%N -> (pt'.2 = b * shape.2 + pt.2 :> nat)%N ->
  let T := lattice_point (primitive_lattice_vectors l) (Z.of_nat a) (Z.of_nat b) in
  xy pt' = vadd (xy pt) T /\
  fields6_map (fun h : xyfield _ m => h pt') g =
  fields6_map (fun h : xyfield _ m => times (cexp (Ci * RtoC (dot (in_plane_wavevector l) T))) h pt) g.
Proof.
move=> hd hc hg pt pt' a b ea eb T; case e : (reciprocal (primitive_lattice_vectors l)) => [rv|ex]; last first.
  move: e; rewrite /reciprocal /recipR; case: eqP => // e; case: hc; exact: e.
have [n0 hr] : n <> 0%N /\ resolves shape.1 shape.2 (expansion l).
  move: hg; rewrite /fields_on_grid.
  case hv : (validate_shape_for_expansion shape (expansion l)) => [[]|ex] // _.
  by apply/validateP; rewrite -surjective_pairing.
have [s1 s2] := resolves_pos n0 hr.
have q1 : INR shape.1 <> 0%coqR by apply: not_0_INR; case: shape.1 s1.
have q2 : INR shape.2 <> 0%coqR by apply: not_0_INR; case: shape.2 s2.
move: hg; rewrite (gridE _ _ e) // => -[<- <-].
have ec : unit_cell_coordinate (primitive_lattice_vectors l) shape pt'.1 pt'.2 =
          vadd (unit_cell_coordinate (primitive_lattice_vectors l) shape pt.1 pt.2) T.
  rewrite /unit_cell_coordinate ea eb /vadd /T /lattice_point /= !plus_INR !mult_INR -!INR_IZR_INZ.
  by congr pair; field.
split=> //; rewrite !f6_comp; apply: f6_ext => F; apply: functional_extensionality => j; rewrite ec /times.
by rewrite (@plane_waves_bloch _ _ (primitive_lattice_vectors l) _ _ _ (expansion l)) // => i; exact: bragg_vectorP.
Qed.
Print Assumptions C20_tiling.

Lemma nth_error_zip A B (s : seq A) (t : seq B) k x y : List.nth_error s k = Some x -> List.nth_error t k = Some y ->
  List.nth_error (zip s t) k = Some (x, y).
Proof. by elim: s t k => [|a s IH] [|b t] [|k] //=; [move=> [->] [->]|exact: IH]. Qed.
Lemma zip_snd A B (s : seq A) (t : seq B) : size t = size s -> [seq x.2 | x <- zip s t] = t.
Proof. by move=> e; apply: unzip2_zip; rewrite e. Qed.
Lemma zip_fst A B (s : seq A) (t : seq B) : size t = size s -> [seq x.1 | x <- zip s t] = s.
Proof. by move=> e; apply: unzip1_zip; rewrite e. Qed.

(** ** C44 *)

(** What a stack's three dimensional fields are: the slices of layer [k] come after those of the
    layers before it; slice [i] is at the sum of the earlier thicknesses plus the height of
    sample [i], and is the field that the colocated amplitudes of layer [k] give there. *)
Definition stack_slices n m P (fn : fields_xy_slice_fn n P) (amps : seq ('M[C]_(n + n, m) * 'M[C]_(n + n, m)))
    (layers : seq (layer_solve_result n)) (ts : seq R) (znums : seq nat)
    (g : seq (fields6 (xyfield P m))) (xy : P -> R * R) (z : seq R) :=
  [/\ size g = sumn znums, size z = sumn znums &
  forall k i a b l t znum,
  List.nth_error amps k = Some (a, b) -> List.nth_error layers k = Some l ->
  List.nth_error ts k = Some t -> List.nth_error znums k = Some znum -> (i < znum)%N ->
  let index := (sumn (take k znums) + i)%N in
  exists f h xy',
  [/\ reported_fields l t a b (sample_height t znum i) = Val f,
      fn m f l = Val (h, xy'),
      List.nth_error g index = Some h,
      List.nth_error z index = Some (rsum (take k ts) + sample_height t znum i)%coqR &
      k.+1 = size layers -> xy = xy']].
Lemma C44_gen n m P (fn : fields_xy_slice_fn n P) (amps : seq ('M[C]_(n + n, m) * 'M[C]_(n + n, m)))
    (layers : seq (layer_solve_result n)) (ts : seq R) (znums : seq nat) g xy z : columnwise fn ->
  stack_fields_3d_gen fn amps layers ts znums = Val (g, xy, z) ->
  [/\ size layers = size amps, size ts = size amps, size znums = size amps & stack_slices fn amps layers ts znums g xy z].
Proof.
move=> hc; rewrite /stack_fields_3d_gen => H; have [/andP [/andP [/eqP e1 /eqP e2] /eqP e3] {}H] := checkV H.
binv H x hx; case: x hx H => [[g' oxy] z'] hx; case: oxy hx => [xy'|] // hx [<- <- <-].
have [s1 s2 _ h] := loopV hc hx.
have z1 : [seq x.2 | x <- zip (zip (zip amps layers) ts) znums] = znums.
  by apply: zip_snd; rewrite !size_zip e1 e2 e3 !minnn.
have z2 : [seq x.1.2 | x <- zip (zip (zip amps layers) ts) znums] = ts.
  rewrite (map_comp snd fst) zip_fst; last by rewrite !size_zip e1 e2 e3 !minnn.
  by apply: zip_snd; rewrite !size_zip e1 e2 minnn.
rewrite z1 in s1 s2 h; rewrite z2 in h; split=> //; split=> // k i a b l t znum h1 h2 h3 h4 hi.
have [f [h' [xy2 [r1 r2 r3 r4 r5]]]] := h k i a b l t znum (nth_error_zip (nth_error_zip (nth_error_zip h1 h2) h3) h4) hi.
exists f, h', xy2; split=> //; first by rewrite r4 Rplus_0_l.
by move=> e; have [-> ] : Some xy' = Some xy2 by apply: r5; rewrite !size_zip e1 e2 e3 !minnn -e1.
Qed.

Theorem C44_stack_fields n m (amps : seq ('M[C]_(n + n, m) * 'M[C]_(n + n, m)))
    (layers : seq (layer_solve_result n)) (ts : seq R) (znums : seq nat) shape nuc g xy z :
  stack_fields_3d amps layers ts znums shape nuc = Val (g, xy, z) ->
  stack_slices (fun _ f l => fields_on_grid f l shape nuc) amps layers ts znums g xy z.
Proof. by move=> h; have [] := C44_gen (@grid_columnwise n shape nuc) h. Qed.
Print Assumptions C44_stack_fields.
Theorem C44_stack_fields_on_coordinates n m p (amps : seq ('M[C]_(n + n, m) * 'M[C]_(n + n, m)))
    (layers : seq (layer_solve_result n)) (ts : seq R) (znums : seq nat) (x y : 'I_p -> R) g xy z :
  stack_fields_3d_on_coordinates amps layers ts znums x y = Val (g, xy, z) ->
  stack_slices (fun _ f l => fields_on_coordinates f l x y) amps layers ts znums g xy z.
Proof. by move=> h; have [] := C44_gen (@coordinates_columnwise n p x y) h. Qed.
Print Assumptions C44_stack_fields_on_coordinates.

(** One layer. *)
Theorem C44_layer_fields n m (a b : 'M[C]_(n + n, m)) (l : layer_solve_result n) t znum shape nuc g xy z :
  layer_fields_3d a b l t znum shape nuc = Val (g, xy, z) ->
  [/\ size g = znum, size z = znum &
  forall i, (i < znum)%N -> exists f h,
  [/\ reported_fields l t a b (sample_height t znum i) = Val f,
      fields_on_grid f l shape nuc = Val (h, xy),
      List.nth_error g i = Some h & List.nth_error z i = Some (sample_height t znum i)]].
Proof. exact: (layer3dV (@grid_columnwise n shape nuc)). Qed.
Print Assumptions C44_layer_fields.
Theorem C44_layer_fields_on_coordinates n m p (a b : 'M[C]_(n + n, m)) (l : layer_solve_result n) t znum (x y : 'I_p -> R) g xy z :
  layer_fields_3d_on_coordinates a b l t znum x y = Val (g, xy, z) ->
  [/\ size g = znum, size z = znum &
  forall i, (i < znum)%N -> exists f h,
  [/\ reported_fields l t a b (sample_height t znum i) = Val f,
      fields_on_coordinates f l x y = Val (h, xy),
      List.nth_error g i = Some h & List.nth_error z i = Some (sample_height t znum i)]].
Proof. exact: (layer3dV (@coordinates_columnwise n p x y)). Qed.
Print Assumptions C44_layer_fields_on_coordinates.

(** The heights increase through the stack and stay within it. *)
Theorem C44_heights n m P (fn : fields_xy_slice_fn n P) (amps : seq ('M[C]_(n + n, m) * 'M[C]_(n + n, m)))
    (layers : seq (layer_solve_result n)) (ts : seq R) (znums : seq nat) g xy z :
  stack_fields_3d_gen fn amps layers ts znums = Val (g, xy, z) ->
  (forall t, List.In t ts -> (0 <= t)%coqR) ->
  ascending z /\ forall x, List.In x z -> (0 <= x <= rsum ts)%coqR.
Proof.
rewrite /stack_fields_3d_gen => H hp; have [/andP [/andP [/eqP e1 /eqP e2] /eqP e3] {}H] := checkV H.
binv H x hx; case: x hx H => [[g' oxy] z'] hx; case: oxy hx => [xy'|] // hx [_ _ <-].
have z2 : [seq x.1.2 | x <- zip (zip (zip amps layers) ts) znums] = ts.
  rewrite (map_comp snd fst) zip_fst; last by rewrite !size_zip e1 e2 e3 !minnn.
  by apply: zip_snd; rewrite !size_zip e1 e2 minnn.
have [|h1 h2] := loop_heights hx; last by split=> // x /h2; rewrite z2 Rplus_0_l.
by move=> x hx'; apply: hp; rewrite -z2 in_map; exists x.
Qed.
Print Assumptions C44_heights.
(** The samples of a layer start at its start; with two or more they end at its end. *)
Theorem C44_sample_ends t num : sample_height t num 0 = 0%coqR /\
  ((1 < num)%N -> sample_height t num num.-1 = t).
Proof.
rewrite /sample_height; split; first by rewrite /= /Rdiv !Rmult_0_l.
by case: num => [|[|num]] // _; rewrite subn1 /=; field; apply: (not_0_INR num.+1).
Qed.
Print Assumptions C44_sample_ends.

(** Lists of different lengths raise a ValueError; so does an empty stack. *)
Theorem C44_lengths n m P (fn : fields_xy_slice_fn n P) (amps : seq ('M[C]_(n + n, m) * 'M[C]_(n + n, m)))
    (layers : seq (layer_solve_result n)) (ts : seq R) (znums : seq nat) :
  ~ (size layers = size amps /\ size ts = size amps /\ size znums = size amps) \/ amps = [::] ->
  stack_fields_3d_gen fn amps layers ts znums = Exn ValueError.
Proof.
rewrite /stack_fields_3d_gen /check; case: eqP => [e1|] //=; case: eqP => [e2|] //=; case: eqP => [e3|] //=.
case=> [[]//|ea]; move: e1 e2 e3; rewrite ea /=.
by case: layers => // _; case: ts => // _; case: znums.
Qed.
Print Assumptions C44_lengths.

(** The automatic grid: spacings of the given size, up to rounding of the counts. *)
Theorem C44_auto_grid n m (amps : seq ('M[C]_(n + n, m) * 'M[C]_(n + n, m)))
    (layers : seq (layer_solve_result n)) (ts : seq R) spacing nuc r :
  stack_fields_3d_auto_grid amps layers ts spacing nuc = Val r ->
  exists l0 rest znums,
  let near length count := (Rabs (length / spacing - INR count) <= 1 / 2)%coqR in
  [/\ layers = l0 :: rest,
      near (norm2 (lat_u (primitive_lattice_vectors l0))) (projT1 r).1,
      near (norm2 (lat_v (primitive_lattice_vectors l0))) (projT1 r).2,
      List.Forall2 near ts znums &
      stack_fields_3d amps layers ts znums (projT1 r) nuc = Val (projT2 r)].
Proof.
rewrite /stack_fields_3d_auto_grid; case: layers => // l0 rest H.
binv H gx hx; binv H gy hy; binv H zn hz; have [x hx' e] := rmapV H.
exists l0, rest, zn; rewrite -{}e /=; split=> //.
- by have [_] := round_countP hx.
- by have [_] := round_countP hy.
- clear H hx'; elim: (ts) zn hz => [|t ts' IH] zn /=; first by case=> <-; constructor.
  move=> H; binv H a ha; binv H b hb; case: H => <-; constructor; last exact: IH.
  by have [_] := round_countP ha.
Qed.
Print Assumptions C44_auto_grid.

(** ** Non-vacuity *)
Definition ex_fields : fields6 'M[C]_(1, 1) := Fields 1 1 0 0 Ci%:M 1.
Example C20_witness : exists g xy,
  [/\ fields_on_grid ex_fields (ex_layer 2) (4, 3)%N (2, 2)%N = Val (g, xy), distinct (expansion (ex_layer 2)) &
      cross_product (lat_u (primitive_lattice_vectors (ex_layer 2))) (lat_v (primitive_lattice_vectors (ex_layer 2))) <> 0%coqR].
Proof.
have hr := @ex_resolves 4 3 isT isT.
do 2 eexists; split; [rewrite (@gridE _ _ _ (ex_layer 2) (4, 3)%N (2, 2)%N _ recip_sq) //; exact: ex_distinct|exact: ex_distinct|].
by rewrite /cross_product /=; lra.
Qed.
Lemma ex_fields_total r m (a b : 'M[C]_(1 + 1, m)) : (0 < r)%coqR ->
  exists f, fields_from_wave_amplitudes a b (ex_layer r) = Val f.
Proof.
move=> r0; have [M hM] := ex_finite r0; rewrite /fields_from_wave_amplitudes hM /= ex_k /= ex_w /=.
rewrite /recipC mulf_eq0 (negbTE Ci_neq0) RtoC_eq0 /=.
by case: eqP => [e|_]; [case: (R1_neq_R0 e)|eexists].
Qed.
Lemma ex_layer3d r m (a b : 'M[C]_(1 + 1, m)) t znum : (0 < r)%coqR ->
  exists x, layer_fields_3d_gen (fun _ f l => fields_on_grid f l (4, 3)%N (1, 1)%N) a b (ex_layer r) t znum = Val x.
Proof.
move=> r0; rewrite /layer_fields_3d_gen /colocate_amplitudes.
set A := propagate_amplitude _ _ _; set B := propagate_amplitude _ _ _.
have [f ->] := ex_fields_total A B r0; cbn [bind].
rewrite (@gridE _ _ f (ex_layer r) (4, 3)%N (1, 1)%N _ recip_sq ex_distinct) //; last exact: ex_resolves.
by cbn [bind]; eexists.
Qed.
Example C44_witness : exists r,
  stack_fields_3d [:: (const_mx 1, 0); (0, const_mx Ci)] [:: ex_layer 1; ex_layer 2] [:: 1; 2]%coqR [:: 3; 2]%N (4, 3)%N (1, 1)%N
  = Val (r : seq (fields6 (xyfield (grid_point (4, 3)%N (1, 1)%N) 1)) * _ * _).
Proof.
rewrite /stack_fields_3d /stack_fields_3d_gen; cbn [size eqn zip stack_fields_3d_loop check andb eq_op].
have r1 : (0 < 1)%coqR by lra. have r2 : (0 < 2)%coqR by lra.
have [[[x1 x2] x3] ->] := @ex_layer3d 1 1 (const_mx 1) 0 1 3 r1; cbn [bind].
have [[[y1 y2] y3] ->] := @ex_layer3d 2 1 0 (const_mx Ci) 2 2 r2; cbn [bind].
by eexists.
Qed.

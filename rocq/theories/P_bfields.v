(** C55, C56: amplitudes, flux and fields of batches. *)
From Coq Require Import Reals ZArith Lra FunctionalExtensionality.
From mathcomp Require Import all_ssreflect all_algebra.
From Verif Require Import Tac CField Err LinAlg M_utils M_basis M_fft M_fmm_matrices M_nd M_fmm M_scattering M_fields M_batch M_bstack M_bvector M_bfmm M_bfields
  S_utils P_utils S_fft L_fft S_batch L_batch P_batch L_broadcast P_broadcast S_stack L_stack S_bstack L_bstack P_bstack S_bvector L_bvector S_bfmm L_bfmm P_bfmm
  S_bfields L_bfields L_example P_fmm P_fields P_maxwell.
Set Implicit Arguments. Unset Strict Implicit. Unset Printing Implicit Defensive.
Import GRing.Theory.

Lemma in3 (T : eqType) (x a b c : T) : x \in [:: a; b; c] -> List.In x [:: a; b; c].
Proof. by rewrite !inE => /orP [/eqP ->|/orP [/eqP ->|/eqP ->]]; [left|right; left|right; right; left]. Qed.
Lemma in2 (T : eqType) (x a b : T) : x \in [:: a; b] -> List.In x [:: a; b].
Proof. by rewrite !inE => /orP [/eqP ->|/eqP ->]; [left|right; left]. Qed.

(** ** C55 *)
Section Amplitudes.
Variables (n m : nat) (l : batched_result n) (A B : seq nat).
Hypotheses (n0 : (0 < n)%N) (m0 : (0 < m)%N) (B0 : 0%N \notin B) (hl : solve_result l A) (hA : broadcasts_to A B).
Let wl : batched_layer l B. Proof. by case: hl => h _; exact: layer_trans h hA. Qed.
Let eA : nshape (b_eigenvalues l) = A ++ [:: (n + n)%N]. Proof. by case: hl => _ []. Qed.

(** Propagation through a distance. *)
Theorem C55_propagate (a : batch 'M[C]_(n + n, m)) (d : nd R) :
  broadcasts_to (nshape a) B -> batched_distance d m B ->
  exists z, [/\ propagate_amplitude_b a d l = Val z, shape_between [:: A; nshape a] (nshape z) B &
    forall b a1 d1 l1, solve_element l b l1 -> matrix_element a b a1 -> distance_element d b d1 ->
      matrix_element z b (propagate_amplitude a1 d1 l1)].
Proof.
move=> ca cd; have [z [h1 h2 h3 h4 h5]] := propagate_ok n0 m0 B0 wl ca cd; exists z; split=> //.
  by split=> // t /in2 [<-|[<-|//]]; [exact: h4|].
move=> b a1 d1 l1 [el _ _ _ _] /array_elementE ea ed; apply/array_elementE; apply: h5 => // j; exact/array_elementE.
Qed.
(** Amplitudes at one plane, of one pair of amplitudes at the ends of a layer. *)
Theorem C55_colocate (f e : batch 'M[C]_(n + n, m)) (z t : nd R) :
  broadcasts_to (nshape f) B -> broadcasts_to (nshape e) B -> batched_distance z m B -> batched_distance t m B ->
  exists x y, [/\ colocate_amplitudes_b f e z l t = Val (x, y),
      shape_between [:: A; nshape f] (nshape x) B, shape_between [:: A; nshape e] (nshape y) B &
    forall b f1 e1 z1 t1 l1, solve_element l b l1 -> matrix_element f b f1 -> matrix_element e b e1 ->
      distance_element z b z1 -> distance_element t b (const_mx t1 : 'rV[R]_m) ->
      matrix_element x b (colocate_amplitudes f1 e1 z1 l1 t1).1 /\ matrix_element y b (colocate_amplitudes f1 e1 z1 l1 t1).2].
Proof.
move=> cf ce cz ct; have [x [y [h1 [h2 h2'] [h3 h3'] h4 h5]]] := colocate_ok n0 m0 B0 wl cf ce cz ct; exists x, y.
have [h6 h7] := h4 _ eA; split=> //; try by split=> // s /in2 [<-|[<-|//]].
move=> b f1 e1 z1 t1 l1 [el _ _ _ _] /array_elementE ef /array_elementE ee ez et.
have et' (j : 'I_m) : bget t (b ++ [:: 0%N; nat_of_ord j]) = t1 by have /array_elementE -> := et j; rewrite mxE.
have ez' (j : 'I_m) : bget z (b ++ [:: 0%N; nat_of_ord j]) = z1 0%R j by exact/array_elementE.
by have [q1 q2] := h5 b f1 e1 z1 l1 t1 el ef ee ez' et'; split; apply/array_elementE.
Qed.
(** The flux of each order, for pairs of amplitudes. *)
Theorem C55_amplitude_flux (f e : batch 'M[C]_(n + n, m)) :
  broadcasts_to (nshape f) B -> broadcasts_to (nshape e) B ->
  exists x y, [/\ amplitude_poynting_flux_b f e l = Val (x, y),
      shape_between [:: A; nshape f; nshape e] (nshape x) B, shape_between [:: A; nshape f; nshape e] (nshape y) B &
    forall b f1 e1 l1 r1, solve_element l b l1 -> matrix_element f b f1 -> matrix_element e b e1 ->
      amplitude_poynting_flux f1 e1 l1 = Val r1 -> matrix_element x b r1.1 /\ matrix_element y b r1.2].
Proof.
move=> cf ce; have [x [y [h1 [h2 h3] h4 h5]]] := amplitude_flux_ok n0 m0 B0 hl hA cf ce; exists x, y; split=> //.
- by split=> // s /in3 /h4 [].
- by split=> // s /in3 /h4 [].
move=> b f1 e1 l1 r1 [el _ _ _ _] /array_elementE ef /array_elementE ee hr.
by have [q1 q2] := h5 b l1 f1 e1 r1 el ef ee hr; split; apply/array_elementE.
Qed.
Theorem C55_directional_flux (f e : batch 'M[C]_(n + n, m)) :
  broadcasts_to (nshape f) B -> broadcasts_to (nshape e) B ->
  exists x y, [/\ directional_poynting_flux_b f e l = Val (x, y),
      shape_between [:: A; nshape f; nshape e] (nshape x) B, shape_between [:: A; nshape f; nshape e] (nshape y) B &
    forall b f1 e1 l1 r1, solve_element l b l1 -> matrix_element f b f1 -> matrix_element e b e1 ->
      directional_poynting_flux f1 e1 l1 = Val r1 -> matrix_element x b r1.1 /\ matrix_element y b r1.2].
Proof.
move=> cf ce; have [x [y [h1 [h2 h3] h4 h5]]] := directional_flux_ok n0 hl hA cf ce; exists x, y; split=> //.
- by split=> // s /in3 /h4 [].
- by split=> // s /in3 /h4 [].
move=> b f1 e1 l1 r1 [el _ _ _ _] /array_elementE ef /array_elementE ee hr.
by have [q1 q2] := h5 b l1 f1 e1 r1 el ef ee hr; split; apply/array_elementE.
Qed.
(** The Fourier fields of pairs of amplitudes with one batch shape. *)
Theorem C55_fields (f e : batch 'M[C]_(n + n, m)) :
  broadcasts_to (nshape f) B -> nshape e = nshape f ->
  exists g s, [/\ fields_from_wave_amplitudes_b f e l = Val g, fields_shaped g s, shape_between [:: A; nshape f] s B &
    forall b f1 e1 l1 r1, solve_element l b l1 -> matrix_element f b f1 -> matrix_element e b e1 ->
      fields_from_wave_amplitudes f1 e1 l1 = Val r1 -> fields_element g b r1].
Proof.
move=> cf se; have [g [s [h1 h2 h3 [h4 h5] h6]]] := wave_fields_ok n0 m0 B0 hl hA cf se; exists g, s; split=> //.
  by split=> // t /in2 [<-|[<-|//]].
move=> b f1 e1 l1 r1 el /array_elementE ef /array_elementE ee hr; exact: h6 el ef ee hr.
Qed.
End Amplitudes.
(** The flux of the modes and the matrix that converts amplitudes to fields. *)
Theorem C55_eigenmode_flux n (l : batched_result n) A : (0 < n)%N -> solve_result l A ->
  exists x, [/\ eigenmode_poynting_flux_b l = Val x, nshape x = A &
    forall b l1 r1, solve_element l b l1 -> eigenmode_poynting_flux l1 = Val r1 -> matrix_element x b r1].
Proof.
move=> n0 hl; have [x [h1 h2 h3]] := eigenmode_flux_ok n0 hl; exists x; split=> //.
by move=> b l1 r1 [el _ _ _ _] hr; apply/array_elementE; exact: h3 el hr.
Qed.
Theorem C55_conversion n (l : batched_result n) A : (0 < n)%N -> solve_result l A ->
  exists x, [/\ field_conversion_matrix_b l = Val x, nshape x = A &
    forall b l1 r1, solve_element l b l1 -> field_conversion_matrix l1 = Val r1 -> matrix_element x b r1].
Proof.
move=> n0 hl; have [x [h1 h2 h3]] := conversion_ok n0 hl; exists x; split=> //.
by move=> b l1 r1 [el _ _ _ _] hr; apply/array_elementE; exact: h3 el hr.
Qed.

(** ** Amplitudes inside a stack *)
Lemma append_size n (s : scattering_matrix n) ls tl : append_layers s ls = Val tl -> size tl = size ls.
Proof.
elim: ls s tl => [|[l t] ls IH] s tl; first by move=> [<-].
by cbn [append_layers] => H; bv H s' hs; bv H tl' ht; case: H => <-; rewrite /= (IH _ _ ht).
Qed.
Lemma stack_size n (ls : seq (layer_solve_result n)) ts ss : stack_s_matrices ls ts = Val ss -> size ss = size ls.
Proof.
rewrite /stack_s_matrices /check; case: eqP => // es.
case: ls ts es => [|l0 [|l1 ls]] [|t0 [|t1 ts]] //= es; first by move=> [<-].
case: es => es H; bv H s1 h1; bv H tl h2; by case: H => <-; rewrite /= (append_size h2) size_zip es minnn.
Qed.
Lemma nth_forall2 T U (P : T -> U -> Prop) xs ys : size xs = size ys ->
  (forall x0 y0 k, k < size xs -> P (nth x0 xs k) (nth y0 ys k)) -> List.Forall2 P xs ys.
Proof.
elim: xs ys => [|x xs IH] [|y ys] //= es h; apply: List.Forall2_cons; first exact: (h x y 0).
by apply: IH => [|x0 y0 k hk]; [case: es|exact: (h x0 y0 k.+1)].
Qed.
Section Interior.
Variables (n m : nat) (B : seq nat) (f e : batch 'M[C]_(n + n, m)).
Hypotheses (n0 : (0 < n)%N) (m0 : (0 < m)%N) (B0 : 0%N \notin B).
Hypotheses (cf : broadcasts_to (nshape f) B) (ce : broadcasts_to (nshape e) B).
Let fe := [:: nshape f; nshape e].
(** In one layer, from the scattering matrices before and after it. *)
Theorem C55_amplitudes_interior (p q : batched_s_matrix n) :
  batched_scattering p B -> batched_scattering q B ->
  exists x, [/\ amplitudes_interior_b p q f e = Val x, shape_between fe (nshape x.1) B, shape_between fe (nshape x.2) B &
    forall b p1 q1 f1 e1 x1, s_matrix_element p b (Val p1) -> s_matrix_element q b (Val q1) ->
      matrix_element f b f1 -> matrix_element e b e1 -> amplitudes_interior p1 q1 f1 e1 = Val x1 -> pair_element x b x1].
Proof.
move=> /shapedE [hp _ _] /shapedE [hq _ _]; case: hp hq => p11 p12 p21 p22 [q11 q12 q21 q22].
have [x [y [h1 [h2 h3] h4 h5]]] := interior_ok n0 m0 B0 p11 p12 q21 q22 cf ce; exists (x, y); split=> //.
- by split=> // t /in2 /h4 [].
- by split=> // t /in2 /h4 [].
move=> b p1 q1 f1 e1 x1 hp hq /array_elementE hf /array_elementE he hx.
by have [k1 k2] := h5 b p1 q1 f1 e1 x1 hp hq hf he hx; split; apply/array_elementE.
Qed.
(** In all layers, from the list of scattering matrices. *)
Theorem C55_stack_amplitudes (ss : seq (batched_s_matrix n * batched_s_matrix n)) :
  List.Forall (fun s => batched_scattering s.1 B /\ batched_scattering s.2 B) ss ->
  exists xs, [/\ stack_amplitudes_interior_b ss f e = Val xs, size xs = size ss,
      List.Forall (fun x => shape_between fe (nshape x.1) B /\ shape_between fe (nshape x.2) B) xs &
    forall b ss1 f1 e1 xs1,
      List.Forall2 (fun s s1 => s_matrix_element s.1 b (Val s1.1) /\ s_matrix_element s.2 b (Val s1.2)) ss ss1 ->
      matrix_element f b f1 -> matrix_element e b e1 -> stack_amplitudes_interior ss1 f1 e1 = Val xs1 ->
      List.Forall2 (fun x x1 => pair_element x b x1) xs xs1].
Proof.
rewrite /stack_amplitudes_interior_b; elim: ss => [|s ss IH].
  move=> _; exists [::]; split=> // b ss1 f1 e1 xs1 /forall2_size; case: ss1 => // _ _ _ [<-]; exact: List.Forall2_nil.
move=> /List.Forall_cons_iff [[hp hq] hs]; have [x [h1 h2 h3 h4]] := C55_amplitudes_interior hp hq.
have [xs [k1 k2 k3 k4]] := IH hs; cbn [mapM]; rewrite h1; cbn [bind]; rewrite k1; cbn [bind].
exists (x :: xs); split=> //; [by rewrite /= k2|by apply/List.Forall_cons_iff|].
move=> b [|s1 ss1] f1 e1 xs1 h hf he; first by have := forall2_size h.
have [[e1' e2'] h'] : (s_matrix_element s.1 b (Val s1.1) /\ s_matrix_element s.2 b (Val s1.2)) /\
  List.Forall2 (fun s s1 => s_matrix_element s.1 b (Val s1.1) /\ s_matrix_element s.2 b (Val s1.2)) ss ss1 by inversion h.
rewrite /stack_amplitudes_interior; cbn [mapM] => H; bv H y hy; bv H ys hys; case: H => <-.
apply: List.Forall2_cons; first exact: h4 e1' e2' hf he hy.
exact: k4 h' hf he hys.
Qed.
(** From the layers: the scattering matrices computed for the batch, and the amplitudes computed from them. *)
Theorem C55_stack (layers : seq (batched_result n)) (thicknesses : seq (nd R)) :
  (0 < size layers)%N -> size layers = size thicknesses ->
  List.Forall (fun l => batched_layer l B) layers -> List.Forall (fun t => batched_thickness t B) thicknesses ->
  exists ss xs, [/\ stack_s_matrices_interior_b layers thicknesses = Val ss, stack_amplitudes_interior_b ss f e = Val xs,
      size xs = size layers,
      List.Forall (fun x => shape_between fe (nshape x.1) B /\ shape_between fe (nshape x.2) B) xs &
    forall b layers1 thicknesses1 f1 e1 ss1 xs1, layers_element layers thicknesses b layers1 thicknesses1 ->
      matrix_element f b f1 -> matrix_element e b e1 -> stack_s_matrices_interior layers1 thicknesses1 = Val ss1 ->
      stack_amplitudes_interior ss1 f1 e1 = Val xs1 -> List.Forall2 (fun x x1 => pair_element x b x1) xs xs1].
Proof.
move=> h0 es hl ht; have [ss [h1 h2 h3 h4]] := C52_interior n0 h0 es hl ht.
have [xs [k1 k2 k3 k4]] := C55_stack_amplitudes h3; exists ss, xs; split=> //; first by rewrite k2.
move=> b ls1 ts1 f1 e1 ss1 xs1 hb hf he hs hx; apply: k4 hf he hx.
have {}h4 := h4 b ls1 ts1 hb; case: hb => /forall2_size s1 /forall2_size s2.
move: hs; rewrite /stack_s_matrices_interior => H; bv H bf hbf; bv H af haf; case: H => <-.
have zs : size ls1 = size ts1 by rewrite -s1 -s2.
have sb : size bf = size ls1 by exact: (stack_size hbf).
have sa : size af = size ls1 by rewrite (stack_size haf) size_rev.
apply: nth_forall2 => [|x0 y0 k hk]; first by rewrite size_zip size_map size_rev sb sa minnn h2 s1.
rewrite h2 in hk; have hk1 : k < size ls1 by rewrite -s1.
case: y0 => y1 y2; rewrite nth_zip ?size_map ?size_rev ?sb ?sa //; cbn [fst snd].
have [q1 q2] := h4 x0 k hk; split.
  by move: q1; rewrite (stack_prefix y1 hbf hk1).
move: q2; have hk2 : size ls1 - k.+1 < size (rev ls1) by rewrite size_rev; natlia.
have := stack_prefix y1 haf hk2; rewrite -subSn // subSS !take_rev ?subKn ?zs; try natlia.
have -> : size ts1 - (size ts1 - k) = k by natlia.
move=> -> /=; rewrite (nth_map y1) ?size_rev ?sa // nth_rev ?sa // zs.
by [].
Qed.
End Interior.
(** In the layers before and after an embedded source, from the amplitudes it emits to either side. *)
Theorem C55_with_source n m (B : seq nat) (before after : seq (batched_s_matrix n * batched_s_matrix n))
    (bwd fwd : batch 'M[C]_(n + n, m)) :
  (0 < n)%N -> (0 < m)%N -> 0%N \notin B -> broadcasts_to (nshape bwd) B -> broadcasts_to (nshape fwd) B ->
  List.Forall (fun s => batched_scattering s.1 B /\ batched_scattering s.2 B) before ->
  List.Forall (fun s => batched_scattering s.1 B /\ batched_scattering s.2 B) after ->
  exists xs, [/\ stack_amplitudes_interior_with_source_b before after bwd fwd = Val xs, size xs = (size before + size after)%N &
    forall b before1 after1 bwd1 fwd1 xs1,
      List.Forall2 (fun s s1 => s_matrix_element s.1 b (Val s1.1) /\ s_matrix_element s.2 b (Val s1.2)) before before1 ->
      List.Forall2 (fun s s1 => s_matrix_element s.1 b (Val s1.1) /\ s_matrix_element s.2 b (Val s1.2)) after after1 ->
      matrix_element bwd b bwd1 -> matrix_element fwd b fwd1 ->
      stack_amplitudes_interior_with_source before1 after1 bwd1 fwd1 = Val xs1 ->
      List.Forall2 (fun x x1 => pair_element x b x1) xs xs1].
Proof.
move=> n0 m0 B0 cb cf hb ha.
have zb (x : batch 'M[C]_(n + n, m)) b : matrix_element (zeros_like x) b 0%R by apply/array_elementE.
have [xs [h1 h2 _ h3]] := C55_stack_amplitudes (f := zeros_like bwd) n0 m0 B0 cb cb hb.
have [ys [k1 k2 _ k3]] := C55_stack_amplitudes (e := zeros_like fwd) n0 m0 B0 cf cf ha.
rewrite /stack_amplitudes_interior_with_source_b h1; cbn [bind]; rewrite k1; cbn [bind].
exists (xs ++ ys); split; [by []|by rewrite size_cat h2 k2|].
move=> b be1 af1 b1 f1 xs1 eb ea hb1 hf1; rewrite /stack_amplitudes_interior_with_source => H; bv H u hu; bv H v hv; case: H => <-.
by apply: List.Forall2_app; [exact: h3 eb (zb _ _) hb1 hu|exact: k3 ea hf1 (zb _ _) hv].
Qed.

(** ** C56 *)
(** The fields of an xy slice on a grid that resolves the expansion, and at given coordinates. *)
Theorem C56_on_grid n (shape cells : nat * nat) :
  slice_elementwise (fun m f (l : batched_result n) => fields_on_grid_b f l shape cells)
    (fun m f l1 => fields_on_grid f l1 shape cells) (fun expn => validate_shape_for_expansion shape expn = Val tt).
Proof. exact: grid_fields_ok. Qed.
Theorem C56_on_coordinates n p (x y : 'I_p -> R) :
  slice_elementwise (fun m f (l : batched_result n) => fields_on_coordinates_b f l x y)
    (fun m f l1 => fields_on_coordinates f l1 x y) (fun=> True).
Proof. exact: coordinate_fields_ok. Qed.

Section Fields3d.
Variables (n m : nat) (B : seq nat).
Hypotheses (n0 : (0 < n)%N) (m0 : (0 < m)%N) (B0 : 0%N \notin B).
Section Slice.
Variables (P : Type) (fn : fields_xy_slice_fn_b n P) (fn1 : fields_xy_slice_fn n P) (valid : n.-tuple (Z * Z) -> Prop).
Hypothesis hfn : slice_elementwise fn fn1 valid.
(** The fields in one layer, at [znum] depths. *)
Theorem C56_layer (f e : batch 'M[C]_(n + n, m)) l (t : R) znum A :
  solve_result l A -> broadcasts_to A B -> valid (b_expansion l) -> broadcasts_to (nshape f) B -> nshape e = nshape f -> (0 < znum)%N ->
  exists g xy z s, [/\ layer_fields_3d_b fn f e l (Nd [::] (fun=> t)) znum = Val (g, xy, z), fields_shaped g s,
      shape_between [:: A; nshape f] s B &
    forall b f1 e1 l1 gs1 xy1 z1, solve_element l b l1 -> matrix_element f b f1 -> matrix_element e b e1 ->
      layer_fields_3d_gen fn1 f1 e1 l1 t znum = Val (gs1, xy1, z1) ->
      [/\ fields_element g b (field_lists gs1), array_element xy b xy1 & z1 = z]].
Proof.
move=> sl cA vl cf se z0.
have [g [xy [z [s [h1 h2 [h3 _] [h4 h5] h6]]]]] := layer_fields_ok hfn n0 m0 B0 sl vl cA cf se (erefl : nshape (Nd [::] (fun=> t)) = [::]) z0.
exists g, xy, z, s; split=> //; first by split=> // u /in2 [<-|[<-|//]].
move=> b f1 e1 l1 gs1 xy1 z1 el /array_elementE ef /array_elementE ee hr; exact: h6 el ef ee hr.
Qed.
(** The fields in the layers of a stack. *)
Theorem C56_stack (amplitudes : seq (batch 'M[C]_(n + n, m) * batch 'M[C]_(n + n, m))) layers (thicknesses : seq R) znums :
  (0 < size amplitudes)%N -> size layers = size amplitudes -> size thicknesses = size amplitudes -> size znums = size amplitudes ->
  List.Forall (fun a => nshape a.1 = B /\ nshape a.2 = B) amplitudes ->
  List.Forall (fun l => (exists2 A, solve_result l A & broadcasts_to A B) /\ valid (b_expansion l)) layers ->
  List.Forall (fun z => 0 < z)%N znums ->
  exists g xy z, [/\ stack_fields_3d_gen_b fn amplitudes layers (map (fun t => Nd [::] (fun=> t)) thicknesses) znums = Val (g, xy, z),
      fields_shaped g B &
    forall b amplitudes1 layers1 gs1 xy1 z1,
      List.Forall2 (fun a a1 => pair_element a b a1) amplitudes amplitudes1 ->
      List.Forall2 (fun l l1 => solve_element l b l1) layers layers1 ->
      stack_fields_3d_gen fn1 amplitudes1 layers1 thicknesses znums = Val (gs1, xy1, z1) ->
      [/\ fields_element g b (field_lists gs1), array_element xy b xy1 & z1 = z]].
Proof.
move=> a0 s1 s2 s3 ha hl hz; set ts := map _ _.
have ht : List.Forall (fun t => nshape t = [::]) ts by rewrite /ts; elim: (thicknesses) => //= t l ih; constructor.
have s2' : size ts = size amplitudes by rewrite size_map.
have [g [xy [z [h1 h2 h3]]]] := stack_fields_ok hfn n0 m0 B0 a0 s1 s2' s3 ha hl ht hz; exists g, xy, z; split=> //.
move=> b a1 l1 gs1 xy1 z1 ea el; apply: (h3 b a1 l1 thicknesses) => //.
  elim: ea => [|x y xs ys [/array_elementE q1 /array_elementE q2] _ ih]; [exact: List.Forall2_nil|by apply: List.Forall2_cons].
rewrite /ts; elim: (thicknesses) => [|x xs ih]; [exact: List.Forall2_nil|by apply: List.Forall2_cons].
Qed.
End Slice.
(** [stack_fields_3d] and [stack_fields_3d_on_coordinates]. *)
Theorem C56_stack_on_grid (amplitudes : seq (batch 'M[C]_(n + n, m) * batch 'M[C]_(n + n, m))) layers (thicknesses : seq R) znums shape cells :
  (0 < size amplitudes)%N -> size layers = size amplitudes -> size thicknesses = size amplitudes -> size znums = size amplitudes ->
  List.Forall (fun a => nshape a.1 = B /\ nshape a.2 = B) amplitudes ->
  List.Forall (fun l => (exists2 A, solve_result l A & broadcasts_to A B) /\ validate_shape_for_expansion shape (b_expansion l) = Val tt) layers ->
  List.Forall (fun z => 0 < z)%N znums ->
  exists g xy z, [/\ stack_fields_3d_b amplitudes layers (map (fun t => Nd [::] (fun=> t)) thicknesses) znums shape cells = Val (g, xy, z),
      fields_shaped g B &
    forall b amplitudes1 layers1 gs1 xy1 z1,
      List.Forall2 (fun a a1 => pair_element a b a1) amplitudes amplitudes1 ->
      List.Forall2 (fun l l1 => solve_element l b l1) layers layers1 ->
      stack_fields_3d amplitudes1 layers1 thicknesses znums shape cells = Val (gs1, xy1, z1) ->
      [/\ fields_element g b (field_lists gs1), array_element xy b xy1 & z1 = z]].
Proof. move=> *; exact: (C56_stack (@C56_on_grid n shape cells)). Qed.
Theorem C56_stack_on_coordinates (amplitudes : seq (batch 'M[C]_(n + n, m) * batch 'M[C]_(n + n, m))) layers (thicknesses : seq R) znums
    p (x y : 'I_p -> R) :
  (0 < size amplitudes)%N -> size layers = size amplitudes -> size thicknesses = size amplitudes -> size znums = size amplitudes ->
  List.Forall (fun a => nshape a.1 = B /\ nshape a.2 = B) amplitudes ->
  List.Forall (fun l => exists2 A, solve_result l A & broadcasts_to A B) layers ->
  List.Forall (fun z => 0 < z)%N znums ->
  exists g xy z, [/\ stack_fields_3d_on_coordinates_b amplitudes layers (map (fun t => Nd [::] (fun=> t)) thicknesses) znums x y = Val (g, xy, z),
      fields_shaped g B &
    forall b amplitudes1 layers1 gs1 xy1 z1,
      List.Forall2 (fun a a1 => pair_element a b a1) amplitudes amplitudes1 ->
      List.Forall2 (fun l l1 => solve_element l b l1) layers layers1 ->
      stack_fields_3d_on_coordinates amplitudes1 layers1 thicknesses znums x y = Val (gs1, xy1, z1) ->
      [/\ fields_element g b (field_lists gs1), array_element xy b xy1 & z1 = z]].
Proof.
move=> a0 s1 s2 s3 ha hl hz; apply: (C56_stack (@C56_on_coordinates n p x y)) => //.
by elim: hl => [|l ls h _ ih]; constructor.
Qed.
End Fields3d.

(** ** Findings *)
(** A distance with one axis more than the amplitudes of a batch element, of the size of the modes, is
    not an axis of the batch: each mode is propagated through a distance of its own. *)
Theorem C55_distance_modes n m (a : batch 'M[C]_(n + n, m)) (d : nd R) l A B :
  (0 < n)%N -> (0 < m)%N -> 0%N \notin B -> solve_result l A -> broadcasts_to A B -> broadcasts_to (nshape a) B ->
  nshape d = [:: (n + n)%N; 1%N] ->
  exists z, propagate_amplitude_b a d l = Val z /\
    forall b a1 l1, solve_element l b l1 -> matrix_element a b a1 ->
      matrix_element z b (\matrix_(i, j) (a1 i j * cexp (Ci * eigenvalues l1 0 i * RtoC (nget d [:: nat_of_ord i; 0%N]))))%R.
Proof.
move=> n0 m0 B0 [wl fl] cA ca sd; have wl' := layer_trans wl cA.
have cd : bcto (nshape d) (B ++ [:: n + n; m]) by rewrite sd; apply: (@bcto_cat2 [::] B); [exact: scalar_bcto|right|left].
have [z [h1 _ _ _ h2]] := propagate_gen_ok n0 m0 B0 wl' ca cd; exists z; split=> // b a1 l1 [el _ _ _ _] /array_elementE ea.
apply/array_elementE; rewrite (h2 b a1 (\matrix_(i, j) nget d [:: nat_of_ord i; 0%N])%R l1 el ea).
  by congr Val; apply/matrixP => i j; rewrite !mxE.
move=> i j; rewrite mxE /bget sd; congr nget.
rewrite /bindex [size _]/= [iota _ _]/= [map _ _]/= -[[:: nat_of_ord i; _]]/([:: nat_of_ord i] ++ [:: nat_of_ord j]) catA !cats1 !rev_rcons.
rewrite /ax [nth _ _ _]/= [nth 0 _ _]/=.
by case: eqP => // e; exfalso; move: e; rewrite /=; natlia.
Qed.
(** The fields of amplitudes whose batch shapes differ are not defined, even where the shapes broadcast
    and their flux is. *)
Theorem C55_unequal_amplitudes n m (f e : batch 'M[C]_(n + n, m)) l A B :
  (0 < n)%N -> (0 < m)%N -> 0%N \notin B -> solve_result l A -> broadcasts_to A B ->
  broadcasts_to (nshape f) B -> broadcasts_to (nshape e) B -> nshape f <> nshape e ->
  fields_from_wave_amplitudes_b f e l = Exn ValueError /\
  exists x, amplitude_poynting_flux_b f e l = Val x.
Proof.
move=> n0 m0 B0 sl cA cf ce ne; split; last first.
  by have [x [y [h _ _ _]]] := C55_amplitude_flux n0 m0 B0 sl cA cf ce; exists (x, y).
rewrite /fields_from_wave_amplitudes_b (validate_ok (B := B)) ?addn_gt0 ?n0 //; last by move=> ? [<-|[<-|]].
by have [c [-> _ _]] := conversion_ok n0 sl; cbn [bind]; case: eqP.
Qed.
(** A thickness with an axis, such as those accepted by [stack_s_matrix] for a batch, is rejected. *)
Theorem C56_thickness_axis n m P (fn : fields_xy_slice_fn_b n P) (f e : batch 'M[C]_(n + n, m)) l (t : nd R) znum :
  nshape f = nshape e -> (0 < ndim t)%N -> layer_fields_3d_b fn f e l t znum = Exn ValueError.
Proof.
move=> se st; rewrite /layer_fields_3d_b se eqxx; cbn [check]; cbv zeta; set zn := Nd (_ :: _) _.
rewrite /broadcast_to; case hb : broadcast_shapes => [s|x]; cbn [bind].
  have [h1 _ _ _] := broadcast_shapesV hb; case: eqP => // e2; have := leq_maxl (size (nshape zn)) 2.
  by rewrite -[X in maxn _ X]/(size [:: znum; m]) -h1 e2 /= !ltnS leqn0 -/(ndim t) => /eqP e3; rewrite e3 in st.
by move: hb; rewrite /broadcast_shapes /check; case: ifP => // _ [<-].
Qed.

(** ** Non-vacuity *)
Section Example55.
Let wl := Nd [:: 3; 1] (fun idx => Rmult (INR (head 0 idx).+1) PI).
Let k := Nd [:: 2] (fun idx => 0%coqR).
Let u := Nd [:: 2] (fun idx => if head 0 idx == 0 then 1%coqR else 0%coqR).
Let v := Nd [:: 2] (fun idx => if head 0 idx == 0 then 0%coqR else 1%coqR).
Let eps (x y : R) : nd C := Nd [:: 2; 1; 1] (fun idx => if head 0 idx == 0 then RtoC (x * x)%coqR else RtoC (y * y)%coqR).
Let w2 : nget wl [:: 1; 0] = ex_wl. Proof. by rewrite -[LHS]/(INR 2 * PI)%coqR INR_IZR_INZ. Qed.
Let s1 : selects (nshape wl) [:: 1; 1] [:: 1; 0]. Proof. by split=> // -[|[|]]. Qed.
Let s2 : selects [::] [:: 1; 1] [::]. Proof. by []. Qed.
(** Element [[1; 1]] of the batch is the layer with the second permittivity. *)
Lemma ex55_layer (x y : R) : (0 < y)%coqR -> exists r,
  [/\ eigensolve_isotropic_media_b diag_eig wl k u v (eps x y) ex_expn (@BFFT 1 1 1) = Val r,
      solve_result r [:: 3; 2], b_expansion r = ex_expn & solve_element r [:: 1; 1] (ex_layer y)].
Proof.
move=> y0; have hb : solve_batch wl k u v [::] [:: 2] [:: 3; 2] by case: batch54 => h1 h2 h3 h4 h5; split.
have [r [h1 h2 h3 h4]] := C54_isotropic diag_eig (isT : 0 < 1) hb (erefl : nshape (eps x y) = [:: 2] ++ [:: 1; 1])
  (or_introl erefl) (I : batch_formulation ex_expn (@BFFT 1 1 1) FFT).
have [h5 _] := h3 [:: 3; 2] (bcto_refl _).
have ge : grid_element (eps x y) [:: 1; 1] (const_mx (RtoC (y * y)%coqR) : 'M[C]_(1, 1)).
  move=> i j; apply/array_elementE; rewrite mxE (ord1 i) (ord1 j); exact: erefl.
have hs : solve_element r [:: 1; 1] (ex_layer y).
  apply: (h4 [:: 3; 2] [:: 1; 1] [:: 1; 0] [::] _ _ (bcto_refl _) isT s1 s2 ge).
  rewrite w2 /eigensolve_isotropic_media eqxx -(ex_solve y0); congr (eigensolve_uniform_isotropic_media _ _ _ _ _).
  by rewrite squeezeE mxE.
exists r; split; [exact: h1|by split|by case: hs => -[_ [_ <-]]|exact: hs].
Qed.
Let B := [:: 3; 2].
Let zB : 0 \notin B. Proof. by []. Qed.
(** Amplitudes with one batch axis, distances with another. *)
Let a m : batch 'M[C]_(1 + 1, m) := Nd [:: 2] (fun idx => Val (const_mx (RtoC (INR (head 0 idx))))).
Let a' m : batch 'M[C]_(1 + 1, m) := Nd [:: 3; 1] (fun idx => Val (const_mx (Ci * RtoC (INR (head 0%N idx)))%R)).
Let d : nd R := Nd [:: 3; 1; 1; 1] (fun idx => INR (head 0 idx)).
Let ca m : broadcasts_to (nshape (a m)) B. Proof. split; [exact: isT|by case=> [|[|[|i]]]; first [by left|by right]]. Qed.
Let ca' m : broadcasts_to (nshape (a' m)) B. Proof. split; [exact: isT|by case=> [|[|[|i]]]; first [by left|by right]]. Qed.
Let cd : batched_distance d 1 B. Proof. split; [exact: isT|by case=> [|[|[|[|[|i]]]]]; first [by left|by right]]. Qed.
Let ea m : matrix_element (a m) [:: 1; 1] (const_mx (RtoC 1)). Proof. exact/array_elementE. Qed.
Let ea' m : matrix_element (a' m) [:: 1; 1] (const_mx (Ci * RtoC 1)%R). Proof. exact/array_elementE. Qed.
Let ed : distance_element d [:: 1; 1] (const_mx 1%coqR : 'rV[R]_1).
Proof. by move=> j; apply/array_elementE; rewrite mxE (ord1 j). Qed.
Example ex_C55 : exists l l1, [/\ solve_result l B, solve_element l [:: 1; 1] l1,
  exists2 z, propagate_amplitude_b (a 1) d l = Val z & matrix_element z [:: 1; 1] (propagate_amplitude (const_mx (RtoC 1)) (const_mx 1%coqR) l1),
  exists x y r1, [/\ directional_poynting_flux_b (a 1) (a' 1) l = Val (x, y),
    directional_poynting_flux (const_mx (RtoC 1)) (const_mx (Ci * RtoC 1)%R) l1 = Val r1 & matrix_element x [:: 1; 1] r1.1] &
  exists g g1, [/\ fields_from_wave_amplitudes_b (a 1) (a 1) l = Val g,
    fields_from_wave_amplitudes (const_mx (RtoC 1)) (const_mx (RtoC 1)) l1 = Val g1 & fields_element g [:: 1; 1] g1]].
Proof.
have r2 : (0 < 2)%coqR by lra.
have [l [_ sl _ el]] := @ex55_layer 1 2 r2; exists l, (ex_layer 2); split; [exact: sl|exact: el| | |].
- have [z [h1 _ h2]] := C55_propagate (isT : 0 < 1) (isT : 0 < 1) zB sl (bcto_refl _) (@ca 1) cd.
  by exists z; [|exact: h2 el (@ea 1) ed].
- have [x [y [h1 _ _ h2]]] := C55_directional_flux (isT : 0 < 1) sl (bcto_refl _) (@ca 1) (@ca' 1).
  have [r1 hr] : exists r1, directional_poynting_flux (const_mx (RtoC 1)) (const_mx (Ci * RtoC 1)%R : 'M[C]_(1 + 1, 1)) (ex_layer 2) = Val r1.
    have [s [_ [hs _ _]]] := C11_witness; rewrite /directional_poynting_flux hs; cbn [bind].
    by move: hs; rewrite /eigenmode_poynting_flux; case: poynting_flux_a_matrix => // A _; cbn [bind]; eexists.
  by exists x, y, r1; split=> //; have [] := h2 _ _ _ _ _ el (@ea 1) (@ea' 1) hr.
- have [g [s [h1 _ _ h2]]] := C55_fields (isT : 0 < 1) (isT : 0 < 1) zB sl (bcto_refl _) (@ca 1) (erefl _).
  have [g1 hg] := ex_fields_total (const_mx (RtoC 1)) (const_mx (RtoC 1) : 'M[C]_(1 + 1, 1)) r2.
  by exists g, g1; split=> //; exact: h2 el (@ea 1) (@ea 1) hg.
Qed.
Let two : batch 'M[C]_(1 + 1, 1 + 1) := Nd [:: 2] (fun idx => Val ((RtoC 2)%:M)%R).
Let none : batch 'M[C]_(1 + 1, 1 + 1) := Nd [::] (fun=> Val 0%R).
Example ex_C55_stack : exists layers ss xs,
  [/\ stack_s_matrices_interior_b layers (map (fun t => Nd [::] (fun=> t)) ex_thickness) = Val ss,
      stack_amplitudes_interior_b ss two none = Val xs & List.Forall2 (fun x x1 => pair_element x [:: 1; 1] x1) xs ex_amplitudes].
Proof.
have r1 : (0 < 1)%coqR by lra. have r2 : (0 < 2)%coqR by lra.
have [l [_ [wl1 _] _ [el _ _ _ _]]] := @ex55_layer 3 1 r1; have [l' [_ [wl2 _] _ [el' _ _ _ _]]] := @ex55_layer 1 2 r2.
have c1 : broadcasts_to (nshape two) B by split=> // -[|[|[|]]]; first [by left|by right].
have c2 : broadcasts_to (nshape none) B by exact: scalar_bcto.
have [||ss [xs [h1 h2 _ _ h3]]] := C55_stack (isT : 0 < 1) (isT : 0 < 1 + 1) zB c1 c2 (layers := [:: l; l'; l])
  (thicknesses := map (fun t => Nd [::] (fun=> t)) ex_thickness) isT erefl.
- by do 3!(apply/List.Forall_cons_iff; split; first by assumption).
- by do 3!(apply/List.Forall_cons_iff; split; first by left).
exists [:: l; l'; l], ss, xs; split=> //.
apply: (h3 [:: 1; 1] ex_stack ex_thickness (RtoC 2)%:M%R 0%R ex_interior); [|exact/array_elementE|exact/array_elementE|exact: ex_interiorE|exact: ex_amplitudesE].
split; first by do 3!(apply: List.Forall2_cons; first by assumption); exact: List.Forall2_nil.
by do 3!(apply: List.Forall2_cons; first by apply/array_elementE); exact: List.Forall2_nil.
Qed.
Let full (c : C) : batch 'M[C]_(1 + 1, 1) := Nd B (fun idx => Val (const_mx (if head 0 idx == 1 then c else 0%R))).
Let ef c : matrix_element (full c) [:: 1; 1] (const_mx c). Proof. exact/array_elementE. Qed.
Example ex_C56 : exists l l' g xy z g1 xy1 z1,
  [/\ stack_fields_3d_b [:: (full 1%R, full 0%R); (full 0%R, full Ci)] [:: l; l'] (map (fun t => Nd [::] (fun=> t)) [:: 1; 2]%coqR)
        [:: 3; 2] (4, 3) (1, 1) = Val (g, xy, z),
      stack_fields_3d [:: (const_mx 1, const_mx 0); (const_mx 0, const_mx Ci)]%R [:: ex_layer 1; ex_layer 2] [:: 1; 2]%coqR
        [:: 3; 2] (4, 3) (1, 1) = Val (g1, xy1, z1), fields_shaped g B,
      fields_element g [:: 1; 1] (field_lists g1) & z1 = z].
Proof.
have r1 : (0 < 1)%coqR by lra. have r2 : (0 < 2)%coqR by lra.
have [l [_ sl xl el]] := @ex55_layer 3 1 r1; have [l' [_ sl' xl' el']] := @ex55_layer 1 2 r2.
have hv : validate_shape_for_expansion (4, 3) ex_expn = Val tt.
  apply: (proj2 (L_fft.validateP 4 3 ex_expn)); split; [by []|exact: (@ex_resolves 4 3 isT isT)].
have [|||g [xy [z [h1 h2 h3]]]] := C56_stack_on_grid (isT : 0 < 1) (isT : 0 < 1) zB
  (amplitudes := [:: (full 1%R, full 0%R); (full 0%R, full Ci)]) (layers := [:: l; l']) (thicknesses := [:: 1; 2]%coqR)
  (znums := [:: 3; 2]) (shape := (4, 3)) (1, 1) isT erefl erefl erefl.
- by do 2!(apply/List.Forall_cons_iff; split; first by split).
- by do 2!(apply/List.Forall_cons_iff; split; first by split; [exists B; [assumption|exact: bcto_refl]|rewrite ?xl ?xl']).
- by do 2!(apply/List.Forall_cons_iff; split; first by []).
have [[[g1 xy1] z1] hr] := C44_witness.
exists l, l', g, xy, z, g1, xy1, z1.
have c0 : const_mx 0%R = 0%R :> 'M[C]_(1 + 1, 1) by apply/matrixP => i j; rewrite !mxE.
have hr' : stack_fields_3d [:: (const_mx 1, const_mx 0); (const_mx 0, const_mx Ci)]%R [:: ex_layer 1; ex_layer 2] [:: 1; 2]%coqR
        [:: 3; 2] (4, 3) (1, 1) = Val (g1, xy1, z1) by rewrite c0; exact: hr.
have [||q1 _ q2] := h3 [:: 1; 1] _ _ _ _ _ _ _ hr'.
- by do 2!(apply: List.Forall2_cons; first by split; exact: ef); exact: List.Forall2_nil.
- by do 2!(apply: List.Forall2_cons; first by assumption); exact: List.Forall2_nil.
by split.
Qed.
End Example55.

Print Assumptions C55_propagate.
Print Assumptions C55_colocate.
Print Assumptions C55_amplitude_flux.
Print Assumptions C55_directional_flux.
Print Assumptions C55_fields.
Print Assumptions C55_eigenmode_flux.
Print Assumptions C55_conversion.
Print Assumptions C55_amplitudes_interior.
Print Assumptions C55_stack_amplitudes.
Print Assumptions C55_stack.
Print Assumptions C55_with_source.
Print Assumptions C56_on_grid.
Print Assumptions C56_on_coordinates.
Print Assumptions C56_layer.
Print Assumptions C56_stack.
Print Assumptions C56_stack_on_grid.
Print Assumptions C56_stack_on_coordinates.
Print Assumptions C55_distance_modes.
Print Assumptions C55_unequal_amplitudes.
Print Assumptions C56_thickness_axis.

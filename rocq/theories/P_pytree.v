(** C42: containers survive flattening; hashing of expansions. *)
From Coq Require Import Reals ZArith SpecFloat String.
From mathcomp Require Import all_ssreflect all_algebra.
From Verif Require Import CField Err LinAlg M_utils M_basis M_nd M_fmm M_batch M_pytree.
Set Implicit Arguments. Unset Strict Implicit. Unset Printing Implicit Defensive.

(** An object that its constructors have built. *)
Definition built_lattice (x : lattice_vectors) := new_lattice_vectors (lv_u x) (lv_v x) = Val x.
Definition built_expansion (x : expansion_obj) := new_expansion (basis_coefficients x) = Val x.
Definition built_lsr (x : lsr) := [/\ new_lsr x = Val x, built_lattice (l_lattice x) & built_expansion (l_expansion x)].

(** Flattening and rebuilding returns every object that a constructor has built. *)
Theorem C42_round_trip :
  [/\ (forall u v x, new_lattice_vectors u v = Val x -> unflatten_lattice (flatten_lattice x) = Val x),
      (forall c x, new_expansion c = Val x -> unflatten_expansion (flatten_expansion x) = Val x),
      (forall y x, new_lsr y = Val x -> unflatten_lsr (flatten_lsr x) = Val x),
      (forall x, unflatten_smatrix (flatten_smatrix x) = Val x) &
      [/\ (forall x, unflatten_pml (flatten_pml x) = x),
          (forall x, unflatten_truncation (flatten_truncation x) = Val x) &
          (forall x, unflatten_formulation (flatten_formulation x) = Val x)]].
Proof.
split.
- move=> u v x h.
  have e : x = LV u v.
    move: h; rewrite /new_lattice_vectors; case: (trailing (nshape u)) => //= d; rewrite /check.
    by case: (d == 2) => //; case: (trailing (nshape v)) => //= d'; case: (d' == 2) => // -[].
  by move: h; rewrite e.
- move=> c x h; have e : x = EO c by move: h; rewrite /new_expansion /check; case: (_ && _) => // -[].
  by move: h; rewrite e.
- move=> y x h.
  have e : x = y by move: h; rewrite /new_lsr; case: (post_init _) => // -[] [].
  by move: h; rewrite e; case: y {e}.
- by case.
- by split; case.
Qed.

(** Mapping functions over the arrays that keep their shapes, as tracing under [jit] and
    differentiation do, never fails, and maps each attribute in place; expansions are left alone. *)
Theorem C42_tree_map (fR : nd R -> nd R) (fC : nd C -> nd C) :
  (forall a, nshape (fR a) = nshape a) -> (forall a, nshape (fC a) = nshape a) ->
  let lat l := LV (fR (lv_u l)) (fR (lv_v l)) in
  let layer x := NewLSR (fR (l_wavelength x)) (fR (l_in_plane_wavevector x)) (lat (l_lattice x)) (l_expansion x)
    (fC (l_eigenvalues x)) (fC (l_eigenvectors x)) (fC (l_z_permittivity x)) (fC (l_inverse_z_permittivity x))
    (fC (l_z_permeability x)) (fC (l_inverse_z_permeability x)) (fC (l_transverse_permeability x))
    (if l_tangent x is Some (tx, ty) then Some (fC tx, fC ty) else None) in
  [/\ (forall l, built_lattice l -> map_lattice fR l = Val (lat l)),
      (forall x, built_lsr x -> map_lsr fR fC x = Val (layer x)) &
      (forall m, built_lsr (m_start m) -> built_lsr (m_end m) -> map_smatrix fR fC m =
        Val (SM (fC (m_s11 m)) (fC (m_s12 m)) (fC (m_s21 m)) (fC (m_s22 m)) (layer (m_start m)) (fR (m_start_thickness m))
                (layer (m_end m)) (fR (m_end_thickness m))))].
Proof.
move=> hR hC lat layer.
have hl l : built_lattice l -> map_lattice fR l = Val (lat l).
  case: l => u v; rewrite /built_lattice /map_lattice /= /new_lattice_vectors !hR /=.
  case: (trailing (nshape u)) => //= d; rewrite /check; case: (d == 2) => //.
  by case: (trailing (nshape v)) => //= d'; case: (d' == 2).
have hx x : built_lsr x -> map_lsr fR fC x = Val (layer x).
  case=> hp /hl hlat hexp; rewrite /map_lsr /flatten_lsr /mapM /map_array_child hlat.
  have -> : map_expansion (l_expansion x) = Val (l_expansion x) by exact: hexp.
  have hs : lsr_shapes (layer x) = lsr_shapes x.
    by rewrite /lsr_shapes /layer; cbn; rewrite !hR !hC; case: (l_tangent x) => [[tx ty]|] //=; rewrite hC.
  have ht : omap (fun t : nd C * nd C => (fC t.1, fC t.2)) (l_tangent x)
    = (if l_tangent x is Some (tx, ty) then Some (fC tx, fC ty) else None) by case: (l_tangent x) => [[]|].
  cbn [bind]; rewrite /unflatten_lsr ht -/(layer x) /new_lsr hs.
  by move: hp; rewrite /new_lsr; case: (post_init _) => [[]|].
split=> // m h1 h2.
by rewrite /map_smatrix /flatten_smatrix /mapM /map_child (hx _ h1) (hx _ h2).
Qed.

Lemma all_zip_eq (s t : seq Z) : size s = size t -> all (fun ab : Z * Z => Z.eqb ab.1 ab.2) (zip s t) -> s = t.
Proof. by elim: s t => [|x s ih] [|y t] //= [/ih {}ih] /andP [/Z.eqb_eq -> /ih ->]. Qed.
Lemma all_zip_refl (s : seq Z) : all (fun ab : Z * Z => Z.eqb ab.1 ab.2) (zip s s).
Proof. by elim: s => //= x s ->; rewrite Z.eqb_refl. Qed.

(** For arrays of integers, as returned by [generate_expansion], two wrappers are equal exactly
    if shape and elements are, so that equal wrappers have equal hashes for any hash function. *)
Theorem C42_hash_integers (sx sy : seq nat) (x y : seq Z) : let X := HArray sx (Ints x) in let Y := HArray sy (Ints y) in
  well_formed X -> well_formed Y ->
  (hash_eq X Y <-> sx = sy /\ x = y) /\ (hash_eq X Y -> forall (H : seq nat * elements -> Z), H (hash_key X) = H (hash_key Y)).
Proof.
move=> X Y /eqP wx /eqP wy.
have h : hash_eq X Y <-> sx = sy /\ x = y.
  split.
  - case/andP=> /eqP e /all_zip_eq; move: wx wy; rewrite /num_elements /= => wx wy; rewrite wx wy -[sx]/(h_shape X) e => /(_ erefl) ->.
    by [].
  - by case=> e1 e2; rewrite /hash_eq /X /Y /= e1 e2 eqxx all_zip_refl.
by split=> // /h [e1 e2] H; rewrite /hash_key /= e1 e2.
Qed.
(** Not so for floats: arrays with 0.0 and -0.0 are equal, and the hashed tuples differ. *)
Theorem C42_hash_signed_zero_refuted : exists x y, [/\ well_formed x, well_formed y, new_expansion x = Val (EO x),
  new_expansion y = Val (EO y) & hash_eq x y /\ hash_key x <> hash_key y].
Proof.
exists (HArray [:: 1; 2] (Floats [:: S754_zero false; S754_zero false])), (HArray [:: 1; 2] (Floats [:: S754_zero true; S754_zero true])).
by split.
Qed.
(** And an array with a nan is not equal to itself. *)
Theorem C42_hash_nan_refuted : exists x, [/\ well_formed x, new_expansion x = Val (EO x) & ~~ hash_eq x x].
Proof. by exists (HArray [:: 1; 2] (Floats [:: S754_nan; S754_zero false])). Qed.

(** A layer solve result that is rebuilt from changed leaves is validated again. *)
Theorem C42_revalidated (s : seq child) x : unflatten_lsr s = Val x -> post_init (lsr_shapes x) = Val tt.
Proof.
case: s => [|[w|w|w|w|w|w]] // s; case: s => [|[k|k|k|k|k|k]] // s; case: s => [|[l|l|l|l|l|l]] // s.
case: s => [|[e|e|e|e|e|e]] // s; case: s => [|[a|a|a|a|a|a]] // s; case: s => [|[b|b|b|b|b|b]] // s.
case: s => [|[c|c|c|c|c|c]] // s; case: s => [|[d|d|d|d|d|d]] // s; case: s => [|[f|f|f|f|f|f]] // s.
case: s => [|[g|g|g|g|g|g]] // s; case: s => [|[h|h|h|h|h|h]] // s; case: s => [|[t|t|t|t|t|t]] // [] //.
by rewrite /unflatten_lsr /new_lsr; case e1: (post_init _) => [[]|] //; cbn [bind] => -[<-].
Qed.

(** The theorems are not void: a solve result with two wavelengths. *)
Example ex_C42 : let z := Nd [:: 2; 1; 1] (fun=> 1%R : C) in let l := LV (Nd [:: 1; 2] (fun=> 1%coqR)) (Nd [:: 1; 2] (fun=> 1%coqR)) in
  let x := NewLSR (Nd [:: 2] (fun=> 1%coqR)) (Nd [:: 1; 2] (fun=> 0%coqR)) l (EO (HArray [:: 1; 2] (Ints [:: 0; 0]%coqZ)))
    (Nd [:: 2; 2] (fun=> 1%R : C)) (Nd [:: 2; 2; 2] (fun=> 1%R : C)) z z z z (Nd [:: 2; 2; 2] (fun=> 1%R : C)) None in
  built_lsr x /\ well_formed (HArray [:: 1; 2] (Ints [:: 0; 0]%coqZ)).
Proof. by split=> //; split. Qed.

Print Assumptions C42_round_trip.
Print Assumptions C42_tree_map.
Print Assumptions C42_hash_integers.
Print Assumptions C42_hash_signed_zero_refuted.
Print Assumptions C42_hash_nan_refuted.
Print Assumptions C42_revalidated.

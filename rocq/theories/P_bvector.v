(** C53: tangent vector fields of batches of arrays. *)
From Coq Require Import Reals ZArith Lra Lia.
From mathcomp Require Import all_ssreflect all_algebra.
From Verif Require Import Tac CField Err LinAlg M_utils M_basis M_fft M_fmm_matrices M_nd M_fmm M_vector M_batch M_bstack M_bvector
  S_utils P_utils S_fft L_fft S_batch L_batch L_broadcast S_bstack L_bstack S_bvector L_vector P_tangent L_bvector.
Set Implicit Arguments. Unset Strict Implicit. Unset Printing Implicit Defensive.

Definition pick (s : seq nat) k := unravel s (if num_elements s == 1 then 0 else k).
Definition fits (x : nd R) (s : seq nat) m := nshape x = s ++ [:: 2] /\ (num_elements s == 1) || (num_elements s == m).
Lemma flat_shape T (arr : nd T) : num_elements (nshape (atleast_nd arr 1)) = num_elements (nshape arr).
Proof. by rewrite [nshape _]/= /atleast_nd_shape; case: (nshape arr). Qed.
Lemma flat_element T (arr : nd T) b : valid_index (nshape arr) b ->
  nget (atleast_nd arr 1) (unravel (nshape (atleast_nd arr 1)) (ravel (nshape arr) b)) = nget arr b.
Proof.
move=> hb; rewrite [nshape _]/= /atleast_nd /atleast_nd_shape /ndim; cbn [nget].
case: arr hb => -[|d s] g; cbn [nshape nget].
- by case: b => //= _; rewrite /ravel.
- move=> hb; have -> : 1 - size (d :: s) = 0 by rewrite /= subSS sub0n.
  by rewrite cat0s drop0 unravel_ravel.
Qed.
Lemma tangent_b nx ny n (arr : batch 'M[C]_(nx, ny)) (expn : n.-tuple (Z * Z)) u v su sv j fw sw st :
  n <> 0 -> resolves nx ny expn -> fits u su (num_elements (nshape arr)) -> fits v sv (num_elements (nshape arr)) ->
  exists f, [/\ compute_tangent_field_b arr expn u v j fw sw st = Val f, nshape f = nshape arr &
    forall b a, valid_index (nshape arr) b -> nget arr b = Val a -> let k := ravel (nshape arr) b in
      nget f b = compute_tangent_field a expn (Lattice (vector_at u (pick su k)) (vector_at v (pick sv k))) j fw sw st].
Proof.
move=> n0 hr [eu hu] [ev hv].
rewrite /compute_tangent_field_b; cbv zeta; rewrite {1}/reshape [num_elements [:: _]]/= muln1 eqxx; cbn [check bind nshape head].
rewrite flat_shape; set m := num_elements (nshape arr).
have [zu -> gu] := lattice_rows_ok eu hu; have [zv -> gv] := lattice_rows_ok ev hv; cbn [bind].
have -> : n != 0 by apply/eqP.
cbn [check]; rewrite validE //; cbn [bind]; rewrite /reshape; cbn [nshape nget]; rewrite [num_elements [:: _]]/= muln1 eqxx; cbn [check].
eexists; split; [by reflexivity|by []|].
move=> b a hb ha; cbn [nget]; set k := ravel (nshape arr) b.
have hk : k < m := ravel_lt hb.
rewrite -/k [unravel [:: m] k]/= divn1 [head 0 _]/= [ravel _ [:: k]]/= muln1 addn0 /k flat_element // ha; cbn [bind].
by rewrite -/k !gu // !gv //.
Qed.

Lemma scheme_b nx ny n s (arr : batch 'M[C]_(nx, ny)) (expn : n.-tuple (Z * Z)) u v su sv :
  n <> 0 -> resolves nx ny expn -> fits u su (num_elements (nshape arr)) -> fits v sv (num_elements (nshape arr)) ->
  acts_elementwise (vector_field_scheme_b s) (@vector_field_scheme nx ny n s) arr expn u v
    (fun b => let k := ravel (nshape arr) b in Lattice (vector_at u (pick su k)) (vector_at v (pick sv k))).
Proof.
move=> n0 hr hu hv.
have T j fw sw := tangent_b j fw sw 1 n0 hr hu hv.
have D j fw sw (g : vfield nx ny -> vfield nx ny) (f : bvector_fn nx ny n) (f1 : vector_fn nx ny n) :
    (forall arr expn u v, f arr expn u v = (field <- compute_tangent_field_b arr expn u v j fw sw 1;; Val (components (bmap g field)))) ->
    (forall a expn l, f1 a expn l = rmap g (compute_tangent_field a expn l j fw sw 1)) ->
    acts_elementwise f f1 arr expn u v (fun b => let k := ravel (nshape arr) b in Lattice (vector_at u (pick su k)) (vector_at v (pick sv k))).
  move=> hf hf1; have [F [e1 e2 e3]] := T j fw sw.
  exists (components (bmap g F)).1, (components (bmap g F)).2; split; [by rewrite hf e1|exact: e2|exact: e2|] => b a hb ha; cbv zeta.
  rewrite hf1; split.
  - by rewrite -[LHS]/(rmap fst (rmap g (nget F b))) (e3 b a hb ha).
  - by rewrite -[LHS]/(rmap snd (rmap g (nget F b))) (e3 b a hb ha).
  - have := tangentN (arr := a) (l := Lattice (vector_at u (pick su (ravel (nshape arr) b))) (vector_at v (pick sv (ravel (nshape arr) b)))) (j := j) (fw := fw) (sw := sw) (s := 1) n0 hr.
    by case: (compute_tangent_field _ _ _ _ _ _ _) => [x|e'] // h e [<-]; exact: h.
have idb (F : batch (vfield nx ny)) : components (bmap id F) = components F.
  rewrite /components /bmap /nmap; congr (_, _); apply: nd_ext => //= idx; by case: (nget F idx).
have idr (x : res (vfield nx ny)) : rmap id x = x by case: x.
case: s.
- apply: (D true 0%coqR (1 / 2)%coqR id) => [arr' expn' u' v'|a expn' l]; last by rewrite idr.
  by rewrite /= /compute_field_jones_direct_b; case: compute_tangent_field_b => [F|e] //=; rewrite idb.
- by apply: (D false 0%coqR 2%coqR (@normalize_jones nx ny)).
- by apply: (D false 0%coqR 2%coqR (@normalize_elementwise nx ny)).
- apply: (D false 0%coqR 2%coqR id) => [arr' expn' u' v'|a expn' l]; last by rewrite idr.
  by rewrite /= /compute_field_pol_b; case: compute_tangent_field_b => [F|e] //=; rewrite idb.
- apply: (D true (1 / 20)%coqR 0%coqR id) => [arr' expn' u' v'|a expn' l]; last by rewrite idr.
  by rewrite /= /compute_field_jones_direct_b; case: compute_tangent_field_b => [F|e] //=; rewrite idb.
- by apply: (D false (1 / 5)%coqR 0%coqR (@normalize_jones nx ny)).
- by apply: (D false (1 / 5)%coqR 0%coqR (@normalize_elementwise nx ny)).
- apply: (D false (1 / 5)%coqR 0%coqR id) => [arr' expn' u' v'|a expn' l]; last by rewrite idr.
  by rewrite /= /compute_field_pol_b; case: compute_tangent_field_b => [F|e] //=; rewrite idb.
Qed.

Lemma elementwise_ext nx ny n f f1 (arr : batch 'M[C]_(nx, ny)) (expn : n.-tuple (Z * Z)) u v l l' :
  (forall b, valid_index (nshape arr) b -> l b = l' b) -> acts_elementwise f f1 arr expn u v l -> acts_elementwise f f1 arr expn u v l'.
Proof.
move=> h [tx [ty [e1 e2 e3 e4]]]; exists tx, ty; split=> // b a hb ha; rewrite -h //; exact: e4.
Qed.

(** For one lattice, the field of each element of the batch is the one computed for that element
    alone. *)
Theorem C53_batch nx ny n s (arr : batch 'M[C]_(nx, ny)) (expn : n.-tuple (Z * Z)) (u v : nd R) :
  n <> 0%N -> resolves nx ny expn -> one_lattice u -> one_lattice v ->
  acts_elementwise (vector_field_scheme_b s) (@vector_field_scheme nx ny n s) arr expn u v
    (fun=> Lattice (the_vector u) (the_vector v)).
Proof.
move=> n0 hr hu hv.
have F (x : nd R) m : one_lattice x -> fits x (nseq (ndim x).-1 1) m by move=> h; split; rewrite // num_elements_ones.
have V (x : nd R) k : one_lattice x -> vector_at x (pick (nseq (ndim x).-1 1) k) = the_vector x.
  by move=> h; rewrite /vector_at /pick num_elements_ones eqxx unravel_ones.
apply: elementwise_ext (scheme_b s n0 hr (F _ _ hu) (F _ _ hv)) => b hb; cbv zeta.
by rewrite !V.
Qed.

(** A lattice for each element: [arr] and the lattice vectors are paired in row-major order. *)
Theorem C53_lattices nx ny n s (arr : batch 'M[C]_(nx, ny)) (expn : n.-tuple (Z * Z)) (u v : nd R) (su sv : seq nat)
    (ju jv : seq nat -> seq nat) :
  n <> 0%N -> resolves nx ny expn -> nshape u = su ++ [:: 2%N] -> nshape v = sv ++ [:: 2%N] ->
  size (all_indices su) = size (all_indices (nshape arr)) -> size (all_indices sv) = size (all_indices (nshape arr)) ->
  (forall b, valid_index (nshape arr) b ->
    [/\ valid_index su (ju b), index (ju b) (all_indices su) = index b (all_indices (nshape arr)),
        valid_index sv (jv b) & index (jv b) (all_indices sv) = index b (all_indices (nshape arr))]) ->
  acts_elementwise (vector_field_scheme_b s) (@vector_field_scheme nx ny n s) arr expn u v
    (fun b => Lattice (vector_at u (ju b)) (vector_at v (jv b))).
Proof.
move=> n0 hr eu ev; rewrite !all_indices_size => su' sv' hj.
have F (x : nd R) t : nshape x = t ++ [:: 2] -> num_elements t = num_elements (nshape arr) -> fits x t (num_elements (nshape arr)).
  by move=> ex et; split=> //; rewrite et eqxx orbT.
apply: elementwise_ext (scheme_b s n0 hr (F _ _ eu su') (F _ _ ev sv')) => b hb; cbv zeta.
have [h1 h2 h3 h4] := hj b hb.
have P t jt : num_elements t = num_elements (nshape arr) -> valid_index t jt -> index jt (all_indices t) = index b (all_indices (nshape arr)) ->
    pick t (ravel (nshape arr) b) = jt.
  move=> et vt it; rewrite /pick; have hl := ravel_lt hb.
  have -> : (if num_elements t == 1 then 0 else ravel (nshape arr) b) = ravel t jt.
    rewrite (ravel_index vt) it -(ravel_index hb); case: ifP => // /eqP e1; move: hl; rewrite -et e1.
    by case: (ravel _ _).
  exact: unravel_ravel.
by rewrite (P su (ju b)) // (P sv (jv b)).
Qed.
(** In particular for lattice vectors with the batch shape of the array. *)
Theorem C53_same_batch nx ny n s (arr : batch 'M[C]_(nx, ny)) (expn : n.-tuple (Z * Z)) (u v : nd R) :
  n <> 0%N -> resolves nx ny expn -> nshape u = nshape arr ++ [:: 2%N] -> nshape v = nshape arr ++ [:: 2%N] ->
  acts_elementwise (vector_field_scheme_b s) (@vector_field_scheme nx ny n s) arr expn u v
    (fun b => Lattice (vector_at u b) (vector_at v b)).
Proof. by move=> n0 hr eu ev; apply: (C53_lattices (ju := id) (jv := id) s n0 hr eu ev). Qed.

(** Batches of lattices that would have to be repeated along some axes of the batch of arrays, or
    that are larger, are rejected. *)
Theorem C53_other_lattices_refuted nx ny n s (arr : batch 'M[C]_(nx, ny)) (expn : n.-tuple (Z * Z)) (u v : nd R) (su sv : seq nat) :
  nshape u = su ++ [:: 2%N] -> nshape v = sv ++ [:: 2%N] ->
  (size (all_indices su) <> 1%N /\ size (all_indices su) <> size (all_indices (nshape arr))) \/
  (size (all_indices sv) <> 1%N /\ size (all_indices sv) <> size (all_indices (nshape arr))) ->
  vector_field_scheme_b s arr expn u v = Exn ValueError.
Proof.
rewrite !all_indices_size => eu ev h.
have T j fw sw : compute_tangent_field_b arr expn u v j fw sw 1 = Exn ValueError.
  rewrite /compute_tangent_field_b; cbv zeta; rewrite {1}/reshape [num_elements [:: _]]/= muln1 eqxx; cbn [check bind nshape head].
  rewrite flat_shape; case: h => [[h1 h2]|[h1 h2]]; first by rewrite (lattice_rows_bad eu h1 h2).
  rewrite (lattice_rows_bad ev h1 h2).
  case: (boolP ((num_elements su == 1) || (num_elements su == num_elements (nshape arr)))) => [hu|].
    by have [zu -> _] := lattice_rows_ok eu hu.
  by rewrite negb_or => /andP [/eqP p1 /eqP p2]; rewrite (lattice_rows_bad eu p1 p2).
by case: s => /=; rewrite /compute_field_jones_direct_b /compute_field_jones_b /compute_field_normal_b /compute_field_pol_b T.
Qed.

(** ** Examples *)
(** Six arrays of 3 by 3 points in a (2, 3) batch, five orders, one lattice. *)
Section Example53.
Let expn : 5.-tuple (Z * Z) := [tuple (0, 0); (1, 0); (-1, 0); (0, 1); (0, -1)]%coqZ.
Let arr : batch 'M[C]_(3, 3) := Nd [:: 2; 3] (fun idx => Val (\matrix_(i, j) RtoC (INR (i * j + nth 0%N idx 0%N + nth 0%N idx 1%N)%N))%R).
Let u : nd R := Nd [:: 2] (fun idx => if head 0 idx == 0 then 1%coqR else 0%coqR).
Let v : nd R := Nd [:: 2] (fun idx => if head 0 idx == 0 then 0%coqR else 2%coqR).
Lemma ex53_resolves : resolves 3 3 expn.
Proof. by case=> -[|[|[|[|[|]]]]] // h; rewrite (tnth_nth (0, 0)%coqZ) /=; lia. Qed.
Example ex_C53_batch s : acts_elementwise (vector_field_scheme_b s) (@vector_field_scheme 3 3 5 s) arr expn u v
  (fun=> Lattice (1, 0)%coqR (0, 2)%coqR).
Proof. exact: (@C53_batch 3 3 5 s arr expn u v _ ex53_resolves erefl erefl). Qed.
(** The (2, 3) batch with three lattices, and one array with three lattices. *)
Let u3 : nd R := Nd [:: 3; 2] (fun idx => if nth 0 idx 1 == 0 then INR (nth 0 idx 0).+1 else 0%coqR).
Let v3 : nd R := Nd [:: 3; 2] (fun idx => if nth 0 idx 1 == 0 then 0%coqR else INR (nth 0 idx 0).+1).
Example ex_C53_partial s : vector_field_scheme_b s arr expn u3 v3 = Exn ValueError.
Proof. by apply: (@C53_other_lattices_refuted _ _ _ s arr expn u3 v3 [:: 3] [:: 3]) => //; left. Qed.
Example ex_C53_single s : vector_field_scheme_b s (slice 0 (slice 0 arr)) expn u3 v3 = Exn ValueError.
Proof. by apply: (@C53_other_lattices_refuted _ _ _ s (slice 0 (slice 0 arr)) expn u3 v3 [:: 3] [:: 3]) => //; left. Qed.
(** Two arrays in a (2, 1) batch and two lattices in a (1, 2) batch: paired one to one. *)
Let u12 : nd R := Nd [:: 1; 2; 2] (fun idx => if nth 0 idx 2 == 0 then INR (nth 0 idx 1).+1 else 0%coqR).
Let v12 : nd R := Nd [:: 1; 2; 2] (fun idx => if nth 0 idx 2 == 0 then 0%coqR else INR (nth 0 idx 1).+1).
Let arr21 : batch 'M[C]_(3, 3) := Nd [:: 2; 1] (fun idx => nget arr idx).
Example ex_C53_pairs s : acts_elementwise (vector_field_scheme_b s) (@vector_field_scheme 3 3 5 s) arr21 expn u12 v12
  (fun b => Lattice (INR (head 0 b).+1, 0%coqR) (0%coqR, INR (head 0 b).+1)).
Proof.
apply: (@C53_lattices 3 3 5 s arr21 expn u12 v12 [:: 1; 2] [:: 1; 2] (fun b => [:: 0; head 0 b]) (fun b => [:: 0; head 0 b])) => //.
- exact: ex53_resolves.
- by case=> [|[|[|i]] [|[|j] [|x y]]].
Qed.
End Example53.

Print Assumptions C53_batch.
Print Assumptions C53_lattices.
Print Assumptions C53_same_batch.
Print Assumptions C53_other_lattices_refuted.

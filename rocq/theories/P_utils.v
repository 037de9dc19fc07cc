(** C27, C28, C37: shape compatibility, axis normalisation, permittivity interpolation. *)
From Coq Require Import Reals ZArith Lra Lia.
From mathcomp Require Import all_ssreflect all_algebra.
From Verif Require Import CField Err LinAlg Tac M_utils S_utils S_basis.
Set Implicit Arguments. Unset Strict Implicit. Unset Printing Implicit Defensive.
Import GRing.Theory.
Local Open Scope ring_scope.

(** ** C27 *)
Lemma max_listP s x : x \in s -> (x <= max_list s)%N.
Proof.
elim: s => //= y s IH; rewrite inE => /orP [/eqP ->|/IH h]; first exact: leq_maxl.
exact: leq_trans h (leq_maxr _ _).
Qed.
Lemma max_list_in s : s != [::] -> max_list s \in s.
Proof.
elim: s => //= y [|z s] IH _; first by rewrite /= maxn0 mem_head.
have {}IH := IH isT; rewrite inE /maxn; case: ltnP => _; first by rewrite IH orbT.
by rewrite eqxx.
Qed.
Lemma size_pad d s : (size s <= d)%N -> size (pad_shape d s) = d.
Proof. by move=> h; rewrite size_cat size_nseq subnK. Qed.
Lemma nth_pad d s i : (size s <= d)%N -> (i < d)%N -> nth 0%N (pad_shape d s) i = axis_size s (d - i.+1).
Proof.
move=> hs hi; rewrite /pad_shape nth_cat size_nseq /axis_size.
case: ltnP => h.
- by rewrite nth_nseq h nth_default // size_rev; natlia.
- rewrite nth_rev; last by natlia.
  rewrite (set_nth_default 1%N 0%N); last by natlia.
  by congr nth; natlia.
Qed.
Lemma axis_size_out s i : (size s <= i)%N -> axis_size s i = 1%N.
Proof. by move=> h; rewrite /axis_size nth_default // size_rev. Qed.

(** For a nonempty list of shapes, [batch_compatible_shapes] is true exactly when the shapes
    broadcast together and no empty axis meets a singleton axis. *)
Lemma compatibleE (shapes : seq (seq nat)) : shapes != [::] ->
  let d := max_list (map size shapes) in
  batch_compatible_shapes shapes = Val (all (fun s => all (fun i =>
    (axis_size s i == 1%N) || (axis_size s i == max_list [seq axis_size t i | t <- shapes])) (iota 0 d)) shapes).
Proof.
move=> h0 d; have hd s : s \in shapes -> (size s <= d)%N by move=> hs; apply: max_listP; exact: map_f.
have -> : batch_compatible_shapes shapes = Val (all (fun s => all (fun ab : nat * nat => (ab.1 == 1%N) || (ab.1 == ab.2))
   (zip s (max_shape d (map (pad_shape d) shapes)))) (map (pad_shape d) shapes)) by rewrite /d; case: (shapes) h0.
congr Val; rewrite all_map; apply: eq_in_all => s hs /=.
have sz : size (max_shape d (map (pad_shape d) shapes)) = d by rewrite size_map size_iota.
have mE i : (i < d)%N -> nth 0%N (max_shape d (map (pad_shape d) shapes)) i = max_list [seq axis_size t (d - i.+1) | t <- shapes].
  move=> hi; rewrite (nth_map 0%N) ?size_iota // nth_iota // add0n -map_comp; congr max_list.
  by apply/eq_in_map => t ht /=; rewrite nth_pad ?hd.
apply/allP/allP => h i.
- rewrite mem_iota add0n => hi; have hi' : (d - i.+1 < d)%N by rewrite ltn_subrL (leq_ltn_trans _ hi).
  have := h (nth 0%N (pad_shape d s) (d - i.+1), nth 0%N (max_shape d (map (pad_shape d) shapes)) (d - i.+1)).
  rewrite -nth_zip ?sz ?size_pad ?hd // mem_nth; last by rewrite size_zip sz size_pad ?hd // minnn.
  rewrite nth_zip ?sz ?size_pad ?hd //= nth_pad ?hd // mE //.
  have -> : (d - (d - i.+1).+1 = i)%N by natlia.
  exact.
- case/(nthP (0, 0)%N) => j; rewrite size_zip sz size_pad ?hd // minnn => hj <-.
  rewrite nth_zip ?sz ?size_pad ?hd //= nth_pad ?hd // mE //; apply: h.
  by rewrite mem_iota add0n /= ltn_subrL (leq_ltn_trans _ hj).
Qed.
Theorem C27_exact (shapes : seq (seq nat)) : shapes != [::] ->
  (batch_compatible_shapes shapes = Val true <-> broadcastable shapes /\ ~ empty_meets_singleton shapes).
Proof.
move=> h0; rewrite compatibleE //; set d := max_list _.
have hd s : s \in shapes -> (size s <= d)%N by move=> hs; apply: max_listP; exact: map_f.
split.
- case=> /allP h; have {}h s i : s \in shapes -> axis_size s i = 1%N \/ axis_size s i = max_list [seq axis_size t i | t <- shapes].
    move=> hs; case: (ltnP i d) => hi; last by left; apply: axis_size_out; exact: leq_trans (hd _ hs) hi.
    by have /allP /(_ i) := h s hs; rewrite mem_iota add0n => /(_ hi) /orP [/eqP ->|/eqP ->]; [left|right].
  split.
  + move=> s t i hs ht; case: (h s i hs) => [->|hs']; first by left.
    by case: (h t i ht) => [->|ht']; [right; left|right; right; rewrite hs' ht'].
  + case=> s [t [i [hs ht es et]]]; case: (h s i hs); rewrite es // => e.
    have : (axis_size t i <= max_list [seq axis_size t i | t <- shapes])%N by apply: max_listP; exact: (map_f (fun t => axis_size t i)).
    by rewrite et -e.
- case=> hb he; congr Val; apply/allP => s hs; apply/allP => i _.
  have /mapP [t ht et] : max_list [seq axis_size t i | t <- shapes] \in [seq axis_size t i | t <- shapes].
    by apply: max_list_in; case: (shapes) h0.
  case: (hb s t i hs ht) => [->|[e1|e]]; rewrite ?eqxx //; last by rewrite et e eqxx orbT.
  have le : (axis_size s i <= 1)%N.
    by rewrite -e1 -et; apply: max_listP; exact: (map_f (fun t => axis_size t i)).
  case e0 : (axis_size s i) le => [|[|//]] _; last by [].
  by case: he; exists s, t, i.
Qed.
(** Without empty axes it is exactly broadcastability. *)
Theorem C27_broadcastable (shapes : seq (seq nat)) : shapes != [::] -> (forall s, s \in shapes -> 0%N \notin s) ->
  (batch_compatible_shapes shapes = Val true <-> broadcastable shapes) /\
  (batch_compatible_shapes shapes = Val false <-> ~ broadcastable shapes).
Proof.
move=> h0 hz; have ns : ~ empty_meets_singleton shapes.
  case=> s [t [i [hs _ e _]]]; have /negP := hz s hs; apply; rewrite -mem_rev.
  move: e; rewrite /axis_size; case: (ltnP i (size (rev s))) => hi; first by move=> <-; exact: mem_nth.
  by rewrite nth_default.
have e := C27_exact h0; have [b hb] : exists b, batch_compatible_shapes shapes = Val b.
  by rewrite (compatibleE h0); eexists.
split; first by rewrite e; split=> [[]//|hb']; split.
rewrite hb in e *; case: b e {hb} => e; split=> //.
- by move=> hb; case: hb; case: (e.1 (erefl _)).
- by move=> _ hb; have := e.2 (conj hb ns).
Qed.
(** An answer of true is always right. *)
Theorem C27_sound shapes : batch_compatible_shapes shapes = Val true -> broadcastable shapes.
Proof. by case: shapes => // s ss h; case: ((C27_exact (isT : s :: ss != [::])).1 h). Qed.
(** But shapes with empty axes that do broadcast can be reported as incompatible. *)
Theorem C27_empty_axis_refuted : exists shapes, broadcastable shapes /\ batch_compatible_shapes shapes = Val false.
Proof.
exists [:: [:: 0%N]; [:: 1%N]]; split=> //.
have h s i : s \in [:: [:: 0%N]; [:: 1%N]] -> axis_size s i = 1%N \/ s = [:: 0%N].
  by rewrite !inE => /orP [/eqP ->|/eqP ->]; [right|left; case: i => [|[|]]].
move=> s t i /(h _ i) [->|->] /(h _ i) [->|->]; first by left.
- by left.
- by right; left.
- by right; right.
Qed.
(** No shapes at all raise a ValueError. *)
Theorem C27_no_shapes : batch_compatible_shapes [::] = Exn ValueError. Proof. by []. Qed.
(** [atleast_nd] gives at least [n] axes, changes no axis size and adds no more axes than needed. *)
Theorem C27_atleast_nd s n : size (atleast_nd_shape s n) = maxn n (size s) /\
  forall i, axis_size (atleast_nd_shape s n) i = axis_size s i.
Proof.
split; first by rewrite size_cat size_nseq /maxn; case: ltnP => h; natlia.
move=> i; rewrite /axis_size /atleast_nd_shape rev_cat nth_cat size_rev; case: ltnP => // h.
rewrite [RHS]nth_default ?size_rev //.
have -> : rev (nseq (n - size s) 1%N) = nseq (n - size s) 1%N.
  by apply: (@eq_from_nth _ 0%N); rewrite size_rev ?size_nseq // => j hj; rewrite nth_rev ?size_nseq // !nth_nseq hj; case: ltnP => // h'; natlia.
by rewrite nth_nseq; case: ltnP.
Qed.

(** ** C28 *)
Lemma nodup_uniq (s : seq Z) : (List.length s == List.length (List.nodup Z.eq_dec s)) = uniq s.
Proof.
elim: s => //= x s IH; have le : (List.length (List.nodup Z.eq_dec s) <= List.length s)%N.
  elim: (s) => //= y t h; case: List.in_dec => _; [exact: leqW|exact: h].
have e : List.In x s <-> x \in s.
  elim: (s) => //= y t IHt; rewrite inE; split.
    by case=> [->|/IHt ->]; rewrite ?eqxx ?orbT.
  by case/orP=> [/eqP ->|/IHt]; [left|right].
case: List.in_dec => [/e ->|h] /=.
  by apply/negP => /eqP h; move: le; rewrite -h ltnn.
have -> : x \notin s by apply/negP => /e.
by rewrite eqSS.
Qed.
Lemma axis_modP ndim a r : (- Z.of_nat ndim <= a < Z.of_nat ndim)%coqZ ->
  (axis_number ndim a r <-> r = (a mod Z.of_nat ndim)%coqZ).
Proof.
move=> ha; have n0 : (0 < Z.of_nat ndim)%coqZ by lia.
have mb := Z.mod_pos_bound a _ n0.
have em : (a mod Z.of_nat ndim = a \/ a mod Z.of_nat ndim = a + Z.of_nat ndim)%coqZ.
  case: (Z_lt_dec a 0) => h; last by left; apply: Z.mod_small; lia.
  right; rewrite -(Z.mod_add a 1) ?Z.mul_1_l; last lia.
  by apply: Z.mod_small; lia.
by rewrite /axis_number; split=> [|->]; lia.
Qed.
(** The result lists, in the same order, the numbers of the axes. *)
Theorem C28_result (axes : seq Z) ndim (r : seq Z) : absolute_axes axes ndim = Val r ->
  [/\ size r = size axes, uniq r &
      forall i, (i < size axes)%N -> axis_number ndim (nth 0%coqZ axes i) (nth 0%coqZ r i)].
Proof.
rewrite /absolute_axes => H; have [/allP hr {}H] := checkV H; have [] := checkV H.
rewrite nodup_uniq => hu [<-]; rewrite size_map; split=> // i hi.
have := hr _ (mem_nth 0%coqZ hi) => /andP [/Z.leb_spec0 h1 /Z.ltb_spec0 h2].
by rewrite (nth_map 0%coqZ) //; apply/axis_modP.
Qed.
(** It raises a ValueError exactly when an axis is out of range or two entries denote the
    same axis, and nothing else ever. *)
Theorem C28_raises (axes : seq Z) ndim :
  (absolute_axes axes ndim = Exn ValueError <->
   (exists i, (i < size axes)%N /\ forall r, ~ axis_number ndim (nth 0%coqZ axes i) r) \/
   (exists i j r, [/\ (i < j)%N, (j < size axes)%N, axis_number ndim (nth 0%coqZ axes i) r & axis_number ndim (nth 0%coqZ axes j) r])) /\
  ((exists r, absolute_axes axes ndim = Val r) \/ absolute_axes axes ndim = Exn ValueError).
Proof.
rewrite /absolute_axes /check nodup_uniq; set ok := all _ _.
split; last by case: ok; [case: ifP => _; [left; eexists|right]|right].
case: (boolP ok) => [/allP hr|].
- have rg i : (i < size axes)%N -> (- Z.of_nat ndim <= nth 0%coqZ axes i < Z.of_nat ndim)%coqZ.
    by move=> hi; have := hr _ (mem_nth 0%coqZ hi) => /andP [/Z.leb_spec0 h1 /Z.ltb_spec0 h2].
  case: (boolP (uniq [seq (d mod Z.of_nat ndim)%coqZ | d <- axes])) => hu; split=> //.
  + case=> [[i [hi h]]|[i [j [r [hij hj h1 h2]]]]].
      by case: (h (nth 0%coqZ axes i mod Z.of_nat ndim)%coqZ); apply/axis_modP => //; exact: rg.
    have hi := ltn_trans hij hj.
    have /axis_modP := h1 => /(_ (rg _ hi)) e1; have /axis_modP := h2 => /(_ (rg _ hj)) e2.
    have /uniqP := hu => /(_ 0%coqZ i j); rewrite !inE size_map hi hj !(nth_map 0%coqZ) // -e1 -e2.
    by move=> /(_ isT isT erefl) e; move: hij; rewrite e ltnn.
  + move=> _; right; have /uniqPn := hu => /(_ 0%coqZ) [i [j [hij]]]; rewrite size_map => hj e.
    have hi := ltn_trans hij hj; exists i, j, (nth 0%coqZ axes i mod Z.of_nat ndim)%coqZ; split=> //.
      by apply/axis_modP => //; exact: rg.
    by apply/axis_modP; [exact: rg|move: e; rewrite !(nth_map 0%coqZ)].
- move/allPn=> [a /(nthP 0%coqZ) [i hi <-] hn]; split=> // _; left; exists i; split=> // r; move: hn; move: (nth _ _ _ : Z) => b hn [h1 h2].
  by case/negP: hn; apply/andP; split; [apply/Z.leb_spec0|apply/Z.ltb_spec0]; lia.
Qed.

(** ** C37 *)
Lemma csqrt_index z : refractive_index z (csqrt z).
Proof.
split; first exact: csqrt_sqr.
case: (Rle_lt_or_eq_dec _ _ (csqrt_re_ge0 z)) => h; [by left|right]; split; first by [].
have e := csqrt_sqr z.
have i0 : im z = 0%coqR by rewrite -e imM -h; ring.
by rewrite /csqrt /= i0; case: Rlt_dec => /= h'; [lra|exact: sqrt_pos].
Qed.
Lemma index_unique z n n' : refractive_index z n -> refractive_index z n' -> n = n'.
Proof.
move=> [h1 p1] [h2 p2]; have /eqP : n * n - n' * n' = 0 by rewrite h1 h2 subrr.
have -> : n * n - n' * n' = (n - n') * (n + n') by rewrite -!expr2 subr_sqr.
rewrite mulf_eq0 => /orP [/eqP e|/eqP e]; first by apply/eqP; rewrite -subr_eq0 e.
have er : (re n + re n' = 0)%coqR by rewrite -reD e.
have ei : (im n + im n' = 0)%coqR by rewrite -imD e.
by apply: C_ext; move: p1 p2; rewrite /right_half; lra.
Qed.
Lemma interpolateE s v d :
  interpolate_permittivity s v d = (RtoC d * csqrt s + RtoC (1 - d)%coqR * csqrt v) ^+ 2.
Proof.
rewrite /interpolate_permittivity; congr (_ ^+ 2); apply: C_ext; rewrite !reimE /=; ring.
Qed.
(** Density 0 gives the void and density 1 the solid permittivity. *)
Theorem C37_endpoints s v : interpolate_permittivity s v 0 = v /\ interpolate_permittivity s v 1 = s.
Proof.
rewrite !interpolateE; split.
- have -> : (1 - 0 = 1)%coqR by ring.
  by rewrite mul0r add0r mul1r expr2 csqrt_sqr.
- have -> : (1 - 1 = 0)%coqR by ring.
  by rewrite mul1r mul0r addr0 expr2 csqrt_sqr.
Qed.
Lemma right_half_mix n n' d : right_half n -> right_half n' -> (0 <= d <= 1)%coqR ->
  right_half (RtoC d * n + RtoC (1 - d)%coqR * n').
Proof.
move=> p q hd; rewrite /right_half !reimE; move: p q; rewrite /right_half.
move: (re n) (im n) (re n') (im n') => a b a' b' p q.
have e x y : (d * x - 0 * b + ((1 - d) * y - 0 * b') = d * x + (1 - d) * y)%coqR by ring.
have e' x y z w : (d * x + 0 * z + ((1 - d) * y + 0 * w) = d * x + (1 - d) * y)%coqR by ring.
rewrite e e'.
case: (Req_dec d 0) => [->|d0]; first by case: q => [q|[q1 q2]]; [left|right]; lra.
case: (Req_dec d 1) => [->|d1]; first by case: p => [p|[p1 p2]]; [left|right]; lra.
have h : (0 < d)%coqR by lra. have h' : (0 < 1 - d)%coqR by lra.
case: p => [p|[p1 p2]]; case: q => [q|[q1 q2]].
- by left; have := Rmult_lt_0_compat _ _ h p; have := Rmult_lt_0_compat _ _ h' q; lra.
- by left; rewrite q1; have := Rmult_lt_0_compat _ _ h p; lra.
- by left; rewrite p1; have := Rmult_lt_0_compat _ _ h' q; lra.
- right; rewrite p1 q1; split; first by ring.
  by have := Rmult_le_pos _ _ (Rlt_le _ _ h) p2; have := Rmult_le_pos _ _ (Rlt_le _ _ h') q2; lra.
Qed.
(** The refractive index is interpolated linearly. *)
Theorem C37_linear_index s v d n n' : (0 <= d <= 1)%coqR -> refractive_index s n -> refractive_index v n' ->
  refractive_index (interpolate_permittivity s v d) (RtoC d * n + RtoC (1 - d)%coqR * n').
Proof.
move=> hd hn hn'; rewrite interpolateE.
rewrite (index_unique (csqrt_index s) hn) (index_unique (csqrt_index v) hn'); split; first by rewrite expr2.
by apply: right_half_mix => //; [case: hn|case: hn'].
Qed.
(** It never crosses zero, and stays passive between passive materials. *)
Theorem C37_nonzero s v d : (0 <= d <= 1)%coqR -> s <> 0 -> v <> 0 -> interpolate_permittivity s v d <> 0.
Proof.
move=> hd s0 v0; rewrite interpolateE expr2 => /eqP; rewrite mulf_eq0 orbb => /eqP e.
have [es ps] := csqrt_index s; have [ev pv] := csqrt_index v.
have nz z n : n * n = z -> z <> 0 -> right_half n -> (0 < re n)%coqR \/ re n = 0%coqR /\ (0 < im n)%coqR.
  move=> h h0 [|[h1 h2]]; [by left|right]; split=> //; case: (Rle_lt_or_eq_dec _ _ h2) => // h3.
  by case: h0; rewrite -h; have -> : n = 0 by [apply: C_ext; rewrite ?h1 -?h3]; rewrite mul0r.
have {}ps := nz _ _ es s0 ps; have {}pv := nz _ _ ev v0 pv.
have := congr1 re e; have := congr1 im e; rewrite !reimE; move: ps pv.
move: (re (csqrt s)) (im (csqrt s)) (re (csqrt v)) (im (csqrt v)) => a b a' b' ps pv ei er.
have {}ei : (d * b + (1 - d) * b' = 0)%coqR by rewrite -[RHS]ei; ring.
have {}er : (d * a + (1 - d) * a' = 0)%coqR by rewrite -[RHS]er; ring.
case: (Req_dec d 0) => [d0|d0]; first by rewrite d0 in ei er; lra.
case: (Req_dec d 1) => [d1|d1]; first by rewrite d1 in ei er; lra.
have h : (0 < d)%coqR by lra. have h' : (0 < 1 - d)%coqR by lra.
have m x : (0 < x)%coqR -> (0 < d * x)%coqR by exact: Rmult_lt_0_compat.
have m' x : (0 < x)%coqR -> (0 < (1 - d) * x)%coqR by exact: Rmult_lt_0_compat.
case: ps => [/m p|[p /m p2]]; case: pv => [/m' q|[q /m' q2]].
- lra.
- by rewrite q in er; lra.
- by rewrite p in er; lra.
- lra.
Qed.
Theorem C37_passive s v d : (0 <= d <= 1)%coqR -> (0 <= im s)%coqR -> (0 <= im v)%coqR ->
  (0 <= im (interpolate_permittivity s v d))%coqR.
Proof.
move=> hd hs hv; have ik z : (0 <= im z)%coqR -> (0 <= im (csqrt z))%coqR.
  by move=> h; rewrite /csqrt /=; case: Rlt_dec => /= h'; [lra|exact: sqrt_pos].
rewrite interpolateE expr2 !reimE.
have := ik _ hs; have := ik _ hv; have := csqrt_re_ge0 s; have := csqrt_re_ge0 v.
move: (re (csqrt s)) (im (csqrt s)) (re (csqrt v)) (im (csqrt v)) => a b a' b' h1 h2 h3 h4.
set k := (d * b + 0 * a + _)%coqR; set n := (d * a - _ + _)%coqR.
have n0 : (0 <= n)%coqR.
  have -> : n = (d * a + (1 - d) * a')%coqR by rewrite /n; ring.
  by apply: Rplus_le_le_0_compat; apply: Rmult_le_pos; lra.
have k0 : (0 <= k)%coqR.
  have -> : k = (d * b + (1 - d) * b')%coqR by rewrite /k; ring.
  by apply: Rplus_le_le_0_compat; apply: Rmult_le_pos; lra.
by apply: Rplus_le_le_0_compat; apply: Rmult_le_pos.
Qed.

(** Concrete cases *)
Example ex_C27 : batch_compatible_shapes [:: [:: 5; 1; 3]; [:: 4; 1]; [::]]%N = Val true /\
                 batch_compatible_shapes [:: [:: 5; 2; 3]; [:: 4; 1]]%N = Val false.
Proof. by []. Qed.
Example ex_C28 : absolute_axes [:: -1; 0; -2]%coqZ 4 = Val [:: 3; 0; 2]%coqZ /\
                 absolute_axes [:: -1; 3]%coqZ 4 = Exn ValueError.
Proof. by []. Qed.
Example ex_C37 : exists d, (0 < d < 1)%coqR /\ interpolate_permittivity (RtoC 4) (RtoC 1) d <> 0.
Proof. by exists (1 / 2)%coqR; split; [lra|]; apply: C37_nonzero; [lra| |] => -[]; lra. Qed.

Print Assumptions C27_exact.
Print Assumptions C27_broadcastable.
Print Assumptions C27_sound.
Print Assumptions C27_empty_axis_refuted.
Print Assumptions C27_no_shapes.
Print Assumptions C27_atleast_nd.
Print Assumptions C28_result.
Print Assumptions C28_raises.
Print Assumptions C37_endpoints.
Print Assumptions C37_linear_index.
Print Assumptions C37_nonzero.
Print Assumptions C37_passive.

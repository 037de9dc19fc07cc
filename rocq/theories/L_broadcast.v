(** Lemmas on broadcasting. *)
From Coq Require Import Reals ZArith.
From mathcomp Require Import all_ssreflect all_algebra.
From Verif Require Import Tac CField Err LinAlg M_utils M_basis M_nd M_fmm M_batch S_utils P_utils S_batch L_batch.
Set Implicit Arguments. Unset Strict Implicit. Unset Printing Implicit Defensive.

Definition bcto (s t : seq nat) := size s <= size t /\ forall i, ax s i = 1 \/ ax s i = ax t i.

Lemma ax_out s i : size s <= i -> ax s i = 1. Proof. by move=> h; rewrite /ax nth_default ?size_rev. Qed.
Lemma ax_rcons0 s a : ax (rcons s a) 0 = a. Proof. by rewrite /ax rev_rcons. Qed.
Lemma ax_rconsS s a i : ax (rcons s a) i.+1 = ax s i. Proof. by rewrite /ax rev_rcons. Qed.
Lemma ax_nseq1 d i : ax (nseq d 1) i = 1.
Proof. by elim: d i => [|d ih] [|i] //; rewrite -[d.+1]addn1 nseqD cats1 ?ax_rcons0 ?ax_rconsS. Qed.
Lemma ax_ext s t : size s = size t -> (forall i, ax s i = ax t i) -> s = t.
Proof.
move=> hs h; rewrite -[s]revK -[t]revK; congr rev.
by apply: (@eq_from_nth _ 1); rewrite ?size_rev // => i _; exact: h.
Qed.
Lemma idx_ext (a b : seq nat) : size a = size b -> (forall i, nth 0 (rev a) i = nth 0 (rev b) i) -> a = b.
Proof.
move=> hs h; rewrite -[a]revK -[b]revK; congr rev.
by apply: (@eq_from_nth _ 0); rewrite ?size_rev // => i _; exact: h.
Qed.
Lemma size_bindex s idx : size (bindex s idx) = size s. Proof. by rewrite size_rev size_map size_iota. Qed.
Lemma nth_bindex s idx i : nth 0 (rev (bindex s idx)) i = if ax s i == 1 then 0 else nth 0 (rev idx) i.
Proof.
rewrite revK; case: (ltnP i (size s)) => h; last by rewrite nth_default ?size_map ?size_iota // ax_out.
by rewrite (nth_map 0) ?size_iota // nth_iota.
Qed.
Lemma bindexT s sh idx : bcto s sh -> bindex s (bindex sh idx) = bindex s idx.
Proof.
case=> _ h; apply: idx_ext => [|i]; first by rewrite !size_bindex.
by rewrite !nth_bindex; case: eqP => // h1; case: (h i) => // <-; case: eqP.
Qed.
Lemma nth_rev_cat_rcons (s : seq nat) a i : nth 0 (rev (rcons s a)) i = if i is j.+1 then nth 0 (rev s) j else a.
Proof. by rewrite rev_rcons; case: i. Qed.
Lemma bindex_rcons s a idx i : bindex (rcons s a) (rcons idx i) = rcons (bindex s idx) (if a == 1 then 0 else i).
Proof.
apply: idx_ext => [|[|j]]; first by rewrite size_rcons !size_bindex size_rcons.
- by rewrite nth_bindex ax_rcons0 !nth_rev_cat_rcons.
- by rewrite nth_bindex ax_rconsS !nth_rev_cat_rcons nth_bindex.
Qed.
Lemma bindex_ones d idx : bindex (nseq d 1) idx = nseq d 0.
Proof.
apply: idx_ext => [|i]; first by rewrite size_bindex !size_nseq.
by rewrite nth_bindex ax_nseq1 eqxx; elim: d i => [|d ih] [|i] //; rewrite -[d.+1]addn1 nseqD cats1 rev_rcons //= -ih.
Qed.
Lemma valid_size sh idx : valid_index sh idx -> size idx = size sh. Proof. by case/andP=> /eqP. Qed.
Lemma valid_nth sh idx i : valid_index sh idx -> i < size sh -> nth 0 (rev idx) i < ax sh i.
Proof.
case/andP=> /eqP hs /allP h hi; rewrite /ax.
have := h (nth 0 (rev idx) i, nth 1 (rev sh) i); apply.
rewrite -[zip idx sh]revK mem_rev rev_zip //.
by rewrite -nth_zip ?size_rev // mem_nth // size_zip !size_rev hs minnn.
Qed.
Lemma bindex_id sh idx : valid_index sh idx -> bindex sh idx = idx.
Proof.
move=> hv; apply: idx_ext => [|i]; first by rewrite size_bindex (valid_size hv).
rewrite nth_bindex; case: (ltnP i (size sh)) => hi.
- by have := valid_nth hv hi; case: eqP => [->|//]; rewrite ltnS leqn0 => /eqP.
- by rewrite ax_out // eqxx nth_default // size_rev (valid_size hv).
Qed.
Lemma valid_rcons sh idx a i : valid_index (rcons sh a) (rcons idx i) = valid_index sh idx && (i < a).
Proof.
rewrite /valid_index !size_rcons eqSS; case: eqP => //= h.
by rewrite zip_rcons // all_rcons andbC.
Qed.

(** ** Broadcasting of shapes *)
Lemma broadcast_shapesV s t sh : broadcast_shapes s t = Val sh ->
  [/\ size sh = maxn (size s) (size t), forall i, ax sh i = bdim (ax s i) (ax t i), bcto s sh & bcto t sh].
Proof.
rewrite /broadcast_shapes; case: allP => // h [<-].
have sz : size (rev [seq bdim (ax s i) (ax t i) | i <- iota 0 (maxn (size s) (size t))]) = maxn (size s) (size t).
  by rewrite size_rev size_map size_iota.
have hx i : ax (rev [seq bdim (ax s i) (ax t i) | i <- iota 0 (maxn (size s) (size t))]) i = bdim (ax s i) (ax t i).
  case: (ltnP i (maxn (size s) (size t))) => hi.
  - by rewrite /ax revK (nth_map 0) ?size_iota // nth_iota.
  - rewrite ax_out ?sz // /bdim; move: hi; rewrite geq_max => /andP [h1 h2]; rewrite !ax_out //.
have hc i : [|| ax s i == 1, ax t i == 1 | ax s i == ax t i].
  case: (ltnP i (maxn (size s) (size t))) => hi; first by apply: h; rewrite mem_iota.
  by move: hi; rewrite geq_max => /andP [h1 h2]; rewrite !ax_out.
split=> //; split; rewrite ?sz ?leq_maxl ?leq_maxr // => i; rewrite hx /bdim.
- by case: eqP => [->|]; [left|right].
- by case: eqP => [|h1]; [right|have := hc i; case: eqP => //= _ /orP [/eqP ->|/eqP ->]; [left|right]].
Qed.
Lemma bcto_trans s t r : bcto s t -> bcto t r -> bcto s r.
Proof.
case=> h1 h2 [h3 h4]; split; first exact: leq_trans h3.
by move=> i; case: (h2 i) => ->; [left|exact: h4].
Qed.
Lemma bcto_refl s : bcto s s. Proof. by split=> // i; right. Qed.
Lemma broadcast_ok s t T : bcto s T -> bcto t T -> exists2 sh, broadcast_shapes s t = Val sh & bcto sh T.
Proof.
move=> [h1 h2] [h3 h4].
have hc : broadcast_shapes s t = Val (rev [seq bdim (ax s i) (ax t i) | i <- iota 0 (maxn (size s) (size t))]).
  rewrite /broadcast_shapes; case: allP => // -[] i _.
  by case: (h2 i) => ->; rewrite ?eqxx //; case: (h4 i) => ->; rewrite ?eqxx ?orbT.
have [e1 e2 _ _] := broadcast_shapesV hc.
eexists; first exact: hc.
split; first by rewrite e1 geq_max h1.
by move=> i; rewrite e2 /bdim; case: eqP.
Qed.

(** ** Arrays *)
Lemma nmap2V T U V (f : T -> U -> V) x y z : nmap2 f x y = Val z ->
  [/\ broadcast_shapes (nshape x) (nshape y) = Val (nshape z), forall idx, nget z idx = f (bget x idx) (bget y idx)
    & forall idx, bget z idx = f (bget x idx) (bget y idx)].
Proof.
rewrite /nmap2; case e: broadcast_shapes => [sh|] //; cbn [bind] => -[<-]; split=> // idx.
have [_ _ h1 h2] := broadcast_shapesV e.
by rewrite /bget /=; rewrite /bget !bindexT.
Qed.
Lemma bget_nmap T U (f : T -> U) x idx : bget (nmap f x) idx = f (bget x idx). Proof. by []. Qed.
Lemma take_rcons1 T (s : seq T) a : take (size (rcons s a)).-1 (rcons s a) = s.
Proof. by rewrite size_rcons -cats1 take_size_cat. Qed.
Lemma bget_newaxis T (x : nd T) idx i : bget (newaxis x) (rcons idx i) = bget x idx.
Proof. by rewrite /bget /newaxis [nshape _]/= bindex_rcons [LHS]/= take_rcons1. Qed.
Lemma stack2V T (x y z : nd T) : stack2 x y = Val z -> [/\ nshape x = nshape y, nshape z = rcons (nshape x) 2,
  nshape (component 0 z) = nshape x /\ nshape (component 1 z) = nshape x,
  (forall idx, bget (component 0 z) idx = bget x idx) & (forall idx, bget (component 1 z) idx = bget y idx)].
Proof.
rewrite /stack2; case: eqP => // e; cbn [check] => -[<-].
have hs c : nshape (component c (Nd (rcons (nshape x) 2) (fun idx => nget (if last 0 idx == 0 then x else y) (take (size idx).-1 idx)))) = nshape x.
  by rewrite /component /ndim; cbn [nshape]; rewrite take_rcons1.
split=> // idx.
- by rewrite /bget hs /component; cbn [nget]; rewrite last_rcons take_rcons1.
- by rewrite /bget hs /component; cbn [nget]; rewrite last_rcons take_rcons1 e.
Qed.
Lemma atleast_shape T (x : nd T) d s : nshape x = s -> size s <= d ->
  nshape (atleast_nd x d) = nseq (d - size s) 1 ++ s.
Proof. by move=> <-. Qed.
Lemma bget_atleast T (x : nd T) d idx : bget (atleast_nd x d) idx = bget x idx.
Proof.
rewrite /bget /atleast_nd; cbn [nshape nget]; congr nget.
rewrite /ndim /atleast_nd_shape; move: (nshape x) => s.
apply: idx_ext => [|i].
  by rewrite size_drop !size_bindex size_cat size_nseq addKn.
rewrite nth_bindex.
set p := d - size s.
have -> : rev (drop p (bindex (nseq p 1 ++ s) idx)) = take (size s) (rev (bindex (nseq p 1 ++ s) idx)).
  by rewrite -[in RHS](cat_take_drop p (bindex _ _)) rev_cat take_size_cat // size_rev size_drop size_bindex size_cat size_nseq addKn.
case: (ltnP i (size s)) => hi.
  by rewrite nth_take // nth_bindex /ax rev_cat nth_cat size_rev hi.
by rewrite nth_default ?ax_out // size_take size_rev size_bindex size_cat; case: ltnP => // h; apply: leq_trans hi; natlia.
Qed.
Lemma nseq_rcons_cat T (a : T) p (s : seq T) b : nseq p a ++ rcons s b = rcons (nseq p a ++ s) b.
Proof. by rewrite -!cats1 catA. Qed.
Lemma component_shape T (x : nd T) c s a : nshape x = rcons s a -> nshape (component c x) = s.
Proof. by move=> e; rewrite /component /ndim /= e take_rcons1. Qed.
Lemma component_atleast_shape T (x : nd T) c d s a : nshape x = rcons s a ->
  nshape (component c (atleast_nd x d.+1)) = nseq (d - size s) 1 ++ s.
Proof.
move=> e; apply: (@component_shape _ _ c _ a).
by rewrite /atleast_nd /= /atleast_nd_shape e size_rcons subSS nseq_rcons_cat.
Qed.
Lemma bget_component_atleast T (x : nd T) c d s a idx : nshape x = rcons s a ->
  bget (component c (atleast_nd x d.+1)) idx = nget x (rcons (bindex s idx) c).
Proof.
move=> e; rewrite /bget (component_atleast_shape c d e) /component /atleast_nd; cbn [nget].
rewrite /ndim e size_rcons subSS; congr nget.
have := bget_atleast (Nd s id) d idx; rewrite /bget /atleast_nd /ndim; cbn [nget nshape]; rewrite /atleast_nd_shape => <-.
by rewrite drop_rcons // size_bindex size_cat size_nseq leq_addr.
Qed.
Lemma bget_component T (x : nd T) c s a idx : nshape x = rcons s a ->
  bget (component c x) idx = nget x (rcons (bindex s idx) c).
Proof. by move=> e; rewrite /bget (component_shape c e). Qed.

(** ** One lattice *)
Section OneLattice.
Variables (n d : nat) (u v : nd R) (e : n.-tuple (Z * Z)).
Hypotheses (hu : one_lattice u) (hv : one_lattice v).
Let ub := nseq (ndim u).-1 1.
Let vb := nseq (ndim v).-1 1.
Let eu : nshape u = rcons ub 2. Proof. by rewrite -cats1 hu. Qed.
Let ev : nshape v = rcons vb 2. Proof. by rewrite -cats1 hv. Qed.
Hypotheses (du : size ub <= d) (dv : size vb <= d).
Let U := fin (atleast_nd u d.+1).
Let V := fin (atleast_nd v d.+1).
Definition vcomp (w : R * R) (c : nat) : R := if c == 0 then w.1 else w.2.

Lemma shapeU c : nshape (component c U) = nseq d 1.
Proof. by rewrite /U /fin; have -> : component c (nmap (@Val R) (atleast_nd u d.+1)) = nmap (@Val R) (component c (atleast_nd u d.+1)) by []; rewrite [LHS](component_atleast_shape c d eu) -nseqD size_nseq subnK //; move: du; rewrite size_nseq. Qed.
Lemma shapeV c : nshape (component c V) = nseq d 1.
Proof. by rewrite /V /fin; have -> : component c (nmap (@Val R) (atleast_nd v d.+1)) = nmap (@Val R) (component c (atleast_nd v d.+1)) by []; rewrite [LHS](component_atleast_shape c d ev) -nseqD size_nseq subnK //; move: dv; rewrite size_nseq. Qed.
Lemma getU c idx : c < 2 -> bget (component c U) idx = Val (vcomp (the_vector u) c).
Proof.
move=> hc; rewrite /U /fin -[bget _ _]/(Val (bget (component c (atleast_nd u d.+1)) idx)) (bget_component_atleast c d idx eu) bindex_ones -cats1.
by case: c hc => [|[|]].
Qed.
Lemma getV c idx : c < 2 -> bget (component c V) idx = Val (vcomp (the_vector v) c).
Proof.
move=> hc; rewrite /V /fin -[bget _ _]/(Val (bget (component c (atleast_nd v d.+1)) idx)) (bget_component_atleast c d idx ev) bindex_ones -cats1.
by case: c hc => [|[|]].
Qed.
Lemma broadcast_ones p q : broadcast_shapes (nseq p 1) (nseq q 1) = Val (nseq (maxn p q) 1).
Proof.
have [sh h _] := @broadcast_ok (nseq p 1) (nseq q 1) (nseq (maxn p q) 1)
  (conj (eq_ind_r (fun x => x <= _) (eq_ind_r (fun x => _ <= x) (leq_maxl p q) (size_nseq _ 1)) (size_nseq p 1)) (fun i => or_introl (ax_nseq1 p i)))
  (conj (eq_ind_r (fun x => x <= _) (eq_ind_r (fun x => _ <= x) (leq_maxr p q) (size_nseq _ 1)) (size_nseq q 1)) (fun i => or_introl (ax_nseq1 q i))).
have [h1 h2 _ _] := broadcast_shapesV h; rewrite h; congr Val; apply: ax_ext => [|i].
- by rewrite h1 !size_nseq.
- by rewrite h2 !ax_nseq1.
Qed.
Lemma nmap2_ok T1 T2 T3 (f : T1 -> T2 -> T3) x y sh : broadcast_shapes (nshape x) (nshape y) = Val sh ->
  exists2 z, nmap2 f x y = Val z & nshape z = sh.
Proof. by rewrite /nmap2 => ->; eexists. Qed.
Lemma cross_one : exists2 z, cross_product_b U V = Val z & nshape z = nseq d 1 /\
  forall idx, bget z idx = Val (cross_product (the_vector u) (the_vector v)).
Proof.
have bo : broadcast_shapes (nseq d 1) (nseq d 1) = Val (nseq d 1) by rewrite broadcast_ones maxnn.
rewrite /cross_product_b.
have [|a ha sa] := @nmap2_ok _ _ _ (lift2 Rmult) (component 0 U) (component 1 V) (nseq d 1); first by rewrite shapeU shapeV.
have [|b hb sb] := @nmap2_ok _ _ _ (lift2 Rmult) (component 1 U) (component 0 V) (nseq d 1); first by rewrite shapeU shapeV.
rewrite ha hb; cbn [bind].
have [|z hz sz] := @nmap2_ok _ _ _ (lift2 Rminus) a b (nseq d 1); first by rewrite sa sb.
exists z => //; split=> // idx; have [_ _ ->] := nmap2V hz; have [_ _ ->] := nmap2V ha; have [_ _ ->] := nmap2V hb.
by rewrite !getU // !getV.
Qed.
Lemma reciprocal_one : exists ur vr, [/\ reciprocal_b U V = Val (ur, vr), nshape ur = rcons (nseq d 1) 2,
  nshape vr = rcons (nseq d 1) 2 & forall c idx, c < 2 ->
   bget (component c ur) idx = rmap (fun l => vcomp (lat_u l) c) (reciprocal (Lattice (the_vector u) (the_vector v))) /\
   bget (component c vr) idx = rmap (fun l => vcomp (lat_v l) c) (reciprocal (Lattice (the_vector u) (the_vector v)))].
Proof.
have [z hz [sz gz]] := cross_one; rewrite /reciprocal_b hz; cbn [bind].
have bo : broadcast_shapes (rcons (nseq d 1) 2) (nseq d 1) = Val (rcons (nseq d 1) 2).
  have c1 : bcto (nseq d 1) (rcons (nseq d 1) 2) by split; [rewrite size_rcons|move=> i; left; rewrite ax_nseq1].
  have [sh h _] := broadcast_ok (bcto_refl _) c1; rewrite h.
  have [h1 h2 _ _] := broadcast_shapesV h; congr Val; apply: ax_ext => [|i].
  - by rewrite h1 size_rcons !size_nseq; apply/maxn_idPl.
  - by rewrite h2 ax_nseq1 /bdim; case: eqP.
have stk (x y : nd (res R)) : nshape x = nseq d 1 -> nshape y = nseq d 1 -> exists2 w, stack2 x y = Val w & nshape w = rcons (nseq d 1) 2.
  by move=> sx sy; rewrite /stack2 sx sy eqxx; eexists.
have [nu hnu snu] := stk (component 1 V) (nmap (lift1 Ropp) (component 0 V)) (shapeV 1) (shapeV 0).
have [nv hnv snv] := stk (nmap (lift1 Ropp) (component 1 U)) (component 0 U) (shapeU 1) (shapeU 0).
rewrite hnu hnv; cbn [bind].
have [|ur hur sur] := @nmap2_ok _ _ _ divR nu z (rcons (nseq d 1) 2); first by rewrite snu sz.
have [|vr hvr svr] := @nmap2_ok _ _ _ divR nv z (rcons (nseq d 1) 2); first by rewrite snv sz.
exists ur, vr; rewrite hur hvr; cbn [bind]; split=> // c idx hc.
have dv1 (x : R) : divR (Val x) (Val (cross_product (the_vector u) (the_vector v))) =
  (r <- recipR (cross_product (the_vector u) (the_vector v));; Val (x * r)%coqR) by [].
have get w x y : stack2 x y = Val w -> nshape w = rcons (nseq d 1) 2 ->
   bget w (rcons (bindex (nseq d 1) idx) c) = bget (if c == 0 then x else y) idx.
  move=> hw sw; have [sxy _ [e0 e1] g0 g1] := stack2V hw.
  case: c hc {dv1} => [|[|]] // _.
  + by rewrite -g0 (bget_component 0 idx sw) /bget sw bindex_rcons !bindex_ones.
  + by rewrite -g1 (bget_component 1 idx sw) /bget sw bindex_rcons !bindex_ones.
split.
- rewrite (bget_component c idx sur); have [_ -> _] := nmap2V hur; rewrite gz (get _ _ _ _ hnu snu).
  rewrite /reciprocal; cbn [lat_u lat_v]; case: c hc {get} => [|[|]] // _; cbn [eqn eq_op Equality.op nat_eqType].
  + by rewrite (getV idx (c := 1)) // dv1; case: recipR.
  + by rewrite bget_nmap (getV idx (c := 0)) // /lift1; cbn [rmap]; rewrite dv1; case: recipR.
- rewrite (bget_component c idx svr); have [_ -> _] := nmap2V hvr; rewrite gz (get _ _ _ _ hnv snv).
  rewrite /reciprocal; cbn [lat_u lat_v]; case: c hc {get} => [|[|]] // _; cbn [eqn eq_op Equality.op nat_eqType].
  + by rewrite bget_nmap (getU idx (c := 1)) // /lift1; cbn [rmap]; rewrite dv1; case: recipR.
  + by rewrite (getU idx (c := 0)) // dv1; case: recipR.
Qed.
End OneLattice.

Lemma broadcast_eq s t sh : bcto s sh -> bcto t sh -> size sh = maxn (size s) (size t) ->
  (forall i, bdim (ax s i) (ax t i) = ax sh i) -> broadcast_shapes s t = Val sh.
Proof.
move=> h1 h2 hs hx; have [sh' h _] := broadcast_ok h1 h2; rewrite h; congr Val.
by have [e1 e2 _ _] := broadcast_shapesV h; apply: ax_ext => [|i]; rewrite ?e1 ?e2.
Qed.
Lemma bcto_rcons s t a b : bcto s t -> a = 1 \/ a = b -> bcto (rcons s a) (rcons t b).
Proof.
case=> h1 h2 hab; split; first by rewrite !size_rcons ltnS.
by case=> [|i]; rewrite ?ax_rcons0 ?ax_rconsS.
Qed.
Lemma bcto1 a t b : a = 1 \/ a = b -> bcto [:: a] (rcons t b).
Proof. by move=> h; apply: (@bcto_rcons [::] t) => //; split=> // i; left; rewrite /ax nth_default. Qed.
Lemma ax1S a i : ax [:: a] i.+1 = 1. Proof. by rewrite ax_out. Qed.
Lemma ax10 a : ax [:: a] 0 = a. Proof. by []. Qed.
Lemma bdim1 a : bdim a 1 = a. Proof. by rewrite /bdim; case: eqP. Qed.
Lemma bindex1 n b j : j < n -> bindex [:: n] (rcons b j) = [:: j].
Proof. by move=> h; rewrite -[[:: n]]/(rcons [::] n) bindex_rcons [bindex [::] _]/=; case: eqP h => // ->; case: j. Qed.

Section Wavevectors.
Variables (n d : nat) (k u v : nd R) (e : n.-tuple (Z * Z)) (kb : seq nat).
Hypotheses (hu : one_lattice u) (hv : one_lattice v) (ek : nshape k = rcons kb 2).
Hypotheses (dk : size kb <= d) (du : size (nseq (ndim u).-1 1) <= d) (dv : size (nseq (ndim v).-1 1) <= d).
Let K := fin (atleast_nd k d.+1).
Let U := fin (atleast_nd u d.+1).
Let V := fin (atleast_nd v d.+1).
Let KB := nseq (d - size kb) 1 ++ kb.
Lemma wavevectors_one : exists kt, [/\ transverse_wavevectors_b K U V e = Val kt, nshape kt = rcons (rcons KB n) 2 &
  forall c b j, c < 2 -> j < n -> bget (component c kt) (rcons b j) =
    rmap (fun rv => (nget k (rcons (bindex kb b) c) +
       2 * PI * (IZR (nth (0, 0)%coqZ e j).1 * vcomp (lat_u rv) c + IZR (nth (0, 0)%coqZ e j).2 * vcomp (lat_v rv) c))%coqR)
     (reciprocal (Lattice (the_vector u) (the_vector v)))].
Proof.
have [ur [vr [hr su sv g]]] := reciprocal_one hu hv du dv.
rewrite /transverse_wavevectors_b -/K -/U -/V hr; cbn [bind].
pose coeffs (p : Z * Z -> Z) : nd (res R) := Nd [:: n] (fun idx => Val (IZR (p (nth (0, 0)%coqZ e (head 0 idx))))).
cbv zeta beta; rewrite -/(coeffs fst) -/(coeffs snd).
set SH := if d is d'.+1 then rcons (nseq d' 1) n else [:: n].
have sSH : size SH = maxn 1 d.
  by rewrite /SH; case: (d) => [|d'] //; rewrite size_rcons size_nseq; symmetry; apply/maxn_idPr.
have aSH i : ax SH i = if i is _.+1 then 1 else n.
  rewrite /SH; case: (d) => [|d']; first by case: i => [|i]; rewrite ?ax10 ?ax1S.
  by case: i => [|i]; rewrite ?ax_rcons0 ?ax_rconsS ?ax_nseq1.
have b1 : broadcast_shapes [:: n] (nseq d 1) = Val SH.
  apply: broadcast_eq.
  - by split=> [|[|i]]; rewrite ?sSH ?leq_maxl // aSH ?ax1S; [right|left].
  - by split=> [|i]; [rewrite sSH size_nseq leq_maxr|left; rewrite ax_nseq1].
  - by rewrite sSH size_nseq.
  - by move=> i; rewrite aSH ax_nseq1 bdim1; case: i => [|i]; rewrite ?ax1S.
have b2 : broadcast_shapes SH SH = Val SH.
  apply: broadcast_eq; rewrite ?maxnn //; [exact: bcto_refl|exact: bcto_refl|by move=> i; rewrite /bdim; case: eqP].
have sKB : size KB = d by rewrite /KB size_cat size_nseq subnK.
have b3 : broadcast_shapes (rcons KB 1) SH = Val (rcons KB n).
  apply: broadcast_eq.
  - by apply: bcto_rcons; [exact: bcto_refl|left].
  - split; first by rewrite sSH size_rcons sKB geq_max leqnSn.
    by case=> [|i]; rewrite aSH ?ax_rcons0; [right|left].
  - by rewrite !size_rcons sKB sSH maxnA (maxn_idPl (ltn0Sn d)); symmetry; apply/maxn_idPl.
  - by case=> [|i]; rewrite aSH ?ax_rcons0 ?ax_rconsS ?bdim1.
have sk c : nshape (component c K) = KB by exact: (component_atleast_shape c d ek).
have gk c b : bget (component c K) b = Val (nget k (rcons (bindex kb b) c)).
  by rewrite -(bget_component_atleast c d b ek).
have gc p b j : j < n -> bget (coeffs p) (rcons b j) = Val (IZR (p (nth (0, 0)%coqZ e j))).
  by move=> hj; rewrite /bget [nshape _]/= bindex1.
have su' c : nshape (component c ur) = nseq d 1 by rewrite (component_shape c su).
have sv' c : nshape (component c vr) = nseq d 1 by rewrite (component_shape c sv).
have along c : c < 2 -> exists2 z,
  (a <- nmap2 (lift2 Rmult) (coeffs fst) (component c ur);;
    b <- nmap2 (lift2 Rmult) (coeffs snd) (component c vr);;
    s <- nmap2 (lift2 Rplus) a b;;
    nmap2 (lift2 Rplus) (newaxis (component c K)) (nmap (lift1 (Rmult (2 * PI)%coqR)) s)) = Val z &
  nshape z = rcons KB n /\ forall b j, j < n -> bget z (rcons b j) =
    rmap (fun rv => (nget k (rcons (bindex kb b) c) +
       2 * PI * (IZR (nth (0, 0)%coqZ e j).1 * vcomp (lat_u rv) c + IZR (nth (0, 0)%coqZ e j).2 * vcomp (lat_v rv) c))%coqR)
     (reciprocal (Lattice (the_vector u) (the_vector v))).
  move=> hc.
  have [|a ha sa] := @nmap2_ok _ _ _ (lift2 Rmult) (coeffs fst) (component c ur) SH; first by rewrite su'.
  have [|b hb sb] := @nmap2_ok _ _ _ (lift2 Rmult) (coeffs snd) (component c vr) SH; first by rewrite sv'.
  rewrite ha hb; cbn [bind].
  have [|s hs ss] := @nmap2_ok _ _ _ (lift2 Rplus) a b SH; first by rewrite sa sb.
  rewrite hs; cbn [bind].
  have [|z hz sz] := @nmap2_ok _ _ _ (lift2 Rplus) (newaxis (component c K)) (nmap (lift1 (Rmult (2 * PI)%coqR)) s) (rcons KB n).
    rewrite -[nshape (newaxis _)]/(rcons (nshape (component c K)) 1) (sk c).
    by rewrite -[nshape (nmap _ _)]/(nshape s) ss.
  exists z => //; split=> // b' j hj.
  have [_ _ ->] := nmap2V hz; rewrite bget_newaxis gk bget_nmap; have [_ _ ->] := nmap2V hs.
  have [_ _ ->] := nmap2V ha; have [_ _ ->] := nmap2V hb; rewrite !gc //.
  by have [-> ->] := g c (rcons b' j) hc; case: reciprocal.
have [kx hx [sx gx]] := along 0 isT; have [ky hy [sy gy]] := along 1 isT.
rewrite hx hy; cbn [bind].
have hst : stack2 kx ky = Val (Nd (rcons (nshape kx) 2) (fun idx =>
     nget (if last 0 idx == 0 then kx else ky) (take (size idx).-1 idx))) by rewrite /stack2 sx sy eqxx.
have [_ h2 _ h3 h4] := stack2V hst.
eexists; split; [exact: hst|by rewrite h2 sx|].
by case=> [|[|]] // b j _ hj; [rewrite h3 gx|rewrite h4 gy].
Qed.
End Wavevectors.

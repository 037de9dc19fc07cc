(** C34: unflattening. *)
From Coq Require Import Reals ZArith Lra Lia.
From mathcomp Require Import all_ssreflect all_algebra.
From Verif Require Import CField Err LinAlg Tac M_utils M_basis S_fields S_fft S_basis L_basis P_basis P_utils M_nd M_farfield S_farfield.
Set Implicit Arguments. Unset Strict Implicit. Unset Printing Implicit Defensive.

Lemma foldminP (s : seq Z) x : let m := foldl Z.min x s in
  (m = x \/ m \in s) /\ (m <= x)%coqZ /\ forall y, y \in s -> (m <= y)%coqZ.
Proof.
elim: s x => [|y s IH] x /=; first by split; [left|split=> //; lia].
have [h1 [h2 h3]] := IH (Z.min x y); split.
  case: h1 => [->|h]; last by right; rewrite inE h orbT.
  by case: (Z.min_spec x y) => [[_ ->]|[_ ->]]; [left|right; rewrite inE eqxx].
split; first by lia.
by move=> z; rewrite inE => /orP [/eqP ->|/h3 //]; lia.
Qed.
Lemma foldmaxP (s : seq Z) x : let m := foldl Z.max x s in
  (m = x \/ m \in s) /\ (x <= m)%coqZ /\ forall y, y \in s -> (y <= m)%coqZ.
Proof.
elim: s x => [|y s IH] x /=; first by split; [left|split=> //; lia].
have [h1 [h2 h3]] := IH (Z.max x y); split.
  case: h1 => [->|h]; last by right; rewrite inE h orbT.
  by case: (Z.max_spec x y) => [[_ ->]|[_ ->]]; [right; rewrite inE eqxx|left].
split; first by lia.
by move=> z; rewrite inE => /orP [/eqP ->|/h3 //]; lia.
Qed.
Lemma minZP n (expn : n.-tuple (Z * Z)) (c : Z * Z -> Z) : n != 0 -> lowest expn c (minZ [seq c x | x <- expn]).
Proof.
move=> n0; rewrite /lowest /minZ.
have [h1 [h2 h3]] := foldminP (behead [seq c x | x <- expn]) (head 0%coqZ [seq c x | x <- expn]).
have A z : z = head 0%coqZ [seq c x | x <- expn] \/ z \in behead [seq c x | x <- expn] <-> z \in [seq c x | x <- expn].
  have : size [seq c x | x <- expn] != 0 by rewrite size_map size_tuple.
  case: [seq c x | x <- expn] => //= a s _; rewrite inE.
  by split=> [[->|->]|/orP [/eqP ->|->]]; rewrite ?eqxx ?orbT; auto.
split.
  by move/A: h1 => /mapP [x /tnthP [t ->] e]; exists t.
move=> t; have /A [->//|/h3 //] : c (tnth expn t) \in [seq c x | x <- expn] by apply: map_f; exact: mem_tnth.
Qed.
Lemma maxZP n (expn : n.-tuple (Z * Z)) (c : Z * Z -> Z) : n != 0 -> highest expn c (maxZ [seq c x | x <- expn]).
Proof.
move=> n0; rewrite /highest /maxZ.
have [h1 [h2 h3]] := foldmaxP (behead [seq c x | x <- expn]) (head 0%coqZ [seq c x | x <- expn]).
have A z : z = head 0%coqZ [seq c x | x <- expn] \/ z \in behead [seq c x | x <- expn] <-> z \in [seq c x | x <- expn].
  have : size [seq c x | x <- expn] != 0 by rewrite size_map size_tuple.
  case: [seq c x | x <- expn] => //= a s _; rewrite inE.
  by split=> [[->|->]|/orP [/eqP ->|->]]; rewrite ?eqxx ?orbT; auto.
split.
  by move/A: h1 => /mapP [x /tnthP [t ->] e]; exists t.
move=> t; have /A [->//|/h3 //] : c (tnth expn t) \in [seq c x | x <- expn] by apply: map_f; exact: mem_tnth.
Qed.

(** Positions are determined by, and determine, the order and the point of the zone. *)
Lemma merged_inj lo o o' num a a' : (lo <= o)%coqZ -> (lo <= o')%coqZ -> (a < num)%N -> (a' < num)%N ->
  merged lo o num a = merged lo o' num a' -> o = o' /\ a = a'.
Proof.
move=> h h' ha ha' e; have np : (0 < num)%N by apply: leq_ltn_trans ha.
have eq : Z.to_nat (o - lo) = Z.to_nat (o' - lo).
  by move/(congr1 (fun x => x %/ num)): e; rewrite /merged !divnMDl // !divn_small // !addn0.
split; first by lia.
by move/(congr1 (fun x => x %% num)): e; rewrite /merged !modnMDl !modn_small.
Qed.
Lemma merged_lt lo hi o num a : (lo <= o <= hi)%coqZ -> (a < num)%N -> (merged lo o num a < merged_size lo hi num)%N.
Proof.
move=> h ha; rewrite /merged /merged_size.
have : (Z.to_nat (o - lo)).+1 <= Z.to_nat (hi - lo + 1) by apply/leP; lia.
move=> h1; apply: leq_trans (leq_mul h1 (leqnn num)); rewrite mulSn addnC ltn_add2r //.
Qed.

Definition decode n1 n s := (s %/ (n1 * n), (s %/ n) %% n1, s %% n).
Lemma decodeK n1 n a b t : b < n1 -> t < n -> decode n1 n ((a * n1 + b) * n + t) = (a, b, t).
Proof.
move=> hb ht; have n0 : 0 < n by apply: leq_ltn_trans ht.
have n10 : 0 < n1 by apply: leq_ltn_trans hb.
have e1 : ((a * n1 + b) * n + t) %/ n = a * n1 + b by rewrite divnMDl // divn_small // addn0.
by rewrite /decode (mulnC n1 n) divnMA e1 divnMDl // (divn_small hb) addn0 modnMDl (modn_small hb) modnMDl modn_small.
Qed.
Lemma decodeP n1 n n0 s : s < n0 * n1 * n -> exists a b t, decode n1 n s = (a, b, t) /\
  [/\ a < n0, b < n1, t < n & s = (a * n1 + b) * n + t].
Proof.
move=> hs; have : 0 < n0 * n1 * n by apply: leq_ltn_trans hs.
rewrite !muln_gt0 => /andP [/andP [p0 p1] p].
do 3 eexists; split; first by []. split.
- by rewrite ltn_divLR ?muln_gt0 ?p1 // mulnA.
- by rewrite ltn_mod.
- by rewrite ltn_mod.
by rewrite (mulnC n1 n) divnMA -divn_eq -divn_eq.
Qed.

(** ** C34 *)
(** Every element of the flat array is found at the place of its order and zone point, and all
    other places are nan. *)
Theorem C34_unflatten T n (flat : nd T) (expn : n.-tuple (Z * Z)) batch n0 n1 :
  distinct expn -> n != 0 -> nshape flat = batch ++ [:: n0; n1; n] ->
  exists out ilo ihi jlo jhi, unflatten flat expn = Val out /\
  [/\ lowest expn fst ilo, highest expn fst ihi, lowest expn snd jlo & highest expn snd jhi] /\
  nshape out = batch ++ [:: merged_size ilo ihi n0; merged_size jlo jhi n1] /\
  forall idx, size idx = size batch ->
  (forall a b (t : 'I_n), a < n0 -> b < n1 ->
     nget out (idx ++ [:: merged ilo (tnth expn t).1 n0 a; merged jlo (tnth expn t).2 n1 b])
     = Some (nget flat (idx ++ [:: a; b; nat_of_ord t]))) /\
  (forall p q,
     (forall a b (t : 'I_n), a < n0 -> b < n1 ->
        p <> merged ilo (tnth expn t).1 n0 a \/ q <> merged jlo (tnth expn t).2 n1 b) ->
     nget out (idx ++ [:: p; q]) = None).
Proof.
move=> di n_0 hs; rewrite /unflatten /ndim.
have sz : size (nshape flat) = size batch + 3 by rewrite hs size_cat.
have nt x k : nth 0 (batch ++ x) (size batch + k) = nth 0 x k by rewrite nth_cat ltnNge leq_addr /= addKn.
have nt' (idx : seq nat) x k : size idx = size batch -> nth 0 (idx ++ x) (size batch + k) = nth 0 x k.
  by move=> <-; rewrite nth_cat ltnNge leq_addr /= addKn.
have d3 : size batch + 3 - 3 = size batch + 0 by rewrite addn0 addnK.
have d2 : size batch + 3 - 2 = size batch + 1 by natlia.
have d1 : size batch + 3 - 1 = size batch + 2 by natlia.
have l3 : 3 <= size batch + 3 by rewrite leq_addl.
rewrite sz l3 d1 d2 d3 hs !nt /= eqxx n_0 addn0 take_size_cat //=.
have L1 := minZP expn fst n_0; have L2 := minZP expn snd n_0.
have H1 := maxZP expn fst n_0; have H2 := maxZP expn snd n_0.
set ilo := minZ [seq fst c | c <- expn] in L1 *; set jlo := minZ [seq snd c | c <- expn] in L2 *.
set ihi := maxZ [seq fst c | c <- expn] in H1 *; set jhi := maxZ [seq snd c | c <- expn] in H2 *.
clearbody ilo jlo ihi jhi.
eexists; exists ilo, ihi, jlo, jhi; split; first reflexivity.
split; first by split.
have M (lo hi : Z) num c : lowest expn c lo -> highest expn c hi ->
    Z.to_nat ((hi - lo + 1) * Z.of_nat num) = merged_size lo hi num.
  move=> [[t <-] _] [_ /(_ t) h]; rewrite /merged_size.
  by rewrite Z2Nat.inj_mul ?Nat2Z.id //; lia.
split; first by rewrite (M _ _ _ _ L1 H1) (M _ _ _ _ L2 H2).
move=> idx si.
have nn (t : 'I_n) (c : Z * Z -> Z) : nth 0%coqZ [seq c x | x <- expn] t = c (tnth expn t).
  by rewrite (nth_map (0, 0)%coqZ) ?size_tuple // -tnth_nth.
have P (t : 'I_n) (lo : Z) num bz c p : lowest expn c lo ->
   Z.eqb (c (tnth expn t) * Z.of_nat num + Z.of_nat bz - lo * Z.of_nat num)%coqZ (Z.of_nat p)
   = (merged lo (c (tnth expn t)) num bz == p).
  move=> [_ /(_ t) h]; rewrite /merged; apply/Z_eqP/eqP; move: (c _) h => z h.
    move=> e; apply: Nat2Z.inj; rewrite -e; change addn with Nat.add; change muln with Nat.mul.
    by rewrite Nat2Z.inj_add Nat2Z.inj_mul Z2Nat.id; lia.
  move=> <-; change addn with Nat.add; change muln with Nat.mul.
  by rewrite Nat2Z.inj_add Nat2Z.inj_mul Z2Nat.id; lia.
have nz : 0 < n by rewrite lt0n.
pose tt s : 'I_n := Ordinal (ltn_pmod s nz).
have F p q : [seq s <- iota 0 (n0 * n1 * n)
       | Z.eqb (nth 0 [seq c.1 | c <- expn] (s %% n) * Z.of_nat n0 + Z.of_nat (s %/ (n1 * n)) - ilo * Z.of_nat n0)%coqZ (Z.of_nat p)
       & Z.eqb (nth 0 [seq c.2 | c <- expn] (s %% n) * Z.of_nat n1 + Z.of_nat ((s %/ n) %% n1) - jlo * Z.of_nat n1)%coqZ (Z.of_nat q)]
  = [seq s <- iota 0 (n0 * n1 * n)
       | (merged ilo (tnth expn (tt s)).1 n0 (decode n1 n s).1.1 == p)
       & (merged jlo (tnth expn (tt s)).2 n1 (decode n1 n s).1.2 == q)].
  apply: eq_filter => s; rewrite -[s %% n]/(nat_of_ord (tt s)).
  by rewrite (nn (tt s) fst) (nn (tt s) snd) (P _ _ _ _ _ _ L1) (P _ _ _ _ _ _ L2).
have nt0 (x : seq nat) : nth 0 (idx ++ x) (size batch) = nth 0 x 0 by rewrite -[size batch]addn0 nt'.
split=> [a b t ha hb|p q hpq]; cbn [nget]; rewrite !nt0 !nt' // !F.
- pose s0 := (a * n1 + b) * n + t.
  have m0 : s0 \in iota 0 (n0 * n1 * n).
    rewrite mem_iota add0n leq0n /= /s0.
    have h1 : a * n1 + b < n0 * n1.
      by apply: leq_trans (leq_mul ha (leqnn n1)); rewrite mulSn addnC ltn_add2r.
    by apply: leq_trans (leq_mul h1 (leqnn n)); rewrite mulSn addnC ltn_add2r.
  have ds0 : decode n1 n s0 = (a, b, nat_of_ord t) by exact: decodeK.
  have E : [seq s <- iota 0 (n0 * n1 * n)
       | (merged ilo (tnth expn (tt s)).1 n0 (decode n1 n s).1.1 == merged ilo (tnth expn t).1 n0 a)
       & (merged jlo (tnth expn (tt s)).2 n1 (decode n1 n s).1.2 == merged jlo (tnth expn t).2 n1 b)] = [:: s0].
    rewrite -(filter_pred1_uniq (iota_uniq 0 _) m0); apply: eq_in_filter => s; rewrite mem_iota add0n leq0n andTb => hs'.
    have [a' [b' [t' [hd [ha' hb' ht' es]]]]] := decodeP hs'; rewrite hd; cbn [fst snd].
    apply/andP/eqP.
      move=> [/eqP e1 /eqP e2].
      have [o1 ea] := merged_inj (proj2 L1 _) (proj2 L1 _) ha' ha e1.
      have [o2 eb] := merged_inj (proj2 L2 _) (proj2 L2 _) hb' hb e2.
      have et : tt s = t by apply: di; apply: injective_projections.
      have : t' = t by rewrite -et; case: hd => _ _ <-.
      by move=> et'; rewrite es ea eb et'.
    move=> es0; move: hd; rewrite es0 ds0 => -[-> -> _].
    have -> : tt s0 = t; last by [].
    by apply: val_inj; case: ds0.
  rewrite E /= take_size_cat //; case: ds0 => -> -> ->.
  by [].
- have -> : [seq s <- iota 0 (n0 * n1 * n)
       | (merged ilo (tnth expn (tt s)).1 n0 (decode n1 n s).1.1 == p)
       & (merged jlo (tnth expn (tt s)).2 n1 (decode n1 n s).1.2 == q)] = [::].
    rewrite -(filter_pred0 (iota 0 (n0 * n1 * n))); apply: eq_in_filter => s; rewrite mem_iota add0n leq0n andTb => hs'.
    have [a' [b' [t' [hd [ha' hb' ht' es]]]]] := decodeP hs'; rewrite hd; cbn [fst snd].
    by case: (hpq a' b' (tt s) ha' hb') => h; apply/negbTE/negP => /andP [/eqP h1 /eqP h2]; apply: h.
  by [].
Qed.
Print Assumptions C34_unflatten.
(** No two elements share a place, and every place lies in the array. *)
Theorem C34_places n (expn : n.-tuple (Z * Z)) n0 n1 ilo ihi jlo jhi :
  distinct expn -> lowest expn fst ilo -> highest expn fst ihi -> lowest expn snd jlo -> highest expn snd jhi ->
  forall a b (t : 'I_n), a < n0 -> b < n1 ->
  [/\ merged ilo (tnth expn t).1 n0 a < merged_size ilo ihi n0, merged jlo (tnth expn t).2 n1 b < merged_size jlo jhi n1 &
   forall a' b' (t' : 'I_n), a' < n0 -> b' < n1 ->
     merged ilo (tnth expn t).1 n0 a = merged ilo (tnth expn t').1 n0 a' ->
     merged jlo (tnth expn t).2 n1 b = merged jlo (tnth expn t').2 n1 b' ->
     [/\ a = a', b = b' & t = t']].
Proof.
move=> di [_ L1] [_ H1] [_ L2] [_ H2] a b t ha hb; split; try by apply: merged_lt.
move=> a' b' t' ha' hb' e1 e2.
have [o1 ea] := merged_inj (L1 _) (L1 _) ha ha' e1.
have [o2 eb] := merged_inj (L2 _) (L2 _) hb hb' e2.
by split=> //; apply: di; apply: injective_projections.
Qed.
Print Assumptions C34_places.

Lemma transpose_gather T (x : nd T) axes idx : size idx = ndim x ->
  (forall k, k < ndim x -> k \in axes) ->
  nget (transpose x axes) (gather idx axes) = nget x idx.
Proof.
move=> si h; rewrite /transpose /=; congr nget.
apply: (@eq_from_nth _ 0); rewrite size_map size_iota ?si // => k hk.
rewrite (nth_map 0) ?size_iota // nth_iota // add0n /gather (nth_map 0); last by rewrite index_mem h.
by rewrite nth_index // h.
Qed.
(** Indices are recovered from their permutation. *)
Lemma gather_onto idx axes d : size idx = size axes -> perm_eq axes (iota 0 d) ->
  exists idx', size idx' = d /\ idx = gather idx' axes.
Proof.
move=> si pa; exists [seq nth 0 idx (index k axes) | k <- iota 0 d]; rewrite size_map size_iota; split=> //.
have sz : size axes = d by rewrite (perm_size pa) size_iota.
have ua : uniq axes by rewrite (perm_uniq pa) iota_uniq.
rewrite /gather; apply: (@eq_from_nth _ 0); first by rewrite size_map.
move=> k hk; rewrite si in hk.
have ak : nth 0 axes k < d by have := mem_nth 0 hk; rewrite (perm_mem pa) mem_iota.
by rewrite (nth_map 0) // (nth_map 0) ?size_iota // nth_iota // add0n index_uniq.
Qed.
Lemma filter_pair m x y : x < y < m -> [seq k <- iota 0 m | (k == x) || (k == y)] = [:: x; y].
Proof.
move=> /andP [xy ym]; apply: (@irr_sorted_eq _ ltn ltn_trans ltnn).
- by apply: sorted_filter; [exact: ltn_trans|exact: iota_ltn_sorted].
- by rewrite /= xy.
- move=> k; rewrite mem_filter mem_iota !inE add0n leq0n andTb.
  by case: eqP => [->|_]; case: eqP => [->|_] //=; rewrite ?ym // (ltn_trans xy ym).
Qed.
Section Axes.
Variables (d x y : nat) (bz : seq nat).
Hypothesis (xy : x < y < d - 2) (hbz : bz =i [:: x; y]).
Lemma d4 : 4 <= d. Proof. by move: xy => /andP [] *; natlia. Qed.
Lemma size_others : size (others d x y) = d - 4.
Proof.
have /eqP := count_predC (fun k => (k == x) || (k == y)) (iota 0 (d - 2)).
rewrite -!size_filter (filter_pair xy) size_iota /=.
have -> : [seq k <- iota 0 (d - 2) | predC (fun k => (k == x) || (k == y)) k] = others d x y.
  by apply: eq_filter => k /=; rewrite negb_or.
by move/eqP => e; have := d4; natlia.
Qed.
Lemma batch_axesE : [seq i <- iota 0 d.+1 | i \notin bz ++ [:: d.+1 - 2]] = others d x y ++ [:: d - 2; d].
Proof.
have dd := d4; have -> : d.+1 = (d - 2) + 3 by natlia.
rewrite iotaD filter_cat add0n; congr (_ ++ _).
  apply: eq_in_filter => k; rewrite mem_iota add0n /= mem_cat hbz !inE => hk.
  have -> : (k == d - 2 + 3 - 2) = false by apply/eqP; natlia.
  by rewrite orbF negb_or.
case/andP: xy => h1 h2.
have N k : d - 2 <= k -> (k \notin bz ++ [:: d - 2 + 3 - 2]) = (k != (d - 1)).
  move=> hk; rewrite mem_cat hbz !inE.
  have -> : (k == x) = false by apply/eqP; natlia.
  have -> : (k == y) = false by apply/eqP; natlia.
  by have -> : d - 2 + 3 - 2 = d - 1 by natlia.
rewrite /= !N ?leqnn //; try natlia.
have -> : (d - 2 != d - 1) by apply/eqP; natlia.
have -> : ((d - 2).+1 != d - 1) = false by apply/negbTE/negPn/eqP; natlia.
have -> : ((d - 2).+2 != d - 1) by apply/eqP; natlia.
by congr [:: _; _]; natlia.
Qed.
Lemma flux_axesE : let b := others d x y ++ [:: d - 2; d] in
  b ++ [seq i <- iota 0 d.+1 | i \notin b] = others d x y ++ [:: d - 2; d; x; y; d - 1].
Proof.
case/andP: xy => h1 h2; have dd := d4; move=> b; rewrite /b -catA; congr (_ ++ _).
rewrite -[[:: d - 2; d; x; y; d - 1]]/([:: d - 2; d] ++ [:: x; y; d - 1]); congr (_ ++ _).
have -> : [seq i <- iota 0 d.+1 | i \notin others d x y ++ [:: d - 2; d]]
  = [seq k <- iota 0 d.+1 | (k == x) || (k == y) || (k == d - 1)].
  apply: eq_in_filter => k; rewrite mem_iota add0n leq0n andTb => hk.
  rewrite mem_cat mem_filter mem_iota add0n !inE leq0n andTb.
  case: (ltnP k (d - 2)) => h.
    have -> : (k == d - 2) = false by apply/eqP; natlia.
    have -> : (k == d) = false by apply/eqP; natlia.
    have -> : (k == d - 1) = false by apply/eqP; natlia.
    by rewrite andbT !orbF negb_and !negbK.
  have -> : (k == x) = false by apply/eqP; natlia.
  have -> : (k == y) = false by apply/eqP; natlia.
  rewrite andbF /=; case: eqP => e1; case: eqP => e2; case: eqP => e3 //; natlia.
apply: (@irr_sorted_eq _ ltn ltn_trans ltnn).
- by apply: sorted_filter; [exact: ltn_trans|exact: iota_ltn_sorted].
- by rewrite /= h1 andbT /=; natlia.
- move=> k; rewrite mem_filter mem_iota !inE add0n leq0n andTb -orbA.
  case: eqP => [->|_]; first by have -> : x < d.+1 by natlia.
  case: eqP => [->|_]; first by have -> : y < d.+1 by natlia.
  by case: eqP => [->|_] //; have -> : d - 1 < d.+1 by natlia.
Qed.
Lemma flux_axes_perm : perm_eq (others d x y ++ [:: d - 2; d; x; y; d - 1]) (iota 0 d.+1).
Proof.
rewrite -flux_axesE -batch_axesE.
set b := [seq i <- iota 0 d.+1 | _].
have -> : [seq i <- iota 0 d.+1 | i \notin b] = [seq i <- iota 0 d.+1 | predC (fun i => i \notin bz ++ [:: d.+1 - 2]) i].
  by apply: eq_in_filter => k hk; rewrite /b mem_filter hk andbT.
exact: permEl (perm_filterC _ _).
Qed.
End Axes.
Lemma bz_sorted x y d (a b : Z) : absolute_axes [:: a; b] d = Val [:: Z.of_nat x; Z.of_nat y] ->
  x != y -> map Z.to_nat [:: Z.of_nat x; Z.of_nat y] =i [:: minn x y; maxn x y].
Proof.
move=> _ _ k; rewrite /= !Nat2Z.id !inE /minn /maxn; case: ltnP => h //.
by rewrite orbC.
Qed.
(** The general statement for fluxes: the zone grid may be on any two axes [x], [y], and the
    other axes are kept in order. *)
Theorem C34_flux T n (flux : nd T) (expn : n.-tuple (Z * Z)) (axes : Z * Z) x y :
  let d := ndim flux in let sh := nshape flux in
  let lo := minn x y in let hi := maxn x y in
  distinct expn -> n != 0 -> nth 0 sh (d - 2) = 2 * n ->
  absolute_axes [:: axes.1; axes.2] d = Val [:: Z.of_nat x; Z.of_nat y] ->
  x != y -> x < d - 2 -> y < d - 2 ->
  exists out ilo ihi jlo jhi, unflatten_flux flux expn axes = Val out /\
  [/\ lowest expn fst ilo, highest expn fst ihi, lowest expn snd jlo & highest expn snd jhi] /\
  nshape out = gather sh (others d lo hi) ++
    [:: merged_size ilo ihi (nth 0 sh lo); merged_size jlo jhi (nth 0 sh hi); 2; nth 0 sh (d - 1)] /\
  (forall idx pol (t : 'I_n), size idx = d -> nth 0 idx lo < nth 0 sh lo -> nth 0 idx hi < nth 0 sh hi ->
     nth 0 idx (d - 2) = pol * n + t ->
     nget out (gather idx (others d lo hi) ++
       [:: merged ilo (tnth expn t).1 (nth 0 sh lo) (nth 0 idx lo);
           merged jlo (tnth expn t).2 (nth 0 sh hi) (nth 0 idx hi); pol; nth 0 idx (d - 1)])
     = Some (nget flux idx)) /\
  (forall idx p q pol s, size idx = d - 4 ->
     (forall a b (t : 'I_n), a < nth 0 sh lo -> b < nth 0 sh hi ->
        p <> merged ilo (tnth expn t).1 (nth 0 sh lo) a \/ q <> merged jlo (tnth expn t).2 (nth 0 sh hi) b) ->
     nget out (idx ++ [:: p; q; pol; s]) = None).
Proof.
move=> d sh lo hi di n0 h2 hab nxy hx hy.
have lohi : lo < hi < d - 2.
  rewrite /lo /hi /minn /maxn; move: nxy; rewrite neq_ltn; case: (ltnP x y) => h.
    by rewrite h hy.
  by move=> /= h'; rewrite h' hx.
have dd := d4 lohi; have so := size_others lohi.
have hbz := bz_sorted hab nxy.
have ax0 := batch_axesE lohi hbz; have ax1 := flux_axesE lohi; have axp := flux_axes_perm lohi hbz.
rewrite /unflatten_flux -/d dd -/sh h2 eqxx hab; cbn [check bind].
rewrite ax0 ax1.
set fl := Nd _ _.
have std T' (u : seq T') : size u = d -> size (take (d - 2) u) = d - 2.
  by move=> su; rewrite size_takel // su; natlia.
have sf : ndim fl = d.+1 by rewrite /ndim size_cat std //=; natlia.
have shf k : k < d - 2 -> nth 0 (nshape fl) k = nth 0 sh k.
  by move=> hk; rewrite /= nth_cat std // hk nth_take.
have shf' k : nth 0 (nshape fl) (d - 2 + k) = nth 0 [:: 2; n; nth 0 sh (d - 1)] k.
  by rewrite /= nth_cat std // ltnNge leq_addr /= addKn.
have tsh : nshape (transpose fl (others d lo hi ++ [:: d - 2; d; lo; hi; d - 1]))
  = (gather sh (others d lo hi) ++ [:: 2; nth 0 sh (d - 1)]) ++ [:: nth 0 sh lo; nth 0 sh hi; n].
  have e2 : nth 0 (nshape fl) (d - 2) = 2 by rewrite -[d - 2]addn0 shf'.
  have ed : nth 0 (nshape fl) d = nth 0 sh (d - 1).
    by have := shf' 2; have -> : d - 2 + 2 = d by natlia.
  have e1 : nth 0 (nshape fl) (d - 1) = n by have := shf' 1; have -> : d - 2 + 1 = d - 1 by natlia.
  case/andP: (lohi) => l1 l2.
  rewrite [LHS]/(gather (nshape fl) _) /gather map_cat -catA; congr (_ ++ _).
    apply/eq_in_map => k; rewrite mem_filter mem_iota add0n => /andP [_ /andP [_ hk]].
    exact: shf.
  by cbn [map]; rewrite e2 ed e1 !shf //; natlia.
have [out [ilo [ihi [jlo [jhi [hu [ext [osh get]]]]]]]] := C34_unflatten di n0 tsh.
rewrite hu; cbn [bind].
have so' : size (gather sh (others d lo hi)) = d - 4 by rewrite size_map so.
have mo : ndim out = d by rewrite /ndim osh !size_cat so' /=; natlia.
have dE : d = d - 4 + 4 by natlia.
eexists; exists ilo, ihi, jlo, jhi; split; first reflexivity.
split; first exact: ext.
rewrite mo; set F := iota 0 (d - 4) ++ _.
have GF (u : seq nat) a b p q : size u = d - 4 -> gather (u ++ [:: a; b; p; q]) F = u ++ [:: p; q; a; b].
  move=> su; have -> : F = iota 0 (size u) ++ [:: size u + 2; size u + 3; size u + 0; size u + 1].
    by rewrite /F su; congr (_ ++ [:: _; _; _; _]); natlia.
  rewrite /gather map_cat /=; congr (_ ++ _).
    rewrite -[RHS](take_size u) -(map_nth_iota0 0) //; apply/eq_in_map => k; rewrite mem_iota add0n /= => hk.
    by rewrite nth_cat hk.
  by rewrite !nth_cat !(ltnNge _ (size u)) !leq_addr /= !addKn.
have Fk k : k < ndim out -> k \in F.
  rewrite mo mem_cat mem_iota add0n leq0n andTb !inE => hk.
  case: (ltnP k (d - 4)) => //= h4; case: eqP => // f1; case: eqP => // f2; case: eqP => // f3; case: eqP => // f4; natlia.
split; first by rewrite [LHS]/(gather (nshape out) F) osh -catA !cat_cons cat0s; exact: GF.
split.
- move=> idx pol t si hlo hhi hpt.
  pose idx' := take (d - 2) idx ++ [:: pol; nat_of_ord t; nth 0 idx (d - 1)].
  have st : size (take (d - 2) idx) = d - 2 by exact: std.
  have si' : size idx' = ndim fl by rewrite sf size_cat st /=; natlia.
  have n1' k : k < d - 2 -> nth 0 idx' k = nth 0 idx k by move=> hk; rewrite nth_cat st hk nth_take.
  have n2' k : nth 0 idx' (d - 2 + k) = nth 0 [:: pol; nat_of_ord t; nth 0 idx (d - 1)] k.
    by rewrite nth_cat st ltnNge leq_addr /= addKn.
  case/andP: (lohi) => l1 l2.
  have e2 : nth 0 idx' (d - 2) = pol by rewrite -[d - 2]addn0 n2'.
  have e1 : nth 0 idx' (d - 1) = t by have := n2' 1; have -> : d - 2 + 1 = d - 1 by natlia.
  have e0 : nth 0 idx' d = nth 0 idx (d - 1) by have := n2' 2; have -> : d - 2 + 2 = d by natlia.
  have G1 : gather idx' (others d lo hi ++ [:: d - 2; d; lo; hi; d - 1])
    = (gather idx (others d lo hi) ++ [:: pol; nth 0 idx (d - 1)]) ++ [:: nth 0 idx lo; nth 0 idx hi; nat_of_ord t].
    rewrite /gather map_cat -catA; congr (_ ++ _).
      by apply/eq_in_map => k; rewrite mem_filter mem_iota add0n => /andP [_ /andP [_ hk]]; exact: n1'.
    by cbn [map]; rewrite e2 e0 e1 !n1' //; natlia.
  have sg : size (gather idx (others d lo hi) ++ [:: pol; nth 0 idx (d - 1)]) =
    size (gather sh (others d lo hi) ++ [:: 2; nth 0 sh (d - 1)]) by rewrite !size_cat !size_map.
  have [h1 _] := get _ sg.
  rewrite -(GF _ pol (nth 0 idx (d - 1))); last by rewrite size_map so.
  rewrite transpose_gather //; last by rewrite mo size_cat size_map so /=; natlia.
  rewrite -[[:: pol; _; _; _]]/([:: pol; nth 0 idx (d - 1)] ++ [:: _; _]) catA h1 // -G1 transpose_gather //; last first.
    by move=> k; rewrite sf (perm_mem axp) mem_iota add0n leq0n.
  rewrite /fl; cbn [nget]; rewrite e2 e1 e0 -hpt take_size_cat //; congr (Some (nget flux _)).
  rewrite -[RHS](cat_take_drop (d - 2)); congr (_ ++ _).
  apply: (@eq_from_nth _ 0); first by rewrite size_drop si /=; natlia.
  by move=> [|[|k]] //= _; rewrite nth_drop; congr nth; natlia.
- move=> idx p q pol s si hno.
  rewrite -(GF _ pol s) // transpose_gather //; last by rewrite mo size_cat si /=; natlia.
  have sg : size (idx ++ [:: pol; s]) = size (gather sh (others d lo hi) ++ [:: 2; nth 0 sh (d - 1)]).
    by rewrite !size_cat size_map so si.
  have [_ h2'] := get _ sg.
  by rewrite -[[:: pol; s; p; q]]/([:: pol; s] ++ [:: p; q]) catA h2'.
Qed.
Print Assumptions C34_flux.

Section Axes2.
Variables (d x y : nat) (bz : seq nat).
Hypothesis (xy : x < y < d - 2) (hbz : bz =i [:: x; y]).
Lemma kt_batch_axesE : [seq i <- iota 0 d | i \notin bz ++ [:: d - 2]] = others d x y ++ [:: d - 1].
Proof.
have dd := d4 xy.
have -> : iota 0 d = iota 0 (d - 2) ++ iota (d - 2) 2 by rewrite -[d - 2 in RHS]add0n -iotaD; congr iota; natlia.
rewrite filter_cat; congr (_ ++ _).
  apply: eq_in_filter => k; rewrite mem_iota add0n /= mem_cat hbz !inE => hk.
  have -> : (k == d - 2) = false by apply/eqP; natlia.
  by rewrite orbF negb_or.
case/andP: xy => h1 h2.
have N k : d - 2 <= k -> (k \notin bz ++ [:: d - 2]) = (k != (d - 2)).
  move=> hk; rewrite mem_cat hbz !inE.
  have -> : (k == x) = false by apply/eqP; natlia.
  by have -> : (k == y) = false by apply/eqP; natlia.
rewrite /= !N ?leqnn // eqxx /=.
have -> : ((d - 2).+1 != d - 2) by apply/eqP; natlia.
by congr [:: _]; natlia.
Qed.
Lemma kt_axesE : let b := others d x y ++ [:: d - 1] in
  b ++ [seq i <- iota 0 d | i \notin b] = others d x y ++ [:: d - 1; x; y; d - 2].
Proof.
case/andP: xy => h1 h2; have dd := d4 xy; move=> b; rewrite /b -catA; congr (_ ++ _).
rewrite -[[:: d - 1; x; y; d - 2]]/([:: d - 1] ++ [:: x; y; d - 2]); congr (_ ++ _).
have -> : [seq i <- iota 0 d | i \notin others d x y ++ [:: d - 1]]
  = [seq k <- iota 0 d | (k == x) || (k == y) || (k == d - 2)].
  apply: eq_in_filter => k; rewrite mem_iota add0n leq0n andTb => hk.
  rewrite mem_cat mem_filter mem_iota add0n !inE leq0n andTb.
  case: (ltnP k (d - 2)) => h.
    have -> : (k == d - 2) = false by apply/eqP; natlia.
    have -> : (k == d - 1) = false by apply/eqP; natlia.
    by rewrite andbT !orbF negb_and !negbK.
  have -> : (k == x) = false by apply/eqP; natlia.
  have -> : (k == y) = false by apply/eqP; natlia.
  rewrite andbF /=; case: eqP => e1; case: eqP => e2 //; natlia.
apply: (@irr_sorted_eq _ ltn ltn_trans ltnn).
- by apply: sorted_filter; [exact: ltn_trans|exact: iota_ltn_sorted].
- by rewrite /= h1 andbT /=; natlia.
- move=> k; rewrite mem_filter mem_iota !inE add0n leq0n andTb -orbA.
  case: eqP => [->|_]; first by have -> : x < d by natlia.
  case: eqP => [->|_]; first by have -> : y < d by natlia.
  by case: eqP => [->|_] //; have -> : d - 2 < d by natlia.
Qed.
Lemma kt_axes_perm : perm_eq (others d x y ++ [:: d - 1; x; y; d - 2]) (iota 0 d).
Proof.
rewrite -kt_axesE -kt_batch_axesE.
set b := [seq i <- iota 0 d | _].
have -> : [seq i <- iota 0 d | i \notin b] = [seq i <- iota 0 d | predC (fun i => i \notin bz ++ [:: d - 2]) i].
  by apply: eq_in_filter => k hk; rewrite /b mem_filter hk andbT.
exact: permEl (perm_filterC _ _).
Qed.
End Axes2.
(** The general statement for transverse wavevectors. *)
Theorem C34_wavevectors T n (kt : nd T) (expn : n.-tuple (Z * Z)) (axes : Z * Z) x y :
  let d := ndim kt in let sh := nshape kt in
  let lo := minn x y in let hi := maxn x y in
  distinct expn -> n != 0 -> nth 0 sh (d - 2) = n -> nth 0 sh (d - 1) = 2 ->
  absolute_axes [:: axes.1; axes.2] d = Val [:: Z.of_nat x; Z.of_nat y] ->
  x != y -> x < d - 2 -> y < d - 2 ->
  exists out ilo ihi jlo jhi, unflatten_transverse_wavevectors kt expn axes = Val out /\
  [/\ lowest expn fst ilo, highest expn fst ihi, lowest expn snd jlo & highest expn snd jhi] /\
  nshape out = gather sh (others d lo hi) ++
    [:: merged_size ilo ihi (nth 0 sh lo); merged_size jlo jhi (nth 0 sh hi); 2] /\
  (forall idx (t : 'I_n), size idx = d -> nth 0 idx lo < nth 0 sh lo -> nth 0 idx hi < nth 0 sh hi ->
     nth 0 idx (d - 2) = t ->
     nget out (gather idx (others d lo hi) ++
       [:: merged ilo (tnth expn t).1 (nth 0 sh lo) (nth 0 idx lo);
           merged jlo (tnth expn t).2 (nth 0 sh hi) (nth 0 idx hi); nth 0 idx (d - 1)])
     = Some (nget kt idx)) /\
  (forall idx p q c, size idx = d - 4 ->
     (forall a b (t : 'I_n), a < nth 0 sh lo -> b < nth 0 sh hi ->
        p <> merged ilo (tnth expn t).1 (nth 0 sh lo) a \/ q <> merged jlo (tnth expn t).2 (nth 0 sh hi) b) ->
     nget out (idx ++ [:: p; q; c]) = None).
Proof.
move=> d sh lo hi di n0 h2 h1 hab nxy hx hy.
have lohi : lo < hi < d - 2.
  rewrite /lo /hi /minn /maxn; move: nxy; rewrite neq_ltn; case: (ltnP x y) => h.
    by rewrite h hy.
  by move=> /= h'; rewrite h' hx.
have dd := d4 lohi; have so := size_others lohi.
have hbz := bz_sorted hab nxy.
have ax0 := kt_batch_axesE lohi hbz; have ax1 := kt_axesE lohi; have axp := kt_axes_perm lohi hbz.
rewrite /unflatten_transverse_wavevectors -/d dd -/sh h2 h1 !eqxx hab; cbn [check bind andb].
rewrite ax0 ax1.
case/andP: (lohi) => l1 l2.
have G0 (u : seq nat) : size u = d -> gather u (others d lo hi ++ [:: d - 1; lo; hi; d - 2])
  = (gather u (others d lo hi) ++ [:: nth 0 u (d - 1)]) ++ [:: nth 0 u lo; nth 0 u hi; nth 0 u (d - 2)].
  by move=> su; rewrite /gather map_cat -catA.
have tsh : nshape (transpose kt (others d lo hi ++ [:: d - 1; lo; hi; d - 2]))
  = (gather sh (others d lo hi) ++ [:: 2]) ++ [:: nth 0 sh lo; nth 0 sh hi; n].
  by have := G0 sh (erefl _); rewrite h1 h2.
have [out [ilo [ihi [jlo [jhi [hu [ext [osh get]]]]]]]] := C34_unflatten di n0 tsh.
rewrite hu; cbn [bind].
have so' : size (gather sh (others d lo hi)) = d - 4 by rewrite size_map so.
have mo : ndim out = d - 1 by rewrite /ndim osh !size_cat so' /=; natlia.
eexists; exists ilo, ihi, jlo, jhi; split; first reflexivity.
split; first exact: ext.
rewrite mo; set F := iota 0 _ ++ _.
have GF (u : seq nat) a p q : size u = d - 4 -> gather (u ++ [:: a; p; q]) F = u ++ [:: p; q; a].
  move=> su; have -> : F = iota 0 (size u) ++ [:: size u + 1; size u + 2; size u + 0].
    by rewrite /F su; congr (iota _ _ ++ [:: _; _; _]); natlia.
  rewrite /gather map_cat /=; congr (_ ++ _).
    rewrite -[RHS](take_size u) -(map_nth_iota0 0) //; apply/eq_in_map => k; rewrite mem_iota add0n /= => hk.
    by rewrite nth_cat hk.
  by rewrite !nth_cat !(ltnNge _ (size u)) !leq_addr /= !addKn.
have Fk k : k < ndim out -> k \in F.
  rewrite mo mem_cat mem_iota add0n leq0n andTb !inE => hk.
  case: (ltnP k (d - 1 - 3)) => //= h4; case: eqP => // f1; case: eqP => // f2; case: eqP => // f3; natlia.
split; first by rewrite [LHS]/(gather (nshape out) F) osh -catA !cat_cons cat0s; exact: GF.
split.
- move=> idx t si hlo hhi hpt.
  have sg : size (gather idx (others d lo hi) ++ [:: nth 0 idx (d - 1)]) =
    size (gather sh (others d lo hi) ++ [:: 2]) by rewrite !size_cat !size_map.
  have [g1 _] := get _ sg.
  rewrite -(GF _ (nth 0 idx (d - 1))); last by rewrite size_map so.
  rewrite transpose_gather //; last by rewrite mo size_cat size_map so /=; natlia.
  rewrite -[[:: nth 0 idx (d - 1); _; _]]/([:: nth 0 idx (d - 1)] ++ [:: _; _]) catA g1 // -hpt -G0 // transpose_gather //.
  by move=> k; rewrite (perm_mem axp) mem_iota add0n leq0n.
- move=> idx p q c si hno.
  rewrite -(GF _ c) // transpose_gather //; last by rewrite mo size_cat si /=; natlia.
  have sg : size (idx ++ [:: c]) = size (gather sh (others d lo hi) ++ [:: 2]).
    by rewrite !size_cat size_map so si.
  have [_ g2] := get _ sg.
  by rewrite -[[:: c; p; q]]/([:: c] ++ [:: p; q]) catA g2.
Qed.
Print Assumptions C34_wavevectors.

(** ** Regular spacing *)
Lemma at_fractions_bragg plv x y k o G : at_fractions plv x y k -> bragg plv o G ->
  at_fractions plv (x + IZR o.1) (y + IZR o.2) (vadd k G).
Proof. by rewrite /at_fractions /bragg /dot /vadd /= => -[h1 h2] [h3 h4]; split; lra. Qed.
Lemma merged_fraction lo o num a : (lo <= o)%coqZ -> (a < num)%N ->
  (cell_centre num a + IZR o = IZR lo + (INR (merged lo o num a) + 1 / 2) / INR num - 1 / 2)%coqR.
Proof.
move=> lo_o ha; have n1 : (1 <= INR num)%coqR by apply: (le_INR 1); apply/leP; exact: leq_ltn_trans ha.
rewrite /cell_centre /merged plus_INR mult_INR.
have -> : INR (Z.to_nat (o - lo)) = (IZR o - IZR lo)%coqR.
  by rewrite INR_IZR_INZ Z2Nat.id ?minus_IZR //; lia.
by field; lra.
Qed.
(** The transverse wavevectors of a Brillouin zone grid become points of one regular grid over
    the whole range of orders: the wavevector at place [(p, q)] depends on the place alone, at
    fractions [lo + (p + 1/2) / num - 1/2] of the reciprocal lattice vectors. *)
Theorem C34_regular n plv (expn : n.-tuple (Z * Z)) (a b : nat) g kts (kt : nd R) out p q kx ky :
  nondegenerate plv -> (0 < a)%N -> (0 < b)%N -> n != 0%N -> distinct expn ->
  brillouin_zone_in_plane_wavevector [:: Z.of_nat a; Z.of_nat b] plv = Val g ->
  (forall i j, transverse_wavevectors (nth (0, 0)%coqR (nth [::] g i) j) plv expn = Val (kts i j)) ->
  nshape kt = [:: a; b; n; 2]%N ->
  (forall i j (t : 'I_n), nget kt [:: i; j; nat_of_ord t; 0]%N = (kts i j).1 ord0 t /\
                          nget kt [:: i; j; nat_of_ord t; 1]%N = (kts i j).2 ord0 t) ->
  unflatten_transverse_wavevectors kt expn (0, 1)%coqZ = Val out ->
  nget out [:: p; q; 0]%N = Some kx -> nget out [:: p; q; 1]%N = Some ky ->
  exists ilo jlo, [/\ lowest expn fst ilo, lowest expn snd jlo &
    at_fractions plv (IZR ilo + (INR p + 1 / 2) / INR a - 1 / 2)%coqR
                     (IZR jlo + (INR q + 1 / 2) / INR b - 1 / 2)%coqR (kx, ky)].
Proof.
move=> nd a0 b0 n0 di hg hkt sh get hu hx hy.
have [g' [hg' [_ _ gg]]] := C26_grid a0 b0 nd; move: hg; rewrite hg' => -[e]; subst g'.
have d4 : ndim kt = 4 by rewrite /ndim sh.
have h := @C34_wavevectors R n kt expn (0, 1)%coqZ 0 1.
rewrite d4 sh in h; cbn [fst snd] in h.
have := h di n0 (erefl _) (erefl _) (erefl _) (erefl _) (erefl _) (erefl _).
case=> out' [ilo [ihi [jlo [jhi [hu' [[L1 H1 L2 H2] [_ [some none]]]]]]]].
move: hu; rewrite hu' => -[e]; subst out'.
exists ilo, jlo; split; [exact: L1|exact: L2|].
case: (boolP [exists t : 'I_n, [exists i : 'I_a, [exists j : 'I_b,
    (p == merged ilo (tnth expn t).1 a i) && (q == merged jlo (tnth expn t).2 b j)]]]).
- case/existsP=> t /existsP [i /existsP [j /andP [/eqP ep /eqP eq]]].
  have := some [:: nat_of_ord i; nat_of_ord j; nat_of_ord t; 0]%N t (erefl _) (ltn_ord i) (ltn_ord j) (erefl _).
  have := some [:: nat_of_ord i; nat_of_ord j; nat_of_ord t; 1]%N t (erefl _) (ltn_ord i) (ltn_ord j) (erefl _).
  rewrite /= -!ep -!eq hx hy => -[ey] [ex].
  have [g0 g1] := get i j t; rewrite g0 in ex; rewrite g1 in ey.
  have [kt' [hk' hG]] := C24_transverse_wavevectors (nth (0, 0)%coqR (nth [::] g i) j) expn nd.
  move: hk'; rewrite hkt => -[e]; subst kt'.
  have [G [bG e]] := hG t; rewrite -ex -ey in e; rewrite e.
  rewrite ep eq -!merged_fraction ?ltn_ord //; [|exact: (proj2 L2)|exact: (proj2 L1)].
  by apply: at_fractions_bragg => //; apply: gg; apply: ltn_ord.
- move=> N; have : nget out ([::] ++ [:: p; q; 0%N]) = None; last by rewrite /= hx.
  apply: none => // i j t hi hj.
  case: (eqVneq p (merged ilo (tnth expn t).1 a i)) => [ep|/eqP]; last by left.
  case: (eqVneq q (merged jlo (tnth expn t).2 b j)) => [eq|/eqP]; last by right.
  case/negP: N; apply/existsP; exists t; apply/existsP; exists (Ordinal hi); apply/existsP; exists (Ordinal hj).
  by rewrite /= -ep -eq !eqxx.
Qed.
Print Assumptions C34_regular.
(** Expansions that are full rectangles of orders leave no place empty. *)
Theorem C34_full n (expn : n.-tuple (Z * Z)) n0 n1 ilo ihi jlo jhi :
  lowest expn fst ilo -> highest expn fst ihi -> lowest expn snd jlo -> highest expn snd jhi ->
  (forall i j, (ilo <= i <= ihi)%coqZ -> (jlo <= j <= jhi)%coqZ -> (i, j) \in expn) ->
  forall p q, (p < merged_size ilo ihi n0)%N -> (q < merged_size jlo jhi n1)%N ->
  exists a b (t : 'I_n), [/\ (a < n0)%N, (b < n1)%N, p = merged ilo (tnth expn t).1 n0 a & q = merged jlo (tnth expn t).2 n1 b].
Proof.
have place lo hi num p : (lo <= hi)%coqZ -> (p < merged_size lo hi num)%N ->
    exists o a, [/\ (lo <= o <= hi)%coqZ, (a < num)%N & p = merged lo o num a].
  rewrite /merged_size /merged => lh hp.
  have num0 : (0 < num)%N by case: num hp => //; rewrite muln0.
  exists (lo + Z.of_nat (p %/ num))%coqZ, (p %% num); rewrite ltn_mod num0; split=> //.
    have : (p %/ num < Z.to_nat (hi - lo + 1))%N by rewrite ltn_divLR.
    by move/ltP => h; lia.
  have -> : Z.to_nat (lo + Z.of_nat (p %/ num) - lo) = p %/ num by lia.
  exact: divn_eq.
move=> L1 H1 L2 H2 full p q hp hq.
have le1 : (ilo <= ihi)%coqZ by have [[t <-] _] := L1; exact: (proj2 H1).
have le2 : (jlo <= jhi)%coqZ by have [[t <-] _] := L2; exact: (proj2 H2).
have [i [a [hi ha ep]]] := place _ _ _ _ le1 hp; have [j [b [hj hb eq]]] := place _ _ _ _ le2 hq.
have /tnthP [t e] := full i j hi hj.
by exists a, b, t; rewrite -e.
Qed.
Print Assumptions C34_full.
(** The order in which the two zone axes are given does not matter: the first axis of the zone
    is always taken to be the earlier axis of the array. An array whose zone grid has its
    axes exchanged is not unfolded differently by naming them in the other order. *)
Lemma absolute_axes_swap a b d :
  absolute_axes [:: b; a] d = match absolute_axes [:: a; b] d with
    | Val [:: x; y] => Val [:: y; x] | Val s => Val s | Exn e => Exn e end.
Proof.
rewrite /absolute_axes /check; cbn [all map]; rewrite !andbT andbC.
case: ifP => //= _.
case: (Z.eq_dec _ _) => [e|h]; case: (Z.eq_dec _ _) => [e'|h'] //=.
- by case: h'; rewrite e.
- by case: h; rewrite e'.
Qed.
Theorem C34_axis_order T n (expn : n.-tuple (Z * Z)) (a b : Z) (flux kt : nd T) :
  unflatten_flux flux expn (b, a) = unflatten_flux flux expn (a, b) /\
  unflatten_transverse_wavevectors kt expn (b, a) = unflatten_transverse_wavevectors kt expn (a, b).
Proof.
have M (x y : Z) c : map Z.to_nat [:: x; y] ++ [:: c] =i map Z.to_nat [:: y; x] ++ [:: c].
  by move=> k; rewrite /= !inE orbCA.
have two d s : absolute_axes [:: a; b] d = Val s -> exists x y, s = [:: x; y].
  by rewrite /absolute_axes /= => H; have [_ {}H] := checkV H; have [_ [<-]] := checkV H; do 2 eexists.
split.
- rewrite /unflatten_flux; cbn [fst snd]; rewrite (absolute_axes_swap a b).
  case E : (absolute_axes _ _) => [s|e] //; have [x [y ->]] := two _ _ E; cbn [bind].
  by have -> : [seq i <- iota 0 (ndim flux).+1 | i \notin map Z.to_nat [:: y; x] ++ [:: (ndim flux).+1 - 2]%N]
    = [seq i <- iota 0 (ndim flux).+1 | i \notin map Z.to_nat [:: x; y] ++ [:: (ndim flux).+1 - 2]%N]
    by apply: eq_filter => k; rewrite (M x y).
- rewrite /unflatten_transverse_wavevectors; cbn [fst snd]; rewrite (absolute_axes_swap a b).
  case E : (absolute_axes _ _) => [s|e] //; have [x [y ->]] := two _ _ E; cbn [bind].
  by have -> : [seq i <- iota 0 (ndim kt) | i \notin map Z.to_nat [:: y; x] ++ [:: ndim kt - 2]%N]
    = [seq i <- iota 0 (ndim kt) | i \notin map Z.to_nat [:: x; y] ++ [:: ndim kt - 2]%N]
    by apply: eq_filter => k; rewrite (M x y).
Qed.
Print Assumptions C34_axis_order.

(** ** Witnesses *)
Definition five : 5.-tuple (Z * Z) := [tuple (0, 0); (1, 0); (0, 1); (-1, 0); (0, -1)]%coqZ.
Lemma five_distinct : distinct five.
Proof.
move=> i j; rewrite !(tnth_nth (0, 0)%coqZ); case: i => [[|[|[|[|[|]]]]] hi] //; case: j => [[|[|[|[|[|]]]]] hj] //= _;
  exact: val_inj.
Qed.
Definition ex_flux : nd nat := Nd [:: 2; 3; 10; 1]%N (fun idx => (nth 0 idx 0 * 1000 + nth 0 idx 1 * 100 + nth 0 idx 2)%N).
(** A five-order cross with a zone grid of 2 by 3 points: order (0, -1) at zone point (1, 2),
    second polarization (flux element 1209) is at place (3, 2); the corners are empty. *)
Example ex_C34 : match unflatten_flux ex_flux five (0, 1)%coqZ with
  | Val out => (nshape out, nget out [:: 3; 2; 1; 0]%N, nget out [:: 0; 0; 1; 0]%N) = ([:: 6; 9; 2; 1]%N, Some 1209%N, None)
  | Exn _ => False end.
Proof. by vm_compute. Qed.
Example ex_C34_hyps : [/\ distinct five, 5 != 0%N, nth 0%N (nshape ex_flux) (ndim ex_flux - 2) = (2 * 5)%N &
  absolute_axes [:: -4; -3]%coqZ (ndim ex_flux) = Val [:: Z.of_nat 0; Z.of_nat 1]].
Proof. by split; [exact: five_distinct|..]. Qed.
(** The hypotheses of [C34_regular] for the zone grid of an oblique lattice. *)
Example ex_C34_regular : exists g kts (kt : nd R) out,
  [/\ brillouin_zone_in_plane_wavevector [:: 2; 3]%coqZ oblique = Val g,
      (forall i j, transverse_wavevectors (nth (0, 0)%coqR (nth [::] g i) j) oblique five = Val (kts i j)),
      nshape kt = [:: 2; 3; 5; 2]%N,
      (forall i j (t : 'I_5), nget kt [:: i; j; nat_of_ord t; 0]%N = (kts i j).1 ord0 t /\
                              nget kt [:: i; j; nat_of_ord t; 1]%N = (kts i j).2 ord0 t) &
      unflatten_transverse_wavevectors kt five (0, 1)%coqZ = Val out /\
      exists x y, nget out [:: 3; 2; 0]%N = Some x /\ nget out [:: 3; 2; 1]%N = Some y].
Proof.
have nd : nondegenerate oblique by exact: oblique_nondegenerate.
have [g [hg _]] := @C26_grid oblique 2 3 isT isT nd.
have [rv hr] := reciprocal_total nd.
have tot k : exists w, transverse_wavevectors k oblique five = Val w.
  by rewrite /transverse_wavevectors hr; eexists.
have : exists kts : nat -> nat -> 'rV[R]_5 * 'rV[R]_5,
  forall i j, transverse_wavevectors (nth (0, 0)%coqR (nth [::] g i) j) oblique five = Val (kts i j).
  exists (fun i j => match transverse_wavevectors (nth (0, 0)%coqR (nth [::] g i) j) oblique five with Val w => w | Exn _ => (0, 0)%R end) => i j.
  by have [w ->] := tot (nth (0, 0)%coqR (nth [::] g i) j).
case=> kts hk.
pose kt := Nd [:: 2; 3; 5; 2]%N (fun idx => let k := kts (nth 0%N idx 0) (nth 0%N idx 1) in
  (if nth 0%N idx 3 == 0%N then k.1 else k.2) ord0 (inord (nth 0%N idx 2))).
have h := @C34_wavevectors R 5 kt five (0, 1)%coqZ 0 1 five_distinct isT (erefl _) (erefl _) (erefl _) (erefl _) (erefl _) (erefl _).
have [out [ilo [ihi [jlo [jhi [hu [[L1 H1 L2 H2] [_ [some _]]]]]]]]] := h.
exists g, kts, kt, out; split=> //; first by move=> i j t; rewrite /= inord_val.
split=> //.
have e1 : ilo = (-1)%coqZ.
  have [[t ht] l] := L1; have := l (@Ordinal 5 3 isT); rewrite (tnth_nth (0, 0)%coqZ) /= => l'.
  by case: t ht => [[|[|[|[|[|]]]]] ho] //; rewrite (tnth_nth (0, 0)%coqZ) /= => e; lia.
have e2 : jlo = (-1)%coqZ.
  have [[t ht] l] := L2; have := l (@Ordinal 5 4 isT); rewrite (tnth_nth (0, 0)%coqZ) /= => l'.
  by case: t ht => [[|[|[|[|[|]]]]] ho] //; rewrite (tnth_nth (0, 0)%coqZ) /= => e; lia.
have := some [:: 1; 2; 4; 0]%N (@Ordinal 5 4 isT) (erefl _) isT isT (erefl _).
have := some [:: 1; 2; 4; 1]%N (@Ordinal 5 4 isT) (erefl _) isT isT (erefl _).
by rewrite (tnth_nth (0, 0)%coqZ) e1 e2 => h1 h0; do 2 eexists; split; [exact: h0|exact: h1].
Qed.

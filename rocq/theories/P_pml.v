(** C30, C31: perfectly matched layers. *)
From Coq Require Import Reals ZArith Lra Lia.
From mathcomp Require Import all_ssreflect all_algebra.
From Verif Require Import CField Err LinAlg Tac M_pml S_pml.
Set Implicit Arguments. Unset Strict Implicit. Unset Printing Implicit Defensive.
Import GRing.Theory.
Local Open Scope ring_scope.

Lemma slice_lo s (w : nat) : slice_index s (Z.of_nat w) = minn w s.
Proof. rewrite /slice_index; case: Z.ltb_spec => h; rewrite /minn; case: ltP => h2; lia. Qed.
Lemma slice_hi s (w : nat) : (w <= s)%N -> slice_index s (Z.of_nat s - Z.of_nat w) = (s - w)%N.
Proof. move=> /leP h; rewrite /slice_index; case: Z.ltb_spec => h1; natlia. Qed.
Lemma slice_neg s (w : nat) : (s < w)%N -> slice_index s (Z.of_nat s - Z.of_nat w) = (s - (w - s))%N.
Proof. move=> /ltP h; rewrite /slice_index; case: Z.ltb_spec => h1; natlia. Qed.
(** The cropped length. *)
Lemma crop_len s (w : nat) :
  (slice_index s (Z.of_nat s - Z.of_nat w) - slice_index s (Z.of_nat w))%N = (s - 2 * w)%N.
Proof.
have := slice_lo s w; case: (leqP w s) => h ->.
  by rewrite (slice_hi h); natlia.
by rewrite (slice_neg h); natlia.
Qed.

Definition fits (s : nat) (w : Z) : bool := Z.leb 0 w && Z.ltb (2 * w) (Z.of_nat s).
Lemma cropE v (s0 s1 : nat) (wx wy : Z) : (0 < s0)%N -> (0 < s1)%N ->
  crop_and_edge_pad ((s0, s1), v) (wx, wy) =
  if fits s0 wx && fits s1 wy then
    Val ((s0, s1), fun i j => v (Z.to_nat wx + edge_index (Z.to_nat wx) (s0 - 2 * Z.to_nat wx) i)%N
                                (Z.to_nat wy + edge_index (Z.to_nat wy) (s1 - 2 * Z.to_nat wy) j)%N)
  else Exn ValueError.
Proof.
move=> p0 p1; rewrite /crop_and_edge_pad /= /fits.
case: (Z.leb_spec 0 wx) => hx /=; last by rewrite /check; case: ifP.
case: (Z.leb_spec 0 wy) => hy; last by rewrite andbF /check; case: ifP.
have [a ea] : exists a : nat, wx = Z.of_nat a by exists (Z.to_nat wx); lia.
have [b eb] : exists b : nat, wy = Z.of_nat b by exists (Z.to_nat wy); lia.
rewrite ea eb !crop_len !Nat2Z.id !andTb; move: p0 p1 => /ltP p0 /ltP p1.
have za : Z.eqb (Z.of_nat a) 0 = (a == 0)%N by case: eqP; case: Z.eqb_spec; lia.
have zb : Z.eqb (Z.of_nat b) 0 = (b == 0)%N by case: eqP; case: Z.eqb_spec; lia.
rewrite za zb /check.
have -> : Z.ltb (2 * Z.of_nat a) (Z.of_nat s0) = (2 * a < s0)%N by case: ltP => h; case: Z.ltb_spec => h' //; natlia.
have -> : Z.ltb (2 * Z.of_nat b) (Z.of_nat s1) = (2 * b < s1)%N by case: ltP => h; case: Z.ltb_spec => h' //; natlia.
have T : tuple_ge (Z.of_nat a * 2, Z.of_nat b * 2)%coqZ (Z.of_nat s0, Z.of_nat s1)
         = (s0 < 2 * a)%N || ((2 * a == s0)%N && (s1 <= 2 * b)%N).
  rewrite /tuple_ge /=.
  have -> : Z.ltb (Z.of_nat s0) (Z.of_nat a * 2) = (s0 < 2 * a)%N by case: ltP => h; case: Z.ltb_spec => h' //; natlia.
  have -> : Z.eqb (Z.of_nat a * 2) (Z.of_nat s0) = (2 * a == s0)%N by case: eqP => h; case: Z.eqb_spec => h' //; natlia.
  by have -> : Z.leb (Z.of_nat s1) (Z.of_nat b * 2) = (s1 <= 2 * b)%N by case: leP => h; case: Z.leb_spec => h' //; natlia.
rewrite {}T !subn_eq0 -!ltnNge.
case: (ltnP (2 * a) s0) => ha; case: (ltnP (2 * b) s1) => hb /=.
- have -> : (s0 < 2 * a)%N = false by apply/negbTE; rewrite -leqNgt; natlia.
  have -> : (2 * a == s0)%N = false by apply/negbTE/eqP; natlia.
  have e x y : (2 * y < x)%N -> (x - 2 * y + 2 * y)%N = x by move=> h; natlia.
  by rewrite /= !e // !slice_lo !(minn_idPl _) //; natlia.
- have -> : (b == 0)%N = false by apply/negbTE/eqP; natlia.
  by case: ifP.
- have -> : (a == 0)%N = false by apply/negbTE/eqP; natlia.
  by case: ifP.
have -> : (a == 0)%N = false by apply/negbTE/eqP; natlia.
by case: ifP.
Qed.

(** ** C31 *)
(** With [s0], [s1] points along the two axes, ValueError is raised exactly for negative widths
    and for layers without a point between them. *)
Theorem C31_rejects v (s0 s1 : nat) (P : pml_params) : (0 < s0)%N -> (0 < s1)%N ->
  (apply_uniaxial_pml ((s0, s1), v) P = Exn ValueError <->
   (num_x P < 0)%coqZ \/ (num_y P < 0)%coqZ \/
   ~ (exists i : nat, (num_x P <= Z.of_nat i < Z.of_nat s0 - num_x P)%coqZ) \/
   ~ (exists j : nat, (num_y P <= Z.of_nat j < Z.of_nat s1 - num_y P)%coqZ)).
Proof.
move=> p0 p1; rewrite /apply_uniaxial_pml cropE // /fits; split.
  case: Z.leb_spec => hx; last by left.
  case: Z.leb_spec => hy; last by right; left.
  case: Z.ltb_spec => h1; last by right; right; left => -[i hi]; lia.
  by case: Z.ltb_spec => h2 //; right; right; right => -[i hi]; lia.
case: Z.leb_spec => // hx; case: Z.leb_spec => hy; rewrite ?andbF //.
case: Z.ltb_spec => h1 //; case: Z.ltb_spec => h2 // H; exfalso.
case: H => [h|[h|[h|h]]]; try lia; apply: h; [exists (Z.to_nat (num_x P))|exists (Z.to_nat (num_y P))]; lia.
Qed.
Print Assumptions C31_rejects.
(** Every other layer is accepted, and the shape is kept. *)
Theorem C31_accepts v (s0 s1 : nat) (P : pml_params) : (0 < s0)%N -> (0 < s1)%N ->
  (0 <= num_x P)%coqZ -> (0 <= num_y P)%coqZ ->
  (exists i : nat, (num_x P <= Z.of_nat i < Z.of_nat s0 - num_x P)%coqZ) ->
  (exists j : nat, (num_y P <= Z.of_nat j < Z.of_nat s1 - num_y P)%coqZ) ->
  exists f, apply_uniaxial_pml ((s0, s1), v) P = Val ((s0, s1), f).
Proof.
move=> p0 p1 hx hy [i hi] [j hj]; rewrite /apply_uniaxial_pml cropE // /fits.
have -> : Z.leb 0 (num_x P) by apply/Z.leb_le.
have -> : Z.leb 0 (num_y P) by apply/Z.leb_le.
have -> : Z.ltb (2 * num_x P) (Z.of_nat s0) by apply/Z.ltb_lt; lia.
have -> : Z.ltb (2 * num_y P) (Z.of_nat s1) by apply/Z.ltb_lt; lia.
by eexists.
Qed.
Print Assumptions C31_accepts.
(** Witnesses of both cases: the comparison of tuples alone would accept the first. *)
Example C31_witness : apply_uniaxial_pml ((10, 10)%N, fun _ _ => 1) (PMLParams 1 100 4 4 1) = Exn ValueError
  /\ exists f, apply_uniaxial_pml ((10, 10)%N, fun _ _ => 1) (PMLParams 1 4 4 4 1) = Val ((10, 10)%N, f).
Proof. by split; last eexists. Qed.

(** ** C30 *)
Lemma nearestE s w i : (2 * w < s)%N -> (i < s)%N -> (w + edge_index w (s - 2 * w) i)%N = nearest s w i.
Proof.
move=> hw hi; rewrite /edge_index /nearest /minn -subn1.
case: (ltnP (i - w) _) => h; case: (ltnP i w) => h1; try case: (leqP s (i + w)) => h2; natlia.
Qed.
Lemma distanceE s w i : (2 * w < s)%N -> (i < s)%N -> normalized_distance s (Z.of_nat w) i = depth s w i.
Proof.
move=> hw hi; rewrite /normalized_distance /depth.
case: (ltnP i w) => h1.
  have -> : Z.eqb (Z.of_nat w) 0 = false by apply/Z.eqb_neq; natlia.
  rewrite !INR_IZR_INZ /Rdiv Rmult_1_l; congr (_ * _)%coqR; congr IZR; natlia.
case: (leqP s (i + w)) => h2.
  have -> : Z.eqb (Z.of_nat w) 0 = false by apply/Z.eqb_neq; natlia.
  rewrite !INR_IZR_INZ /Rdiv Rmult_1_l; congr (_ * _)%coqR; congr IZR; natlia.
by rewrite (_ : Z.max _ _ = 0%coqZ) ?Rmult_0_l //; natlia.
Qed.
Lemma stretchingE P d : (0 < p_exp P)%coqR -> stretching P d = Val (stretch P d).
Proof.
move=> p0; rewrite /stretching /float_pow /stretch; case: ifP => hd.
  by cbn [bind]; congr (Val (_ * _)); rewrite -?[Rplus _ _]/(_ + _)%R -?[Rmult _ _]/(_ * _)%R ?rmorphD ?rmorphM ?rmorph1 ?mulrA.
have -> : (p_exp P == 0) = false by apply/negbTE/eqP => h; rewrite h in p0; exact: Rlt_irrefl p0.
case: Rlt_dec => [hp|hp] //; move/negbFE/eqP: hd => ->.
rewrite Rmult_0_r sin_0 pow_i; last by lia.
by rewrite /= rmorph0 !mulr0 !addr0 mulr1.
Qed.
Lemma depth0P s w i : (2 * w < s)%N -> (i < s)%N -> depth s w i = 0%coqR <-> interior s w i.
Proof.
move=> hw hi; rewrite /depth /interior.
case: (ltnP i w) => h1 /=.
  split=> // /Rmult_integral [|h]; first by move/(INR_eq _ 0) => h; natlia.
  by exfalso; move: h; apply: Rinv_neq_0_compat; apply: not_0_INR; natlia.
case: (leqP s (i + w)) => h2 //.
split=> // /Rmult_integral [|h]; first by move/(INR_eq _ 0) => h; natlia.
by exfalso; move: h; apply: Rinv_neq_0_compat; apply: not_0_INR; natlia.
Qed.

(** The permittivity is that of the closest interior point times the stretch tensor, and the
    permeability is the stretch tensor. Points where a factor is zero are not finite. *)
Theorem C30_tensors v (s0 s1 wx wy : nat) a p sg sh f :
  (0 < p)%coqR -> let P := PMLParams (Z.of_nat wx) (Z.of_nat wy) a p sg in
  (0 < s0)%N -> (0 < s1)%N -> apply_uniaxial_pml ((s0, s1), v) P = Val (sh, f) ->
  sh = (s0, s1) /\
  forall i j, (i < s0)%N -> (j < s1)%N ->
  let sx := stretch P (depth s0 wx i) in
  let sy := stretch P (depth s1 wy j) in
  f i j = if (sx == 0) || (sy == 0) then Exn NonFinite
          else Val (uniaxial sx sy (v (nearest s0 wx i) (nearest s1 wy j)), uniaxial sx sy 1).
Proof.
move=> p0 P h0 h1; rewrite /apply_uniaxial_pml cropE //; case: ifP => // /andP [fx fy] /= [<- <-].
have wx2 : (2 * wx < s0)%N by case/andP: fx => _ /Z.ltb_lt; cbn [num_x num_y P] => h; natlia.
have wy2 : (2 * wy < s1)%N by case/andP: fy => _ /Z.ltb_lt; cbn [num_x num_y P] => h; natlia.
split=> // i j hi hj; rewrite !Nat2Z.id !nearestE // !distanceE // !stretchingE // /recipC.
cbn [bind]; case: eqP => [->|nx]; first by [].
case: eqP => [->|ny]; first by [].
by rewrite /= /uniaxial !mulr1 !divr1.
Qed.
Print Assumptions C30_tensors.

(** Outside of the layer nothing changes, whatever the parameters. *)
Theorem C30_interior v (s0 s1 wx wy : nat) a p sg sh f i j :
  (0 < p)%coqR -> let P := PMLParams (Z.of_nat wx) (Z.of_nat wy) a p sg in
  apply_uniaxial_pml ((s0, s1), v) P = Val (sh, f) -> interior s0 wx i -> interior s1 wy j ->
  f i j = Val (isotropic (v i j), isotropic 1).
Proof.
move=> p0 P h hi hj; have i0 : (i < s0)%N by case/andP: hi => _ ?; natlia.
have j0 : (j < s1)%N by case/andP: hj => _ ?; natlia.
have [_ /(_ i j i0 j0)] := C30_tensors p0 (leq_ltn_trans (leq0n _) i0) (leq_ltn_trans (leq0n _) j0) h.
have wx2 : (2 * wx < s0)%N by case/andP: hi => *; natlia.
have wy2 : (2 * wy < s1)%N by case/andP: hj => *; natlia.
have N s w k : interior s w k -> nearest s w k = k.
  by rewrite /nearest => /andP [h1 h2]; rewrite ltnNge h1 leqNgt h2.
rewrite (proj2 (depth0P wx2 i0) hi) (proj2 (depth0P wy2 j0) hj) !N // => ->.
have -> : stretch P 0%coqR = 1 by rewrite /stretch eqxx.
by rewrite oner_eq0 /= /uniaxial /isotropic !divr1 !mulr1 !mul1r.
Qed.
Print Assumptions C30_interior.
(** A layer of width zero changes nothing at all. *)
Theorem C30_zero_width v (s0 s1 : nat) a p sg : (0 < p)%coqR -> (0 < s0)%N -> (0 < s1)%N ->
  exists f, apply_uniaxial_pml ((s0, s1), v) (PMLParams 0 0 a p sg) = Val ((s0, s1), f) /\
  forall i j, (i < s0)%N -> (j < s1)%N -> f i j = Val (isotropic (v i j), isotropic 1).
Proof.
move=> p0 h0 h1.
have [f hf] : exists f, apply_uniaxial_pml ((s0, s1), v) (PMLParams 0 0 a p sg) = Val ((s0, s1), f).
  by apply: C31_accepts => //; exists 0%N => /=; natlia.
exists f; split=> // i j hi hj.
by apply: (@C30_interior v s0 s1 0 0 a p sg _ f i j p0 hf); rewrite /interior addn0 ?leq0n ?hi ?hj.
Qed.
Print Assumptions C30_zero_width.
Lemma ratio1 a b : (0 < b)%coqR -> (a <= b)%coqR -> (a / b <= 1)%coqR.
Proof.
move=> b0 h; have ib := Rinv_0_lt_compat _ b0.
have := Rmult_le_compat_r _ _ _ (Rlt_le _ _ ib) h; rewrite Rinv_r; [by []|lra].
Qed.
(** The depth is symmetric, zero exactly outside of the layer, one at the outer edges, and grows
    toward them. *)
Theorem C30_depth s w i : (2 * w < s)%N -> (i < s)%N ->
  [/\ depth s w (mirror s i) = depth s w i, depth s w i = 0%coqR <-> interior s w i,
      (0 <= depth s w i <= 1)%coqR & (0 < w)%N -> depth s w 0 = 1%coqR /\ depth s w (s - 1) = 1%coqR] /\
  forall k, (i <= k)%N -> (k + i < s)%N -> (depth s w k <= depth s w i)%coqR.
Proof.
move=> hw hi; split; first split.
- rewrite /depth /mirror.
  case: (ltnP (s - 1 - i) w) => h1; case: (ltnP i w) => h2; try natlia;
    case: (leqP s (s - 1 - i + w)) => h3; try natlia; case: (leqP s (i + w)) => h4; try natlia;
    first [by []|by congr (INR _ / _)%coqR; natlia].
- exact: depth0P.
- rewrite /depth; case: (ltnP i w) => h1; last case: (leqP s (i + w)) => h2; last by lra.
    have w0 : (0 < INR w)%coqR by apply: lt_0_INR; natlia.
    have := pos_INR (w - i); have : (INR (w - i) <= INR w)%coqR by apply: le_INR; natlia.
    by move=> a b; split; [apply: Rmult_le_pos => //; left; exact: Rinv_0_lt_compat|apply: ratio1].
  have w0 : (0 < INR w)%coqR by apply: lt_0_INR; natlia.
  have := pos_INR (i + w + 1 - s); have : (INR (i + w + 1 - s) <= INR w)%coqR by apply: le_INR; natlia.
  by move=> a b; split; [apply: Rmult_le_pos => //; left; exact: Rinv_0_lt_compat|apply: ratio1].
- move=> w0; have wp : (0 < INR w)%coqR by apply: lt_0_INR; natlia.
  rewrite /depth w0; split; first by rewrite subn0; field; lra.
  case: (ltnP (s - 1) w) => h1; first by natlia.
  case: (leqP s (s - 1 + w)) => h2; last by natlia.
  by rewrite (_ : (s - 1 + w + 1 - s = w)%N); [field; lra|natlia].
move=> k ik ks; rewrite /depth.
have [->|wp] : w = 0%N \/ (0 < INR w)%coqR.
- by case: (posnP w) => h; [left|right; apply: lt_0_INR; natlia].
- by rewrite !ltn0 !addn0; do 2 case: leqP => ?; try natlia; lra.
have iw := Rinv_0_lt_compat _ wp.
have D a b : (a <= b)%N -> (INR a / INR w <= INR b / INR w)%coqR.
  by move=> h; apply: Rmult_le_compat_r; [lra|apply: le_INR; natlia].
have Z a : (0 <= INR a / INR w)%coqR by apply: Rmult_le_pos; [exact: pos_INR|lra].
case: (ltnP k w) => h1; first by case: (ltnP i w) => h2; [apply: D|]; natlia.
case: (leqP s (k + w)) => h3; case: (ltnP i w) => h2; try case: (leqP s (i + w)) => h4; try natlia;
  by [apply: D; natlia|exact: Z|lra].
Qed.
Print Assumptions C30_depth.
(** Reflecting the permittivity reflects the tensors. *)
Theorem C30_mirror v (s0 s1 wx wy : nat) a p sg sh f sh' f' : (0 < p)%coqR ->
  let P := PMLParams (Z.of_nat wx) (Z.of_nat wy) a p sg in
  apply_uniaxial_pml ((s0, s1), v) P = Val (sh, f) ->
  apply_uniaxial_pml ((s0, s1), fun i j => v (mirror s0 i) j) P = Val (sh', f') ->
  forall i j, (i < s0)%N -> (j < s1)%N -> f' i j = f (mirror s0 i) j.
Proof.
move=> p0 P h h' i j hi hj.
have z0 := leq_ltn_trans (leq0n _) hi; have z1 := leq_ltn_trans (leq0n _) hj.
have hm : (mirror s0 i < s0)%N by rewrite /mirror; natlia.
have [_ ->] // := C30_tensors p0 z0 z1 h'; have [_ ->] // := C30_tensors p0 z0 z1 h.
have wx2 : (2 * wx < s0)%N.
  move: h; rewrite /apply_uniaxial_pml cropE //; case: ifP => // /andP [/andP [_ /Z.ltb_lt]]; cbn [num_x num_y P] => hh _ _; natlia.
have [[-> _ _ _] _] := C30_depth wx2 hi.
suff -> : mirror s0 (nearest s0 wx i) = nearest s0 wx (mirror s0 i) by [].
rewrite /nearest /mirror.
case: (ltnP (s0 - 1 - i) wx) => h1; case: (ltnP i wx) => h2; try natlia;
    case: (leqP s0 (s0 - 1 - i + wx)) => h3; try natlia; case: (leqP s0 (i + wx)) => h4; natlia.
Qed.
Print Assumptions C30_mirror.
(** With nonnegative strength and conductivity every point is finite, and the stretching factor
    neither compresses nor amplifies. *)
Theorem C30_finite v (s0 s1 wx wy : nat) a p sg sh f i j :
  (0 < p)%coqR -> (0 <= a)%coqR -> (0 <= sg)%coqR ->
  let P := PMLParams (Z.of_nat wx) (Z.of_nat wy) a p sg in
  apply_uniaxial_pml ((s0, s1), v) P = Val (sh, f) -> (i < s0)%N -> (j < s1)%N ->
  (exists x, f i j = Val x) /\
  forall d, (1 <= re (stretch P d))%coqR /\ (0 <= im (stretch P d))%coqR.
Proof.
move=> p0 a0 g0 P h hi hj.
have S d : (1 <= re (stretch P d))%coqR /\ (0 <= im (stretch P d))%coqR.
  rewrite /stretch; case: ifP => hd; last by rewrite /re /im /=; lra.
  have := exp_pos (p * ln d); rewrite -/(Rpower d p); move: (Rpower d p) => x x0.
  have : (0 <= sg * sin (PI / 2 * d) ^ 2)%coqR.
    by apply: Rmult_le_pos => //; rewrite -Rsqr_pow2; exact: Rle_0_sqr.
  move: (sg * _)%coqR => y y0; have ax : (0 <= a * x)%coqR by apply: Rmult_le_pos; lra.
  by rewrite /re /im /=; move: (a * x)%coqR ax => z z0; nra.
split=> //; have z0 := leq_ltn_trans (leq0n _) hi; have z1 := leq_ltn_trans (leq0n _) hj.
have [_ ->] // := C30_tensors p0 z0 z1 h.
have N d : (stretch P d == 0) = false.
  by apply/negbTE/eqP => e; have := S d; rewrite e /re /im /=; lra.
by rewrite !N; eexists.
Qed.
Print Assumptions C30_finite.
(** Finding: with exponent zero the interior is not left alone, because 0 ** 0 is 1. *)
Theorem C30_zero_exponent_refuted : exists v f t,
  apply_uniaxial_pml ((3, 3)%N, v) (PMLParams 1 1 4 0 1) = Val ((3, 3)%N, f) /\
  interior 3 1 1 /\ f 1%N 1%N = Val t /\ t_zz t.1 = RtoC 25 * v 1%N 1%N /\ v 1%N 1%N = 1.
Proof.
exists (fun _ _ => 1); eexists; eexists; split; first by rewrite /apply_uniaxial_pml cropE.
split=> //; split.
  have -> : normalized_distance (3, 3)%N.1 (num_x (PMLParams 1 1 4 0 1)) 1 = 0%coqR.
    by rewrite /normalized_distance; cbn; rewrite Rmult_0_l.
  have -> : stretching (PMLParams 1 1 4 0 1) 0%coqR = Val (RtoC 5).
    rewrite /stretching /float_pow !eqxx /= Rmult_0_r sin_0.
    by congr Val; Creim; ring.
  have n5 : RtoC 5 != 0 by apply/eqP => /(congr1 re); rewrite /re /=; lra.
  by rewrite /= /recipC n5 /=; reflexivity.
by split=> //=; rewrite divr1 !mulr1 -rmorphM; congr RtoC; rewrite RmulE; ring.
Qed.
Print Assumptions C30_zero_exponent_refuted.
Example C30_witness : exists f, apply_uniaxial_pml ((10, 8)%N, fun i j => RtoC (INR (i + j)))
    (PMLParams (Z.of_nat 3) (Z.of_nat 2) 4 4 1) = Val ((10, 8)%N, f)
  /\ interior 10 3 4 /\ interior 8 2 5 /\ ~~ interior 10 3 1.
Proof. by eexists; split; first by rewrite /apply_uniaxial_pml cropE. Qed.

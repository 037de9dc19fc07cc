(** C48: solid angles and the far-field profile. *)
From Coq Require Import Reals ZArith Lra Lia.
From mathcomp Require Import all_ssreflect all_algebra.
From Verif Require Import CField Err LinAlg Tac M_utils M_basis S_fields S_fft S_basis L_fields L_basis P_basis M_nd M_farfield S_farfield L_farfield P_farfield P_angles P_flux.
Set Implicit Arguments. Unset Strict Implicit. Unset Printing Implicit Defensive.

(** The fraction of a cell kept at place [p] of [num]: the cells of the first and of the last
    place reach only to the place itself, not beyond. *)
Definition kept (num p : nat) : R :=
  ((if p == 0%N then 0 else 1 / 2) + (if p.+1 == num then 0 else 1 / 2))%coqR.
(** A grid of wavevectors with constant steps [u] along the first and [v] along the second axis. *)
Definition regular_grid (kt : nd (option R)) A B (k0 u v : R * R) : Prop :=
  nshape kt = [:: A; B; 2]%N /\
  forall p q, (p < A)%N -> (q < B)%N ->
    nget kt [:: p; q; 0]%N = Some (k0.1 + INR p * u.1 + INR q * v.1)%coqR /\
    nget kt [:: p; q; 1]%N = Some (k0.2 + INR p * u.2 + INR q * v.2)%coqR.
Lemma edge_lt num i : (0 < num)%N -> (edge num i < num)%N.
Proof. by move=> h; rewrite /edge; apply: (leq_ltn_trans (geq_minr _ _)); rewrite subn1 prednK. Qed.
Lemma edge_step num p : (p < num)%N -> ((INR (edge num p.+2) - INR (edge num p.+1)) + (INR (edge num p.+1) - INR (edge num p)) = 2 * kept num p)%coqR.
Proof.
move=> hp; rewrite /edge /kept !subSS !subn0.
have -> : minn p (num - 1) = p by apply/minn_idPl; natlia.
have -> : minn (p - 1) (num - 1) = (p - 1)%N by apply/minn_idPl; natlia.
have e1 : (INR (minn p.+1 (num - 1)) - INR p = 2 * if p.+1 == num then 0 else 1 / 2)%coqR.
  case: eqP => [<-|h]; first by rewrite subSS subn0 (minn_idPr _) // ; lra.
  by rewrite (minn_idPl _); [rewrite S_INR; lra|natlia].
have e2 : (INR p - INR (p - 1) = 2 * if p == 0%N then 0 else 1 / 2)%coqR.
  case: p hp e1 => [|p] hp e1 /=; first by lra.
  by rewrite subSS subn0 -/(INR p.+1) S_INR; lra.
lra.
Qed.
(** On a regular grid the solid angle of a propagating place is the area of its cell on the unit
    sphere: the area spanned by the steps, over the cosine of the polar angle. At the first and
    last places along an axis half of it, and zero along an axis with a single place. *)
Theorem C48_solid_angle kt A B k0 u v wl p q theta :
  regular_grid kt A B k0 u v -> (0 < wl)%coqR -> (p < A)%N -> (q < B)%N ->
  let k := (k0.1 + INR p * u.1 + INR q * v.1, k0.2 + INR p * u.2 + INR q * v.2)%coqR in
  (sqrt (k.1 ^ 2 + k.2 ^ 2) < 2 * PI / wl)%coqR ->
  (angles_of_wavevector wl k.1 k.2).1 = Some theta ->
  (0 < cos theta)%coqR /\
  nget (solid_angle kt wl) [:: p; q] =
    Some (kept A p * kept B q * (Rabs (u.1 * v.2 - u.2 * v.1) / (2 * PI / wl) ^ 2) / cos theta)%coqR.
Proof.
move=> [sh get] w0 hp hq k hk; have pp := PI_RGT_0.
have A0 : (0 < A)%N by exact: leq_ltn_trans hp. have B0 : (0 < B)%N by exact: leq_ltn_trans hq.
have K0 : (0 < 2 * PI / wl)%coqR by apply: Rdiv_lt_0_compat; lra.
set K := (2 * PI / wl)%coqR in hk K0 *.
have sE : (sqrt ((k.1 / K) ^ 2 + (k.2 / K) ^ 2) = sqrt (k.1 ^ 2 + k.2 ^ 2) * wl / (2 * PI))%coqR.
  have -> : ((k.1 / K) ^ 2 + (k.2 / K) ^ 2 = (k.1 ^ 2 + k.2 ^ 2) * ((/ K) ^ 2))%coqR by field; lra.
  have ki : (0 < / K)%coqR by exact: Rinv_0_lt_compat.
  rewrite sqrt_mult; [|nra|nra]; rewrite sqrt_pow2; last lra.
  by rewrite /K; field; lra.
set s := (sqrt (k.1 ^ 2 + k.2 ^ 2) * wl / (2 * PI))%coqR in sE.
have s0 : (0 <= s)%coqR by rewrite -sE; exact: sqrt_pos.
have s1 : (s < 1)%coqR.
  have -> : s = (sqrt (k.1 ^ 2 + k.2 ^ 2) / K)%coqR by rewrite /s /K; field; lra.
  by apply: (Rmult_lt_reg_r K) => //; rewrite /Rdiv Rmult_assoc Rinv_l; lra.
rewrite /angles_of_wavevector -/s; case: Rlt_dec => [h|h] /=; first lra. case: Rlt_dec => [h'|h'] /=; first lra.
move=> [<-].
have c0 : (0 < cos (asin s))%coqR.
  by rewrite cos_asin; [apply: sqrt_lt_R0; rewrite /Rsqr; nra|lra].
split=> //; rewrite /solid_angle sh; cbn [nget nth].
have [g0 g1] := get p q hp hq; rewrite g0 g1; cbn [omap obind oapp].
rewrite -/K -[(k0.1 + _ + _)%coqR]/(k.1) -[(k0.2 + _ + _)%coqR]/(k.2) sE.
case: Rle_dec => [hs|[]]; last lra; cbn [is_left].
pose pad c i j := ((if c == 0%N then k0.1 + INR (edge A i) * u.1 + INR (edge B j) * v.1
                   else k0.2 + INR (edge A i) * u.2 + INR (edge B j) * v.2) / K)%coqR.
have padE c i j : (c < 2)%N -> omap (fun a : R => (a / K)%coqR) (nget kt [:: edge A i; edge B j; c]) = Some (pad c i j).
  have [h0 h1] := get _ _ (edge_lt i A0) (edge_lt j B0).
  by case: c => [|[|]] // _; rewrite ?h0 ?h1.
rewrite !padE //; cbn [oadd oscale omap obind oapp osub odiv].
case: Req_EM_T => [e|e]; first lra; cbn [is_left]; congr (Some _).
rewrite /pad !eqxx; have -> : (1 == 0)%N = false by [].
have eA := edge_step hp; have eB := edge_step hq.
move: (INR (edge A p)) (INR (edge A p.+1)) (INR (edge A p.+2)) eA => a0 a1 a2 eA.
move: (INR (edge B q)) (INR (edge B q.+1)) (INR (edge B q.+2)) eB => b0 b1 b2 eB.
have kA : (0 <= kept A p)%coqR by rewrite /kept; case: (p == _); case: (p.+1 == _); lra.
have kB : (0 <= kept B q)%coqR by rewrite /kept; case: (q == _); case: (q.+1 == _); lra.
have ea : a2 = (2 * kept A p + a0)%coqR by lra. have eb : b2 = (2 * kept B q + b0)%coqR by lra.
rewrite ea eb; congr (_ / _)%coqR.
set area := (u.1 * v.2 - u.2 * v.1)%coqR.
transitivity (Rabs (kept A p * kept B q / K ^ 2 * - area))%coqR.
  by congr Rabs; rewrite /area; field; lra.
rewrite Rabs_mult Rabs_Ropp Rabs_right; first by field; lra.
apply: Rle_ge; apply: Rmult_le_pos; first by apply: Rmult_le_pos.
by left; apply: Rinv_0_lt_compat; nra.
Qed.
(** Places without a wavevector, and evanescent ones, have no solid angle. *)
Theorem C48_undefined kt wl p q : (0 < wl)%coqR ->
  nget kt [:: p; q; 0]%N = None \/
  (exists kx ky, [/\ nget kt [:: p; q; 0]%N = Some kx, nget kt [:: p; q; 1]%N = Some ky &
                     (2 * PI / wl < sqrt (kx ^ 2 + ky ^ 2))%coqR]) ->
  nget (solid_angle kt wl) [:: p; q] = None.
Proof.
move=> w0 h; have pp := PI_RGT_0; rewrite /solid_angle; cbn [nget nth].
set cell := (X in odiv X _); set c := (X in odiv _ X).
suff -> : c = None by case: cell.
rewrite /c {cell c}; case: h => [-> //|[kx [ky [-> -> h]]]]; cbn [omap obind oapp].
have K0 : (0 < 2 * PI / wl)%coqR by apply: Rdiv_lt_0_compat; lra.
move: (2 * PI / wl)%coqR K0 h => K K0 h.
have -> : ((kx / K) ^ 2 + (ky / K) ^ 2 = (kx ^ 2 + ky ^ 2) * ((/ K) ^ 2))%coqR by field; lra.
have ki : (0 < / K)%coqR by exact: Rinv_0_lt_compat.
rewrite sqrt_mult; [|nra|nra]; rewrite sqrt_pow2; last lra.
case: Rle_dec => [h'|h'] //; exfalso.
have := Rmult_lt_compat_r (/ K) _ _ ki h; rewrite Rinv_r; lra.
Qed.
(** The profile: at the place of each zone point and order, the direction of that order's
    wavevector, the solid angle, and the flux divided by the solid angle. *)
Theorem C48_profile n A B S wl (kin : nd R) plv (expn : n.-tuple (Z * Z)) axes (flux : nd R) :
  flux_setting plv expn axes 1 -> nshape kin = [:: A; B; 2]%N -> nshape flux = [:: A; B; 2 * n; S]%N ->
  exists polar azim solid power (kt : nd (option R)) ilo ihi jlo jhi (G : 'I_n -> R * R),
  [/\ farfield_profile flux wl kin plv expn axes = Val (polar, azim, solid, power),
      [/\ lowest expn fst ilo, highest expn fst ihi, lowest expn snd jlo & highest expn snd jhi],
      (forall t, bragg plv (tnth expn t) (G t)),
      solid = solid_angle kt wl /\ nshape power = [:: merged_size ilo ihi A; merged_size jlo jhi B; 2; S]%N &
      forall (a : 'I_A) (b : 'I_B) (t : 'I_n) (pol : 'I_2) s,
      let p := merged ilo (tnth expn t).1 A a in let q := merged jlo (tnth expn t).2 B b in
      let k := vadd (nget kin [:: nat_of_ord a; nat_of_ord b; 0%N], nget kin [:: nat_of_ord a; nat_of_ord b; 1%N]) (G t) in
      [/\ nget kt [:: p; q; 0]%N = Some k.1 /\ nget kt [:: p; q; 1]%N = Some k.2,
          nget polar [:: p; q] = (angles_of_wavevector wl k.1 k.2).1,
          nget azim [:: p; q] = Some (angles_of_wavevector wl k.1 k.2).2 &
          forall omega, nget solid [:: p; q] = Some omega -> omega <> 0%coqR ->
          exists P, nget power [:: p; q; nat_of_ord pol; s] = Some P /\
            (P * omega = nget flux [:: nat_of_ord a; nat_of_ord b; pol * n + t; s]%N)%coqR]].
Proof.
move=> [ndg di n0 _ hax] shk sh.
have [x [y [hax' nxy hx hy]]] : exists x y, [/\ absolute_axes [:: axes.1; axes.2] 4 = Val [:: Z.of_nat x; Z.of_nat y], x != y, (x < 2)%N & (y < 2)%N].
  by case: hax => ->; [exists 0%N, 1%N|exists 1%N, 0%N].
have [mi ma] := axes_cases nxy hx hy.
have [rv hr] := reciprocal_total ndg.
rewrite /farfield_profile /ndim sh eqxx hax'; cbn [check bind size].
rewrite /transverse_wavevectors_grid hr shk; cbn [bind nth].
set kt := Nd _ _.
have := @C34_wavevectors R n kt expn axes x y di n0 (erefl _) (erefl _) hax' nxy hx hy.
rewrite mi ma => -[ko [ilo [ihi [jlo [jhi [hu [[l1 h1 l2 h2] [osh [some _]]]]]]]]].
have hf := @C34_flux R n flux expn axes x y.
rewrite /ndim sh mi ma in hf.
have [fo [i [i' [j [j' [hu' [[l1' h1' l2' h2'] [osh' [some' _]]]]]]]]] := hf di n0 (erefl _) hax' nxy hx hy.
have ei := lowest_unique l1 l1'; have ej := lowest_unique l2 l2'; subst i j.
have ei : ihi = i' by have [[t <-] a] := h1; have [[t' <-] a'] := h1'; have := a t'; have := a' t; lia.
have ej : jhi = j' by have [[t <-] a] := h2; have [[t' <-] a'] := h2'; have := a t'; have := a' t; lia.
subst i' j'.
rewrite hu; cbn [bind]; rewrite hu'; cbn [bind].
do 4 eexists; exists ko, ilo, ihi, jlo, jhi, (bragg_vector rv expn); split; first reflexivity.
- by split.
- by move=> t; exact: bragg_vectorP.
- by split=> //; rewrite /= osh'.
move=> a b t pol s.
set p := merged ilo _ A a; set q := merged jlo _ B b; set k := vadd _ _.
have g0 : nget ko [:: p; q; 0]%N = Some k.1.
  have := some [:: nat_of_ord a; nat_of_ord b; nat_of_ord t; 0]%N t (erefl _) (ltn_ord a) (ltn_ord b) (erefl _).
  by rewrite /= -(tnth_nth _ expn t).
have g1 : nget ko [:: p; q; 1]%N = Some k.2.
  have := some [:: nat_of_ord a; nat_of_ord b; nat_of_ord t; 1]%N t (erefl _) (ltn_ord a) (ltn_ord b) (erefl _).
  by rewrite /= -(tnth_nth _ expn t).
split=> //.
- by cbn [nget cat]; rewrite g0 g1.
- by cbn [nget cat]; rewrite g0 g1.
move=> omega ho om0; cbn [nget take]; rewrite ho.
have := some' [:: nat_of_ord a; nat_of_ord b; (pol * n + t)%N; s] pol t (erefl _) (ltn_ord a) (ltn_ord b) (erefl _).
cbn [gather others cat nth nshape] => hg.
have -> : nget fo [:: p; q; nat_of_ord pol; s] = Some (nget flux [:: nat_of_ord a; nat_of_ord b; (pol * n + t)%N; s]) by exact: hg.
rewrite /odiv; case: Req_EM_T => [e|e]; first by case: om0.
by eexists; split; [reflexivity|field].
Qed.
(** The cells of a regular grid along an axis add up to one cell less than the number of places:
    the outer half cells at both ends are missing. *)
Theorem C48_kept num : (0 < num)%N -> (\sum_(p < num) kept num p)%R = (INR num - 1)%coqR.
Proof.
move=> h; rewrite /kept.
rewrite (eq_bigr (fun p : 'I_num => ((if nat_of_ord p == 0%N then 0 else 1 / 2)%coqR + (if (nat_of_ord p).+1 == num then 0 else 1 / 2)%coqR)%R)) //.
rewrite big_split /=.
have mulrnR : forall k, (((1 / 2)%coqR : R) *+ k)%R = (INR k / 2)%coqR.
  elim=> [|k IH]; first by rewrite GRing.mulr0n R0E; cbn [INR]; lra.
  by rewrite GRing.mulrS IH S_INR RaddE; lra.
have e : INR num.-1 = (INR num - 1)%coqR by rewrite -{2}(prednK h) S_INR; ring.
case: num h e => // m _ /= e.
rewrite big_ord_recl /= (eq_bigr (fun=> (1 / 2)%coqR)) // GRing.sumr_const card_ord mulrnR.
rewrite big_ord_recr /= eqxx (eq_bigr (fun=> (1 / 2)%coqR)); last first.
  by move=> i _; rewrite eqSS; case: eqP => // e'; have := ltn_ord i; rewrite e' ltnn.
rewrite GRing.sumr_const card_ord mulrnR !RaddE /= in e *.
lra.
Qed.
(** The hypotheses are met by a square grid of propagating waves. *)
Example ex_C48 : exists kt, regular_grid kt 3 3 (-1, -1)%coqR (1, 0)%coqR (0, 1)%coqR /\
  (sqrt ((-1 + INR 1 * 1 + INR 1 * 0) ^ 2 + (-1 + INR 1 * 0 + INR 1 * 1) ^ 2) < 2 * PI / 1)%coqR.
Proof.
exists (Nd [:: 3; 3; 2]%N (fun idx => Some (if nth 0%N idx 2 == 0%N then -1 + INR (nth 0%N idx 0) * 1 + INR (nth 0%N idx 1) * 0
    else -1 + INR (nth 0%N idx 0) * 0 + INR (nth 0%N idx 1) * 1)%coqR)); split; first by split.
have := PI_RGT_0; rewrite /= => h.
have -> : ((-1 + 1 * 1 + 1 * 0) * ((-1 + 1 * 1 + 1 * 0) * 1) + (-1 + 1 * 0 + 1 * 1) * ((-1 + 1 * 0 + 1 * 1) * 1) = 0)%coqR by ring.
by rewrite sqrt_0; lra.
Qed.
Print Assumptions C48_solid_angle.
Print Assumptions C48_undefined.
Print Assumptions C48_profile.
Print Assumptions C48_kept.

(** C35: integrated flux. *)
From Coq Require Import Reals ZArith Lra Lia ClassicalEpsilon.
From mathcomp Require Import all_ssreflect all_algebra.
From Verif Require Import CField Err LinAlg Tac M_utils M_basis S_fields S_fft S_basis L_fields L_basis P_basis M_nd M_farfield S_farfield L_farfield P_farfield.
Set Implicit Arguments. Unset Strict Implicit. Unset Printing Implicit Defensive.
Import GRing.Theory.
Ltac eqR := match goal with |- @eq _ ?a ?b => change (@eq R a b) end.

Lemma derivative_affine (c d x : R) (g : R -> R) : (forall t, g t = c + d * t)%coqR -> derivative g x = d.
Proof.
move=> hg; have D : derivable_pt_lim g x d.
  move=> e e0; exists (mkposreal 1 Rlt_0_1) => h h0 _; rewrite !hg.
  have -> : ((c + d * (x + h) - (c + d * x)) / h - d = 0)%coqR by field.
  by rewrite Rabs_R0.
apply: (uniqueness_limite g x) => //.
by apply: (epsilon_spec (inhabits 0%coqR) (derivable_pt_lim g x)); exists d.
Qed.
Lemma lowest_unique n (expn : n.-tuple (Z * Z)) c z z' : lowest expn c z -> lowest expn c z' -> z = z'.
Proof. by move=> [[t <-] h] [[t' <-] h']; have := h t'; have := h' t; lia. Qed.

Section Scatter.
Variables (K : finType) (M0 M1 : nat) (pl0 pl1 : K -> nat) (X : nat -> nat -> R) (v : K -> R).
Hypothesis hX : forall k, X (pl0 k) (pl1 k) = v k.
Hypothesis hN : forall p q, (forall k, p <> pl0 k \/ q <> pl1 k) -> X p q = 0%R.
Hypothesis inj : forall k k', pl0 k = pl0 k' -> pl1 k = pl1 k' -> k = k'.
Hypothesis lt0 : forall k, (pl0 k < M0)%N.
Hypothesis lt1 : forall k, (pl1 k < M1)%N.
Lemma scatterE p q : X p q = (\sum_k if (p == pl0 k) && (q == pl1 k) then v k else 0)%R.
Proof.
case: (pickP (fun k => (p == pl0 k) && (q == pl1 k))) => [k /andP [/eqP -> /eqP ->]|N].
  rewrite (bigD1 k) //= !eqxx /= big1 ?addr0 // => k' nk; case: ifP => // /andP [/eqP e /eqP e'].
  by case/eqP: nk; apply: inj.
rewrite big1 => [|k _]; last by rewrite N.
by apply: hN => k; have := N k; case: eqP => //= ?; [case: eqP => // ?; right|left].
Qed.
Lemma scatter_sum (g : nat -> nat -> R) :
  (\sum_(p < M0) \sum_(q < M1) X p q * g p q = \sum_k v k * g (pl0 k) (pl1 k))%R.
Proof.
transitivity (\sum_(p < M0) \sum_k \sum_(q < M1) (if (nat_of_ord p == pl0 k) && (nat_of_ord q == pl1 k) then v k else 0) * g p q)%R.
  apply: eq_bigr => p _; rewrite exchange_big /=; apply: eq_bigr => q _.
  by rewrite scatterE big_distrl.
rewrite exchange_big /=; apply: eq_bigr => k _.
rewrite (bigD1 (Ordinal (lt0 k))) //= [X in (_ + X)%R]big1 ?addr0; last first.
  move=> p np; rewrite big1 // => q _; case: eqP => [e|_]; last by rewrite mul0r.
  by case/eqP: np; apply: val_inj.
rewrite (bigD1 (Ordinal (lt1 k))) //= !eqxx /= big1 ?addr0 // => q nq.
by case: eqP => [e|_]; [case/eqP: nq; apply: val_inj|rewrite mul0r].
Qed.
End Scatter.

Section Flux.
Variables (n A B : nat) (wl : R) (kin : nd R) (plv : lattice) (expn : n.-tuple (Z * Z)) (axes : Z * Z) (f : nat).
Variables (x y : nat).
Hypotheses (ndg : nondegenerate plv) (di : distinct expn) (n0 : n != 0%N) (f0 : (1 <= f)%N).
Hypothesis hax : absolute_axes [:: axes.1; axes.2] 4 = Val [:: Z.of_nat x; Z.of_nat y].
Hypotheses (nxy : x != y) (hx : (x < 2)%N) (hy : (y < 2)%N).
Hypothesis shk : nshape kin = [:: A; B; 2]%N.
Variables (ilo ihi jlo jhi : Z).
Hypotheses (L1 : lowest expn fst ilo) (H1 : highest expn fst ihi) (L2 : lowest expn snd jlo) (H2 : highest expn snd jhi).
Notation K := ('I_A * 'I_B * 'I_n)%type.
Let pl0 (k : K) : nat := merged ilo (tnth expn k.2).1 A k.1.1.
Let pl1 (k : K) : nat := merged jlo (tnth expn k.2).2 B k.1.2.
Let M0 := merged_size ilo ihi A.
Let M1 := merged_size jlo jhi B.

Lemma pl_inj k k' : pl0 k = pl0 k' -> pl1 k = pl1 k' -> k = k'.
Proof.
case: k k' => [[a b] t] [[a' b'] t'] e e'.
have [_ _ h] := @C34_places n expn A B ilo ihi jlo jhi di L1 H1 L2 H2 a b t (ltn_ord a) (ltn_ord b).
by have [/val_inj -> /val_inj -> ->] := h a' b' t' (ltn_ord a') (ltn_ord b') e e'.
Qed.
Lemma pl0_lt k : (pl0 k < M0)%N.
Proof.
case: k => [[a b] t].
by have [h _ _] := @C34_places n expn A B ilo ihi jlo jhi di L1 H1 L2 H2 a b t (ltn_ord a) (ltn_ord b).
Qed.
Lemma pl1_lt k : (pl1 k < M1)%N.
Proof.
case: k => [[a b] t].
by have [_ h _] := @C34_places n expn A B ilo ihi jlo jhi di L1 H1 L2 H2 a b t (ltn_ord a) (ltn_ord b).
Qed.
Lemma axes_cases : (minn x y = 0 /\ maxn x y = 1)%N.
Proof. by move: hx hy nxy; case: x => [|[|]] //; case: y => [|[|]]. Qed.
Lemma flux_sum S (flux : nd R) : nshape flux = [:: A; B; 2 * n; S]%N ->
  exists out, unflatten_flux flux expn axes = Val out /\ nshape out = [:: M0; M1; 2; S]%N /\
  forall (g : nat -> nat -> R) (pol : 'I_2) s,
    (\sum_(p < M0) \sum_(q < M1) nget (nan_to_zero out) [:: nat_of_ord p; nat_of_ord q; nat_of_ord pol; s] * g p q =
     \sum_(k : K) nget flux [:: nat_of_ord k.1.1; nat_of_ord k.1.2; pol * n + k.2; s]%N * g (pl0 k) (pl1 k))%R.
Proof.
move=> sh; have d4 : ndim flux = 4 by rewrite /ndim sh.
have [mi ma] := axes_cases.
have h := @C34_flux R n flux expn axes x y.
rewrite d4 sh mi ma in h.
have [out [i [i' [j [j' [hu [[l1 h1 l2 h2] [osh [some none]]]]]]]]] := h di n0 (erefl _) hax nxy hx hy.
have ei := lowest_unique L1 l1; have ej := lowest_unique L2 l2; subst i j.
have ei : ihi = i' by have [[t <-] a] := H1; have [[t' <-] a'] := h1; have := a t'; have := a' t; lia.
have ej : jhi = j' by have [[t <-] a] := H2; have [[t' <-] a'] := h2; have := a t'; have := a' t; lia.
subst i' j'; exists out; split=> //; split; first by rewrite osh.
move=> g pol s.
apply: (@scatter_sum _ M0 M1 pl0 pl1 (fun p q => nget (nan_to_zero out) [:: p; q; nat_of_ord pol; s])).
- move=> k; have := some [:: nat_of_ord k.1.1; nat_of_ord k.1.2; pol * n + k.2; s]%N pol k.2 (erefl _) (ltn_ord _) (ltn_ord _) (erefl _).
  by rewrite /nan_to_zero /= /pl0 /pl1 => ->.
- move=> p q hn; rewrite /nan_to_zero /=.
  rewrite (none [::] p q pol s) // => a b t ha hb.
  exact: hn (Ordinal ha, Ordinal hb, t).
- exact: pl_inj.
- exact: pl0_lt.
- exact: pl1_lt.
Qed.
Lemma kt_sum : exists kt out (G : 'I_n -> R * R), transverse_wavevectors_grid kin plv expn = Val kt /\
  unflatten_transverse_wavevectors kt expn axes = Val out /\ nshape out = [:: M0; M1; 2]%N /\
  (forall t, bragg plv (tnth expn t) (G t)) /\
  forall (g : nat -> nat -> R) (c : 'I_2),
    (\sum_(p < M0) \sum_(q < M1) nget (nan_to_zero out) [:: nat_of_ord p; nat_of_ord q; nat_of_ord c] * g p q =
     \sum_(k : K) (nget kin [:: nat_of_ord k.1.1; nat_of_ord k.1.2; nat_of_ord c]%N +
                   (if c == 0 then (G k.2).1 else (G k.2).2)) * g (pl0 k) (pl1 k))%R.
Proof.
have [rv hr] := reciprocal_total ndg.
rewrite /transverse_wavevectors_grid hr shk; cbn [bind nth].
set kt := Nd _ _; exists kt.
have d4 : ndim kt = 4 by [].
have [mi ma] := axes_cases.
have h := @C34_wavevectors R n kt expn axes x y.
rewrite d4 mi ma in h.
have [out [i [i' [j [j' [hu [[l1 h1 l2 h2] [osh [some none]]]]]]]]] := h di n0 (erefl _) (erefl _) hax nxy hx hy.
have ei := lowest_unique L1 l1; have ej := lowest_unique L2 l2; subst i j.
have ei : ihi = i' by have [[t <-] a] := H1; have [[t' <-] a'] := h1; have := a t'; have := a' t; lia.
have ej : jhi = j' by have [[t <-] a] := H2; have [[t' <-] a'] := h2; have := a t'; have := a' t; lia.
subst i' j'; exists out, (bragg_vector rv expn); split=> //; split=> //; split; first by rewrite osh.
split; first by move=> t; exact: bragg_vectorP.
move=> g c.
apply: (@scatter_sum _ M0 M1 pl0 pl1 (fun p q => nget (nan_to_zero out) [:: p; q; nat_of_ord c])).
- move=> k; have := some [:: nat_of_ord k.1.1; nat_of_ord k.1.2; nat_of_ord k.2; nat_of_ord c]%N k.2 (erefl _) (ltn_ord _) (ltn_ord _) (erefl _).
  rewrite /nan_to_zero /= /pl0 /pl1 => ->; cbn [odflt oapp]; rewrite /bragg_vector -(tnth_nth _ expn k.2).
  by case: c => [[|[|]]].
- move=> p q hn; rewrite /nan_to_zero /=.
  rewrite (none [::] p q c) // => a b t ha hb.
  exact: hn (Ordinal ha, Ordinal hb, t).
- exact: pl_inj.
- exact: pl0_lt.
- exact: pl1_lt.
Qed.
(** The weight of output place [(P, Q)] of the upsampled grid for point [k]. *)
Definition spread (k : K) (P Q : nat) : R := (resize_weight M0 f (pl0 k) P * resize_weight M1 f (pl1 k) Q)%coqR.
Lemma resize2E (X : M_nd.nd R) rest P Q : nshape X = [:: M0; M1] ++ rest -> forall idx,
  nget (resize2 f X) ([:: P; Q] ++ idx) =
  (\sum_(p < M0) \sum_(q < M1) nget X ([:: nat_of_ord p; nat_of_ord q] ++ idx) * (resize_weight M0 f p P * resize_weight M1 f q Q))%R.
Proof. by move=> sh idx; rewrite /resize2 sh /= drop0. Qed.
Lemma upsampledE : exists (G : 'I_n -> R * R) (polar azim : M_nd.nd (option R)),
  let kx P Q := (\sum_(k : K) (nget kin [:: nat_of_ord k.1.1; nat_of_ord k.1.2; 0%N] + (G k.2).1) * spread k P Q)%R in
  let ky P Q := (\sum_(k : K) (nget kin [:: nat_of_ord k.1.1; nat_of_ord k.1.2; 1%N] + (G k.2).2) * spread k P Q)%R in
  [/\ (forall t, bragg plv (tnth expn t) (G t)),
      nshape polar = [:: f * M0; f * M1]%N /\ nshape azim = [:: f * M0; f * M1]%N,
      (forall P Q, nget polar [:: P; Q] = (angles_of_wavevector wl (kx P Q) (ky P Q)).1 /\
                   nget azim [:: P; Q] = Some (angles_of_wavevector wl (kx P Q) (ky P Q)).2) &
      forall fn S (flux : M_nd.nd R), nshape flux = [:: A; B; 2 * n; S]%N ->
      exists out, integrated_flux_upsampled wl kin plv expn axes fn f flux = Val out /\ nshape out = [:: S] /\
      forall s, nget out [:: s] = (\sum_(k : K) \sum_(pol < 2)
         nget flux [:: nat_of_ord k.1.1; nat_of_ord k.1.2; pol * n + k.2; s]%N *
         (\sum_(P < f * M0) \sum_(Q < f * M1) (if nget (fn polar azim) [:: nat_of_ord P; nat_of_ord Q] then spread k P Q else 0)
          * (/ INR f ^ 2)%coqR))%R].
Proof.
have [kt [ko [G [hkt [hku [ksh [hG ksum]]]]]]] := kt_sum.
pose ku := resize2 f (nan_to_zero ko).
pose kn := Nd (nshape ku) (fun idx => Some (nget ku idx)).
exists G, (angles_from_unflattened_transverse_wavevectors kn wl).1, (angles_from_unflattened_transverse_wavevectors kn wl).2.
have KU P Q (c : 'I_2) : nget ku [:: P; Q; nat_of_ord c] =
  (\sum_(k : K) (nget kin [:: nat_of_ord k.1.1; nat_of_ord k.1.2; nat_of_ord c]%N +
                   (if c == 0 then (G k.2).1 else (G k.2).2)) * spread k P Q)%R.
  have := @resize2E (nan_to_zero ko) [:: 2]%N P Q ksh [:: nat_of_ord c].
  rewrite -/ku; cbn [cat] => ->.
  exact: (ksum (fun p q => (resize_weight M0 f p P * resize_weight M1 f q Q)%R) c).
move=> kx ky; split=> //.
- by rewrite /= ksh.
- move=> P Q; have := KU P Q ord0; have := KU P Q (@Ordinal 2 1 isT); rewrite -/(kx P Q) -/(ky P Q) /=.
  by move=> -> ->.
move=> fn S flux sh; have [fo [hfu [fsh fsum]]] := flux_sum sh.
rewrite /integrated_flux_upsampled f0; cbn [check]; rewrite hkt; cbn [bind]; rewrite hfu; cbn [bind]; rewrite hku; cbn [bind].
eexists; split; first reflexivity.
split; first by rewrite /= fsh.
move=> s; cbn [nget].
have fsh' : nshape (resize2 f (nan_to_zero fo)) = [:: f * M0; f * M1; 2; S]%N by rewrite /= fsh.
rewrite fsh'; cbn [nth].
set sel := nget (fn _ _).
transitivity (\sum_(P < f * M0) \sum_(Q < f * M1) \sum_(pol < 2) \sum_(k : K)
  (if sel [:: nat_of_ord P; nat_of_ord Q] then nget flux [:: nat_of_ord k.1.1; nat_of_ord k.1.2; pol * n + k.2; s]%N * spread k P Q else 0) * (/ INR f ^ 2)%coqR)%R.
  rewrite /Rdiv -RmulE big_distrl; apply: eq_bigr => P _; rewrite big_distrl; apply: eq_bigr => Q _; rewrite big_distrl; apply: eq_bigr => pol _.
  rewrite -big_distrl /=; congr (_ * _)%R; case: ifP => _; last by rewrite big1.
  have e := @resize2E (nan_to_zero fo) [:: 2; S]%N P Q fsh [:: nat_of_ord pol; s].
  apply: etrans e _; exact: (fsum (fun p q => (resize_weight M0 f p P * resize_weight M1 f q Q)%R) pol s).
transitivity (\sum_(k : K) \sum_(pol < 2) \sum_(P < f * M0) \sum_(Q < f * M1)
  (if sel [:: nat_of_ord P; nat_of_ord Q] then nget flux [:: nat_of_ord k.1.1; nat_of_ord k.1.2; pol * n + k.2; s]%N * spread k P Q else 0) * (/ INR f ^ 2)%coqR)%R.
  rewrite [RHS]exchange_big /=.
  rewrite [RHS](eq_bigr (fun pol : 'I_2 => \sum_(P < f * M0) \sum_(Q < f * M1) \sum_(k : K)
    (if sel [:: nat_of_ord P; nat_of_ord Q] then nget flux [:: nat_of_ord k.1.1; nat_of_ord k.1.2; pol * n + k.2; s]%N * spread k P Q else 0) * (/ INR f ^ 2)%coqR))%R; last first.
    move=> pol _; rewrite exchange_big /=; apply: eq_bigr => P _; rewrite exchange_big /=; exact: eq_bigr.
  rewrite [RHS]exchange_big /=; apply: eq_bigr => P _; rewrite exchange_big /=; exact: eq_bigr.
apply: eq_bigr => k _; apply: eq_bigr => pol _; rewrite big_distrr /=; apply: eq_bigr => P _.
rewrite big_distrr /=; apply: eq_bigr => Q _.
case: ifP => _; [by rewrite mulrA|by rewrite !mul0r mulr0].
Qed.
Section Mask.
Variable fn : M_nd.nd (option R) -> M_nd.nd (option R) -> M_nd.nd bool.
Lemma collapse3 N (a0 b0 o0 : nat) (c : R) (F : nat -> nat -> nat -> R) : (a0 < A)%N -> (b0 < B)%N -> (o0 < N)%N ->
  (\sum_(a < A) \sum_(b < B) \sum_(o < N) (if [:: a0; b0; o0; 0%N] == [:: nat_of_ord a; nat_of_ord b; nat_of_ord o; 0%N] then c else 0) * F a b o = c * F a0 b0 o0)%R.
Proof.
move=> ha hb ho; rewrite (bigD1 (Ordinal ha)) //= [X in (_ + X)%R]big1 ?addr0; last first.
  move=> a na; rewrite big1 // => b _; rewrite big1 // => o _.
  by rewrite ifF ?mul0r //; apply/eqP => -[e _ _]; case/eqP: na; apply: val_inj.
rewrite (bigD1 (Ordinal hb)) //= [X in (_ + X)%R]big1 ?addr0; last first.
  move=> b nb; rewrite big1 // => o _.
  by rewrite ifF ?mul0r //; apply/eqP => -[e _]; case/eqP: nb; apply: val_inj.
rewrite (bigD1 (Ordinal ho)) //= eqxx [X in (_ + X)%R]big1 ?addr0 // => o no.
by rewrite ifF ?mul0r //; apply/eqP => -[e]; case/eqP: no; apply: val_inj.
Qed.
Lemma order_lt (pol : 'I_2) (t : 'I_n) : (pol * n + t < 2 * n)%N.
Proof.
have h : (pol * n <= 1 * n)%N by rewrite leq_mul2r -ltnS ltn_ord orbT.
rewrite mul2n -addnn; apply: (@leq_ltn_trans (1 * n + t)); first by rewrite leq_add2r.
by rewrite mul1n ltn_add2l.
Qed.
(** Differentiating gives back the weights, so the result is the weighted sum. *)
Lemma integratedE (w : K -> R) : (forall S (flux : M_nd.nd R), nshape flux = [:: A; B; 2 * n; S]%N ->
      exists out, integrated_flux_upsampled wl kin plv expn axes fn f flux = Val out /\ nshape out = [:: S] /\
      forall s, nget out [:: s] = (\sum_(k : K) \sum_(pol < 2)
         nget flux [:: nat_of_ord k.1.1; nat_of_ord k.1.2; pol * n + k.2; s]%N * w k)%R) ->
  forall S (flux : M_nd.nd R), nshape flux = [:: A; B; 2 * n; S]%N ->
  exists out, integrated_flux wl kin plv expn axes fn f flux = Val out /\ nshape out = [:: S] /\
  forall s, nget out [:: s] = (\sum_(k : K) \sum_(pol < 2)
     nget flux [:: nat_of_ord k.1.1; nat_of_ord k.1.2; pol * n + k.2; s]%N * w k)%R.
Proof.
move=> hw S flux sh; rewrite /integrated_flux /ndim sh hax; cbn [bind].
rewrite /integrated_flux_weights /ndim sh; cbn [size take cat subn].
set dummy := Nd _ _; have [o1 [ho1 _]] := hw 1%N dummy (erefl _); rewrite ho1; cbn [bind].
eexists; split; first reflexivity.
split=> // s; cbn [nget nshape nth].
pose P (idx : seq nat) (kp : K * 'I_2) : bool := [:: nat_of_ord kp.1.1.1; nat_of_ord kp.1.1.2; kp.2 * n + kp.1.2; 0]%N == idx.
have D idx : derivative (fun t : R => match integrated_flux_upsampled wl kin plv expn axes fn f (set_element dummy idx t) with
     Val r => nget r [:: 0%N] | Exn _ => 0%coqR end) (nget dummy idx) = (\sum_(kp : K * 'I_2) if P idx kp then w kp.1 else 0)%R.
  apply: (derivative_affine (c := (\sum_(kp : K * 'I_2) if P idx kp then 0 else w kp.1)%R)) => t.
  have [out [ho [_ hg]]] := hw 1%N (set_element dummy idx t) (erefl _); rewrite ho hg.
  rewrite pair_bigA -RmulE -RaddE big_distrl /= -big_split /=; apply: eq_bigr => kp _; rewrite /P.
  by case: ifP => _; rewrite ?mul0r ?addr0 ?add0r ?mul1r // mulrC.
rewrite (eq_bigr (fun a : 'I_A => \sum_(b < B) \sum_(o < 2 * n) \sum_(kp : K * 'I_2) (if P [:: nat_of_ord a; nat_of_ord b; nat_of_ord o; 0%N] kp then w kp.1 else 0)
   * nget flux [:: nat_of_ord a; nat_of_ord b; nat_of_ord o; s])%R); last first.
  by move=> a _; apply: eq_bigr => b _; apply: eq_bigr => o _; rewrite D -RmulE big_distrl.
transitivity (\sum_(kp : K * 'I_2) \sum_(a < A) \sum_(b < B) \sum_(o < 2 * n) (if P [:: nat_of_ord a; nat_of_ord b; nat_of_ord o; 0%N] kp then w kp.1 else 0)
   * nget flux [:: nat_of_ord a; nat_of_ord b; nat_of_ord o; s])%R.
  rewrite [RHS]exchange_big /=; apply: eq_bigr => a _; rewrite [RHS]exchange_big /=; apply: eq_bigr => b _; rewrite [RHS]exchange_big /=; exact: eq_bigr.
rewrite [RHS]pair_bigA; apply: eq_bigr => kp _.
rewrite (collapse3 (w kp.1) (fun a b o => nget flux [:: a; b; o; s]) (ltn_ord _) (ltn_ord _) (order_lt _ _)).
by rewrite mulrC.
Qed.
End Mask.
Lemma M0_gt0 (k : K) : (0 < M0)%N. Proof. exact: leq_ltn_trans (pl0_lt k). Qed.
Lemma M1_gt0 (k : K) : (0 < M1)%N. Proof. exact: leq_ltn_trans (pl1_lt k). Qed.
Lemma fR : (1 <= INR f)%coqR. Proof. by apply: (le_INR 1); apply/leP. Qed.
Lemma spread_sum (k : K) : (\sum_(P < f * M0) \sum_(Q < f * M1) spread k P Q * (/ INR f ^ 2)%coqR = 1)%R.
Proof.
have m0 := M0_gt0 k; have m1 := M1_gt0 k.
rewrite (eq_bigr (fun P : 'I_(f * M0) => resize_weight M0 f (pl0 k) P * (INR f * (/ INR f ^ 2)%coqR))%R); last first.
  by move=> P _; rewrite -big_distrl /= -(weight_row m1 f0 (pl1_lt k)) /spread -RmulE -big_distrr /= -mulrA.
rewrite -big_distrl /= (weight_row m0 f0 (pl0_lt k)).
by have := fR => h; rewrite !RmulE R1E; eqR; field; lra.
Qed.
Lemma spread_ge0 k P Q : (0 <= spread k P Q)%coqR.
Proof. by apply: Rmult_le_pos; apply: weight_ge0. Qed.
End Flux.

(** The setting: a nondegenerate lattice, distinct orders, a positive upsampling factor, and the
    zone grid on the first two of the four axes of the flux (named in any order, and from
    either end). *)
Definition flux_setting n (plv : lattice) (expn : n.-tuple (Z * Z)) (axes : Z * Z) (f : nat) : Prop :=
  [/\ nondegenerate plv, distinct expn, n != 0%N, (1 <= f)%N &
      absolute_axes [:: axes.1; axes.2] 4 = Val [:: 0; 1]%coqZ \/ absolute_axes [:: axes.1; axes.2] 4 = Val [:: 1; 0]%coqZ].

(** The integrated flux is a sum over zone points, orders and polarizations of the flux times a
    weight: the fraction of the upsampled grid that is selected, each point being spread over
    the grid by linear interpolation. The selected directions are those of the transverse
    wavevectors [k + G], interpolated in the same way. *)
Theorem C35_value n A B wl (kin : nd R) plv (expn : n.-tuple (Z * Z)) axes f :
  flux_setting plv expn axes f -> nshape kin = [:: A; B; 2]%N ->
  exists ilo ihi jlo jhi (G : 'I_n -> R * R) (polar azim : nd (option R)),
  let M0 := merged_size ilo ihi A in let M1 := merged_size jlo jhi B in
  let share (a b : nat) (t : 'I_n) P Q :=
    (interpolation M0 f (merged ilo (tnth expn t).1 A a) P * interpolation M1 f (merged jlo (tnth expn t).2 B b) Q)%coqR in
  [/\ [/\ lowest expn fst ilo, highest expn fst ihi, lowest expn snd jlo & highest expn snd jhi],
      (forall t, bragg plv (tnth expn t) (G t)),
      nshape polar = [:: f * M0; f * M1]%N /\ nshape azim = [:: f * M0; f * M1]%N,
      (forall P Q, (P < f * M0)%N -> (Q < f * M1)%N ->
         let kx := (\sum_(a < A) \sum_(b < B) \sum_(t < n) (nget kin [:: nat_of_ord a; nat_of_ord b; 0%N] + (G t).1) * share a b t P Q)%R in
         let ky := (\sum_(a < A) \sum_(b < B) \sum_(t < n) (nget kin [:: nat_of_ord a; nat_of_ord b; 1%N] + (G t).2) * share a b t P Q)%R in
         nget polar [:: P; Q] = (angles_of_wavevector wl kx ky).1 /\
         nget azim [:: P; Q] = Some (angles_of_wavevector wl kx ky).2) &
      forall fn S (flux : nd R), nshape flux = [:: A; B; 2 * n; S]%N ->
      exists out, integrated_flux wl kin plv expn axes fn f flux = Val out /\ nshape out = [:: S] /\
      forall s, nget out [:: s] = (\sum_(a < A) \sum_(b < B) \sum_(t < n) \sum_(pol < 2)
        nget flux [:: nat_of_ord a; nat_of_ord b; pol * n + t; s]%N *
        (\sum_(P < f * M0) \sum_(Q < f * M1)
           (if nget (fn polar azim) [:: nat_of_ord P; nat_of_ord Q] then share a b t P Q else 0) * (/ INR f ^ 2)%coqR))%R].
Proof.
move=> [ndg di n0 f0 hax] shk.
have [x [y [hax' nxy hx hy]]] : exists x y, [/\ absolute_axes [:: axes.1; axes.2] 4 = Val [:: Z.of_nat x; Z.of_nat y], x != y, (x < 2)%N & (y < 2)%N].
  by case: hax => ->; [exists 0%N, 1%N|exists 1%N, 0%N].
have L1 := minZP expn fst n0; have H1 := maxZP expn fst n0; have L2 := minZP expn snd n0; have H2 := maxZP expn snd n0.
move: (minZ [seq c.1 | c <- expn]) (maxZ [seq c.1 | c <- expn]) (minZ [seq c.2 | c <- expn]) (maxZ [seq c.2 | c <- expn]) L1 H1 L2 H2 => ilo ihi jlo jhi L1 H1 L2 H2.
have [G [polar [azim [hG hsh hang hval]]]] := @upsampledE n A B wl kin plv expn axes f x y ndg di n0 f0 hax' nxy hx hy shk ilo ihi jlo jhi L1 H1 L2 H2.
exists ilo, ihi, jlo, jhi, G, polar, azim => M0 M1 share.
have E (k : 'I_A * 'I_B * 'I_n) P Q : (P < f * M0)%N -> (Q < f * M1)%N ->
    spread expn f ilo ihi jlo jhi k P Q = share k.1.1 k.1.2 k.2 P Q.
  move=> hP hQ; rewrite /spread /share !weightE //.
  - by apply: (@M1_gt0 _ _ _ expn di ilo ihi jlo jhi L1 H1 L2 H2 k).
  - by apply: (@pl1_lt _ _ _ expn di ilo ihi jlo jhi L1 H1 L2 H2 k).
  - by apply: (@M0_gt0 _ _ _ expn di ilo ihi jlo jhi L1 H1 L2 H2 k).
  - by apply: (@pl0_lt _ _ _ expn di ilo ihi jlo jhi L1 H1 L2 H2 k).
split=> //.
- move=> P Q hP hQ kx ky; have [-> ->] := hang P Q.
  have ex : kx = (\sum_(k : 'I_A * 'I_B * 'I_n) (nget kin [:: nat_of_ord k.1.1; nat_of_ord k.1.2; 0%N] + (G k.2).1) * spread expn f ilo ihi jlo jhi k P Q)%R.
    by rewrite /kx !pair_bigA; apply: eq_bigr => k _; rewrite E.
  have ey : ky = (\sum_(k : 'I_A * 'I_B * 'I_n) (nget kin [:: nat_of_ord k.1.1; nat_of_ord k.1.2; 1%N] + (G k.2).2) * spread expn f ilo ihi jlo jhi k P Q)%R.
    by rewrite /ky !pair_bigA; apply: eq_bigr => k _; rewrite E.
  by rewrite ex ey.
- move=> fn S flux sh; have [out [ho [hos hget]]] := integratedE hax' (hval fn) sh.
  exists out; split=> //; split=> // s; rewrite hget [RHS]pair_bigA [RHS]pair_bigA; apply: eq_bigr => k _; apply: eq_bigr => pol _.
  congr (_ * _)%R; apply: eq_bigr => P _; apply: eq_bigr => Q _; case: ifP => // _.
  by rewrite E.
Qed.
Print Assumptions C35_value.

Lemma weighted n A B wl (kin : nd R) plv (expn : n.-tuple (Z * Z)) axes f :
  flux_setting plv expn axes f -> nshape kin = [:: A; B; 2]%N ->
  exists N0 N1 (polar azim : nd (option R)) (share : 'I_A * 'I_B * 'I_n -> 'I_N0 -> 'I_N1 -> R),
  let w (fn : nd (option R) -> nd (option R) -> nd bool) k :=
    (\sum_P \sum_Q if nget (fn polar azim) [:: nat_of_ord P; nat_of_ord Q] then share k P Q else 0)%R in
  [/\ (forall k P Q, 0 <= share k P Q)%coqR, (forall k, \sum_P \sum_Q share k P Q = 1)%R,
      nshape polar = [:: N0; N1] /\ nshape azim = [:: N0; N1] &
      forall fn S (flux : nd R), nshape flux = [:: A; B; 2 * n; S]%N ->
      exists out out', integrated_flux wl kin plv expn axes fn f flux = Val out /\
        integrated_flux_upsampled wl kin plv expn axes fn f flux = Val out' /\
        nshape out = [:: S] /\ nshape out' = [:: S] /\
      forall s, nget out [:: s] = nget out' [:: s] /\ nget out [:: s] = (\sum_(k : 'I_A * 'I_B * 'I_n) \sum_(pol < 2)
        nget flux [:: nat_of_ord k.1.1; nat_of_ord k.1.2; pol * n + k.2; s]%N * w fn k)%R].
Proof.
move=> [ndg di n0 f0 hax] shk.
have [x [y [hax' nxy hx hy]]] : exists x y, [/\ absolute_axes [:: axes.1; axes.2] 4 = Val [:: Z.of_nat x; Z.of_nat y], x != y, (x < 2)%N & (y < 2)%N].
  by case: hax => ->; [exists 0%N, 1%N|exists 1%N, 0%N].
have L1 := minZP expn fst n0; have H1 := maxZP expn fst n0; have L2 := minZP expn snd n0; have H2 := maxZP expn snd n0.
move: (minZ [seq c.1 | c <- expn]) (maxZ [seq c.1 | c <- expn]) (minZ [seq c.2 | c <- expn]) (maxZ [seq c.2 | c <- expn]) L1 H1 L2 H2 => ilo ihi jlo jhi L1 H1 L2 H2.
have [G [polar [azim [hG hsh hang hval]]]] := @upsampledE n A B wl kin plv expn axes f x y ndg di n0 f0 hax' nxy hx hy shk ilo ihi jlo jhi L1 H1 L2 H2.
exists (f * merged_size ilo ihi A)%N, (f * merged_size jlo jhi B)%N, polar, azim,
  (fun k P Q => (spread expn f ilo ihi jlo jhi k P Q * (/ INR f ^ 2)%coqR)%R) => w.
split=> //.
- move=> k P Q; apply: Rmult_le_pos; first exact: spread_ge0.
  by left; apply: Rinv_0_lt_compat; have := fR f0; nra.
- by move=> k; apply: spread_sum.
- move=> fn S flux sh; have [out' [ho' [hs' hg']]] := hval fn S flux sh.
  have [out [ho [hs hg]]] := integratedE hax' (hval fn) sh.
  exists out, out'; do 4 split=> //; move=> s; rewrite hg hg'; split=> //.
  apply: eq_bigr => k _; apply: eq_bigr => pol _; congr (_ * _)%R.
  by apply: eq_bigr => P _; apply: eq_bigr => Q _; case: ifP => // _; rewrite mul0r.
Qed.
Lemma R_sum_ge0 (I : Type) (r : seq I) (F : I -> R) : (forall i, 0 <= F i)%coqR -> (0 <= (\sum_(i <- r) F i)%R)%coqR.
Proof. by move=> h; apply: big_ind => [|u v u0 v0|i _]; [right|exact: Rplus_le_le_0_compat|]. Qed.
Lemma R_sum_le (I : Type) (r : seq I) (F G : I -> R) : (forall i, F i <= G i)%coqR -> ((\sum_(i <- r) F i)%R <= (\sum_(i <- r) G i)%R)%coqR.
Proof. by move=> h; apply: (big_ind2 Rle) => [|u v u' v' h1 h2|i _]; [right|exact: Rplus_le_compat|]. Qed.

(** Taking the weights from the gradient of the direct computation changes nothing: the result
    is that of the direct computation. *)
Theorem C35_gradient n A B S wl (kin : nd R) plv (expn : n.-tuple (Z * Z)) axes f fn (flux : nd R) :
  flux_setting plv expn axes f -> nshape kin = [:: A; B; 2]%N -> nshape flux = [:: A; B; 2 * n; S]%N ->
  exists out out', integrated_flux wl kin plv expn axes fn f flux = Val out /\
    integrated_flux_upsampled wl kin plv expn axes fn f flux = Val out' /\
    nshape out = [:: S] /\ nshape out' = [:: S] /\ forall s, nget out [:: s] = nget out' [:: s].
Proof.
move=> st shk sh; have [N0 [N1 [po [az [sha [_ _ _ h]]]]]] := weighted wl st shk.
have [out [out' [ho [ho' [hs [hs' hg]]]]]] := h fn S flux sh.
by exists out, out'; do 4 split=> //; move=> s; case: (hg s).
Qed.
(** Linearity. *)
Theorem C35_linear n A B S wl (kin : nd R) plv (expn : n.-tuple (Z * Z)) axes f fn (flux flux' : nd R) (a b : R) :
  flux_setting plv expn axes f -> nshape kin = [:: A; B; 2]%N ->
  nshape flux = [:: A; B; 2 * n; S]%N -> nshape flux' = [:: A; B; 2 * n; S]%N ->
  let sum := Nd [:: A; B; 2 * n; S]%N (fun idx => a * nget flux idx + b * nget flux' idx)%coqR in
  exists r r' r'', [/\ integrated_flux wl kin plv expn axes fn f flux = Val r,
    integrated_flux wl kin plv expn axes fn f flux' = Val r',
    integrated_flux wl kin plv expn axes fn f sum = Val r'' &
    forall s, nget r'' [:: s] = (a * nget r [:: s] + b * nget r' [:: s])%coqR].
Proof.
move=> st shk sh sh' sum; have [N0 [N1 [po [az [sha [_ _ _ h]]]]]] := weighted wl st shk.
have [r [ro [hr [_ [_ [_ hg]]]]]] := h fn S flux sh.
have [r' [r'o [hr' [_ [_ [_ hg']]]]]] := h fn S flux' sh'.
have [r'' [r''o [hr'' [_ [_ [_ hg'']]]]]] := h fn S sum (erefl _).
exists r, r', r''; split=> // s; have [_ ->] := hg s; have [_ ->] := hg' s; have [_ ->] := hg'' s.
rewrite -!RmulE -RaddE !big_distrr -big_split /=; apply: eq_bigr => k _.
rewrite !big_distrr -big_split /=; apply: eq_bigr => pol _; rewrite -!RmulE -RaddE.
by rewrite mulrDl !mulrA.
Qed.
(** Sums over all zone points, orders and polarizations. *)
Definition total_flux A B N (flux : nd R) s : R :=
  (\sum_(a < A) \sum_(b < B) \sum_(o < N) nget flux [:: nat_of_ord a; nat_of_ord b; nat_of_ord o; s])%R.
Lemma sum_orders n (F : nat -> R) : (\sum_(o < 2 * n) F o = \sum_(t < n) \sum_(pol < 2) F (pol * n + t)%N)%R.
Proof.
rewrite exchange_big /= big_ord_recl big_ord_recl big_ord0 addr0 /=.
have -> : (\sum_(o < 2 * n) F o = \sum_(o < n + n) F o)%R by rewrite mul2n -addnn.
rewrite big_split_ord /=; congr (_ + _)%R.
by apply: eq_bigr => i _; rewrite /bump /= !add1n mul1n.
Qed.
Lemma total_fluxE A B n (flux : nd R) s : total_flux A B (2 * n) flux s =
  (\sum_(k : 'I_A * 'I_B * 'I_n) \sum_(pol < 2) nget flux [:: nat_of_ord k.1.1; nat_of_ord k.1.2; pol * n + k.2; s]%N)%R.
Proof.
rewrite /total_flux.
transitivity (\sum_(a < A) \sum_(b < B) \sum_(t < n) \sum_(pol < 2) nget flux [:: nat_of_ord a; nat_of_ord b; pol * n + t; s]%N)%R.
  apply: eq_bigr => a _; apply: eq_bigr => b _.
  exact: (sum_orders n (fun o => nget flux [:: nat_of_ord a; nat_of_ord b; o; s])).
by rewrite [LHS]pair_bigA [LHS]pair_bigA.
Qed.
(** When every direction is selected the result is the total flux, for any upsampling. *)
Theorem C35_full_sphere n A B S wl (kin : nd R) plv (expn : n.-tuple (Z * Z)) axes f fn (flux : nd R) :
  flux_setting plv expn axes f -> nshape kin = [:: A; B; 2]%N -> nshape flux = [:: A; B; 2 * n; S]%N ->
  (forall polar azim idx, valid_index (nshape polar) idx -> nget (fn polar azim) idx = true) ->
  exists r, integrated_flux wl kin plv expn axes fn f flux = Val r /\ nshape r = [:: S] /\
  forall s, nget r [:: s] = total_flux A B (2 * n) flux s.
Proof.
move=> st shk sh hfn; have [N0 [N1 [po [az [sha [_ h1 hsh h]]]]]] := weighted wl st shk.
have [r [ro [hr [_ [hs [_ hg]]]]]] := h fn S flux sh.
exists r; split=> //; split=> // s; have [_ ->] := hg s; rewrite total_fluxE.
apply: eq_bigr => k _; apply: eq_bigr => pol _; rewrite -[RHS]mulr1 -(h1 k); congr (_ * _)%R.
apply: eq_bigr => P _; apply: eq_bigr => Q _; rewrite hfn //.
by rewrite (proj1 hsh) /valid_index /= !ltn_ord.
Qed.
(** For a flux of one sign the result lies between zero and the total flux, and grows with the
    set of selected directions. *)
Theorem C35_monotone n A B S wl (kin : nd R) plv (expn : n.-tuple (Z * Z)) axes f (fn fn' : nd (option R) -> nd (option R) -> nd bool) (flux : nd R) :
  flux_setting plv expn axes f -> nshape kin = [:: A; B; 2]%N -> nshape flux = [:: A; B; 2 * n; S]%N ->
  (forall idx, 0 <= nget flux idx)%coqR ->
  (forall polar azim idx, nget (fn polar azim) idx -> nget (fn' polar azim) idx) ->
  exists r r', [/\ integrated_flux wl kin plv expn axes fn f flux = Val r,
    integrated_flux wl kin plv expn axes fn' f flux = Val r' &
    forall s, (0 <= nget r [:: s] <= nget r' [:: s])%coqR /\ (nget r' [:: s] <= total_flux A B (2 * n) flux s)%coqR].
Proof.
move=> st shk sh f0 hfn; have [N0 [N1 [po [az [sha [h0 h1 hsh h]]]]]] := weighted wl st shk.
have [r [ro [hr [_ [_ [_ hg]]]]]] := h fn S flux sh.
have [r' [r'o [hr' [_ [_ [_ hg']]]]]] := h fn' S flux sh.
exists r, r'; split=> // s; have [_ ->] := hg s; have [_ ->] := hg' s; rewrite total_fluxE.
split; [split|].
- apply: R_sum_ge0 => k; apply: R_sum_ge0 => pol; apply: Rmult_le_pos => //.
  by apply: R_sum_ge0 => P; apply: R_sum_ge0 => Q; case: ifP => _; [exact: h0|right].
- apply: R_sum_le => k; apply: R_sum_le => pol; apply: Rmult_le_compat_l => //.
  apply: R_sum_le => P; apply: R_sum_le => Q; case: ifP => [/hfn ->|_]; first by right.
  by case: ifP => _; [exact: h0|right].
- apply: R_sum_le => k; apply: R_sum_le => pol; rewrite -[X in (_ <= X)%coqR]Rmult_1_r; apply: Rmult_le_compat_l => //.
  rewrite -[X in (_ <= X)%coqR](h1 k).
  by apply: R_sum_le => P; apply: R_sum_le => Q; case: ifP => _; [right|exact: h0].
Qed.
(** Fluxes through disjoint sets of directions add. *)
Theorem C35_additive n A B S wl (kin : nd R) plv (expn : n.-tuple (Z * Z)) axes f (fn fn' fn'' : nd (option R) -> nd (option R) -> nd bool) (flux : nd R) :
  flux_setting plv expn axes f -> nshape kin = [:: A; B; 2]%N -> nshape flux = [:: A; B; 2 * n; S]%N ->
  (forall polar azim idx, ~~ (nget (fn polar azim) idx && nget (fn' polar azim) idx)) ->
  (forall polar azim idx, nget (fn'' polar azim) idx = nget (fn polar azim) idx || nget (fn' polar azim) idx) ->
  exists r r' r'', [/\ integrated_flux wl kin plv expn axes fn f flux = Val r,
    integrated_flux wl kin plv expn axes fn' f flux = Val r',
    integrated_flux wl kin plv expn axes fn'' f flux = Val r'' &
    forall s, nget r'' [:: s] = (nget r [:: s] + nget r' [:: s])%coqR].
Proof.
move=> st shk sh dis un; have [N0 [N1 [po [az [sha [h0 h1 hsh h]]]]]] := weighted wl st shk.
have [r [ro [hr [_ [_ [_ hg]]]]]] := h fn S flux sh.
have [r' [r'o [hr' [_ [_ [_ hg']]]]]] := h fn' S flux sh.
have [r'' [r''o [hr'' [_ [_ [_ hg'']]]]]] := h fn'' S flux sh.
exists r, r', r''; split=> // s; have [_ ->] := hg s; have [_ ->] := hg' s; have [_ ->] := hg'' s.
rewrite -RaddE -big_split /=; apply: eq_bigr => k _; rewrite -big_split /=; apply: eq_bigr => pol _.
rewrite -mulrDr; congr (_ * _)%R; rewrite -big_split /=; apply: eq_bigr => P _; rewrite -big_split /=; apply: eq_bigr => Q _.
have := dis po az [:: nat_of_ord P; nat_of_ord Q]; rewrite un; case: (nget _ _); case: (nget _ _) => //= _; by rewrite ?addr0 ?add0r.
Qed.
(** Without upsampling the result is the sum of the fluxes of the orders leaving in a selected
    direction. *)
Theorem C35_no_upsampling n A B S wl (kin : nd R) plv (expn : n.-tuple (Z * Z)) axes (flux : nd R)
    (fn : nd (option R) -> nd (option R) -> nd bool) (accepts : option R -> option R -> bool) :
  flux_setting plv expn axes 1 -> nshape kin = [:: A; B; 2]%N -> nshape flux = [:: A; B; 2 * n; S]%N ->
  (forall polar azim idx, nget (fn polar azim) idx = accepts (nget polar idx) (nget azim idx)) ->
  exists r (G : 'I_n -> R * R), integrated_flux wl kin plv expn axes fn 1 flux = Val r /\
  (forall t, bragg plv (tnth expn t) (G t)) /\
  forall s, nget r [:: s] = (\sum_(a < A) \sum_(b < B) \sum_(t < n) \sum_(pol < 2)
    let k := vadd (nget kin [:: nat_of_ord a; nat_of_ord b; 0%N], nget kin [:: nat_of_ord a; nat_of_ord b; 1%N]) (G t) in
    let direction := angles_of_wavevector wl k.1 k.2 in
    if accepts direction.1 (Some direction.2) then nget flux [:: nat_of_ord a; nat_of_ord b; pol * n + t; s]%N else 0)%R.
Proof.
move=> st shk sh hfn; have [_ di n0 _ _] := st.
have [ilo [ihi [jlo [jhi [G [polar [azim [[L1 H1 L2 H2] hG _ hang hval]]]]]]]] := C35_value wl st shk.
have [r [hr [_ hg]]] := hval fn S flux sh.
exists r, G; split=> //; split=> // s; rewrite hg.
pose K := ('I_A * 'I_B * 'I_n)%type.
pose pl0 (k : K) := merged ilo (tnth expn k.2).1 A k.1.1.
pose pl1 (k : K) := merged jlo (tnth expn k.2).2 B k.1.2.
have l0 (k : K) : (pl0 k < merged_size ilo ihi A)%N by exact: (@pl0_lt _ _ _ expn di ilo ihi jlo jhi L1 H1 L2 H2 k).
have l1 (k : K) : (pl1 k < merged_size jlo jhi B)%N by exact: (@pl1_lt _ _ _ expn di ilo ihi jlo jhi L1 H1 L2 H2 k).
have I num i o : (i < num)%N -> (o < num)%N -> interpolation num 1 i o = if (i == o)%N then 1%R else 0%R.
  move=> hi ho; rewrite -weightE ?mul1n ?weight_one //; exact: leq_ltn_trans hi.
have sel (k k' : K) P Q : (P < merged_size ilo ihi A)%N -> (Q < merged_size jlo jhi B)%N -> P = pl0 k' -> Q = pl1 k' ->
   (interpolation (merged_size ilo ihi A) 1 (pl0 k) P * interpolation (merged_size jlo jhi B) 1 (pl1 k) Q)%coqR = if k == k' then 1%R else 0%R.
  move=> hP hQ eP eQ; rewrite !I // eP eQ.
  case: (eqVneq k k') => [->|nk]; first by rewrite !eqxx Rmult_1_l.
  case: eqP => e; last by rewrite Rmult_0_l.
  case: eqP => e'; last by rewrite Rmult_0_r.
  by case/eqP: nk; apply: (pl_inj di L1 H1 L2 H2 e e').
have one (k : K) (v : R) : (\sum_(P < merged_size ilo ihi A) \sum_(Q < merged_size jlo jhi B)
    (if (nat_of_ord P == pl0 k) && (nat_of_ord Q == pl1 k) then v else 0) = v)%R.
  have h0 : (pl0 k < merged_size ilo ihi A)%N by [].
  have h1 : (pl1 k < merged_size jlo jhi B)%N by [].
  rewrite (bigD1 (Ordinal h0)) //= [X in (_ + X)%R]big1 ?addr0; last first.
    by move=> P np; rewrite big1 // => Q _; case: eqP => //= e; case/eqP: np; apply: val_inj.
  rewrite (bigD1 (Ordinal h1)) //= !eqxx /= [X in (_ + X)%R]big1 ?addr0 // => Q nq.
  by case: eqP => //= e; case/eqP: nq; apply: val_inj.
rewrite [LHS]pair_bigA [LHS]pair_bigA [RHS]pair_bigA [RHS]pair_bigA; apply: eq_bigr => k _; apply: eq_bigr => pol _.
have [] := hang (pl0 k) (pl1 k); rewrite ?mul1n //; cbv zeta.
have sumk (c : 'I_2) (g : 'I_n -> R) : (\sum_(a < A) \sum_(b < B) \sum_(t < n) (nget kin [:: nat_of_ord a; nat_of_ord b; nat_of_ord c] + g t) *
   (interpolation (merged_size ilo ihi A) 1 (merged ilo (tnth expn t).1 A a) (pl0 k) *
    interpolation (merged_size jlo jhi B) 1 (merged jlo (tnth expn t).2 B b) (pl1 k))%coqR
   = nget kin [:: nat_of_ord k.1.1; nat_of_ord k.1.2; nat_of_ord c] + g k.2)%R.
  rewrite pair_bigA pair_bigA (bigD1 k) //= (sel k k) // eqxx mulr1 big1 ?addr0 // => k' nk.
  by rewrite (sel k' k) // (negbTE nk) mulr0.
rewrite (sumk ord0 (fun t => (G t).1)) (sumk (@Ordinal 2 1 isT) (fun t => (G t).2)) => ep ea.
transitivity (nget flux [:: nat_of_ord k.1.1; nat_of_ord k.1.2; pol * n + k.2; s]%N *
  (\sum_(P < merged_size ilo ihi A) \sum_(Q < merged_size jlo jhi B)
    (if (nat_of_ord P == pl0 k) && (nat_of_ord Q == pl1 k) then
       (if accepts (nget polar [:: pl0 k; pl1 k]) (nget azim [:: pl0 k; pl1 k]) then 1 else 0) else 0)))%R; last first.
  rewrite one ep ea /=; case: ifP => _; by rewrite ?mulr1 ?mulr0.
congr (_ * _)%R; apply: eq_bigr => P _; apply: eq_bigr => Q _.
rewrite hfn -/(pl0 k) -/(pl1 k).
have i1 : (/ INR 1 ^ 2)%coqR = 1%R by rewrite /= !Rmult_1_r Rinv_1.
rewrite i1 mulr1.
have hP : (P < merged_size ilo ihi A)%N by exact: ltn_ord.
have hQ : (Q < merged_size jlo jhi B)%N by exact: ltn_ord.
rewrite !I // [pl0 k == _]eq_sym [pl1 k == _]eq_sym.
case: eqP => [->|_]; last by rewrite Rmult_0_l if_same.
case: eqP => [->|_]; last by rewrite Rmult_0_r if_same.
by rewrite Rmult_1_l.
Qed.
(** An upsampling factor below one is rejected. *)
Theorem C35_factor n wl (kin : nd R) plv (expn : n.-tuple (Z * Z)) axes fn (flux : nd R) ax :
  absolute_axes [:: axes.1; axes.2] (ndim flux) = Val ax ->
  integrated_flux wl kin plv expn axes fn 0 flux = Exn AssertionError.
Proof. by move=> h; rewrite /integrated_flux h. Qed.
Example ex_C35 : flux_setting oblique five (0, 1)%coqZ 3 /\ flux_setting oblique five (-3, -4)%coqZ 1.
Proof.
by split; split=> //; [exact: oblique_nondegenerate|exact: five_distinct|left|exact: oblique_nondegenerate|exact: five_distinct|right].
Qed.
Print Assumptions C35_gradient.
Print Assumptions C35_linear.
Print Assumptions C35_full_sphere.
Print Assumptions C35_monotone.
Print Assumptions C35_additive.
Print Assumptions C35_no_upsampling.
Print Assumptions C35_factor.

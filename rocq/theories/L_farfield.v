(** Lemmas about linear resizing. *)
From Coq Require Import Reals ZArith Lra Lia ClassicalEpsilon.
From mathcomp Require Import all_ssreflect all_algebra.
From Verif Require Import CField Err LinAlg Tac M_utils M_basis M_nd M_farfield S_farfield.
Set Implicit Arguments. Unset Strict Implicit. Unset Printing Implicit Defensive.
Local Open Scope R_scope.

Definition clamp01 (x : R) : R := Rmin 1 (Rmax 0 x).
Definition hat (s : R) (i : nat) : R := Rmax 0 (1 - Rabs (s - INR i)).
Lemma Rmax_spec a b : a <= b /\ Rmax a b = b \/ b <= a /\ Rmax a b = a.
Proof. by rewrite /Rmax; case: Rle_dec => h /=; [left|right]; split=> //; lra. Qed.
Lemma Rmin_spec a b : a <= b /\ Rmin a b = a \/ b <= a /\ Rmin a b = b.
Proof. by rewrite /Rmin; case: Rle_dec => h /=; [left|right]; split=> //; lra. Qed.
Lemma Rabs_spec a : 0 <= a /\ Rabs a = a \/ a <= 0 /\ Rabs a = - a.
Proof. by rewrite /Rabs; case: Rcase_abs => h; [right|left]; split=> //; lra. Qed.
Ltac noif t := match t with context [Rmax _ _] => fail 1 | context [Rmin _ _] => fail 1 | context [Rabs _] => fail 1 | _ => idtac end.
Ltac rcases := rewrite /clamp01 /hat; repeat (match goal with
  | |- context [Rmax ?a ?b] => noif a; noif b; let h := fresh in case: (Rmax_spec a b) => [[h ->]|[h ->]]
  | |- context [Rmin ?a ?b] => noif a; noif b; let h := fresh in case: (Rmin_spec a b) => [[h ->]|[h ->]]
  | |- context [Rabs ?a] => noif a; let h := fresh in case: (Rabs_spec a) => [[h ->]|[h ->]] end); try lra.
Lemma clamp01_sym x : clamp01 x + clamp01 (1 - x) = 1.
Proof. by rcases. Qed.
Lemma hat_ge0 s i : 0 <= hat s i. Proof. exact: Rmax_l. Qed.
Lemma sum_hat s m : 0 <= s -> (\sum_(i < m.+1) hat s i)%R = clamp01 (INR m + 1 - s).
Proof.
move=> s0; elim: m => [|m IH].
  by rewrite big_ord_recl big_ord0 GRing.addr0 /hat; cbn [nat_of_ord ord0 INR]; rcases.
rewrite ?S_INR big_ord_recr /= IH RaddE /hat S_INR.
by have := pos_INR m => m0; move: (INR m) m0 => x x0; rcases.
Qed.

Section Resize.
Variables (num f : nat).
Hypotheses (num0 : (0 < num)%N) (f0 : (0 < f)%N).
Let fR : 1 <= INR f. Proof. by apply: (le_INR 1); apply/leP. Qed.
Let nR : 1 <= INR num. Proof. by apply: (le_INR 1); apply/leP. Qed.
Lemma sample_range o : (o < f * num)%N -> -(1 / 2) < resize_sample f o < INR num - 1 / 2.
Proof.
move=> /leP ho; have := le_INR _ _ ho; rewrite S_INR mult_INR => h; have o0 := pos_INR o.
rewrite /resize_sample; split.
  have : 0 < (INR o + 1 / 2) * / INR f; last lra.
  by apply: Rmult_lt_0_compat; [lra|apply: Rinv_0_lt_compat; lra].
have : (INR o + 1 / 2) * / INR f < INR num; last lra.
apply: (Rmult_lt_reg_r (INR f)); first lra.
rewrite Rmult_assoc Rinv_l; lra.
Qed.
Lemma sum_hat_neg s m : -(1/2) < s <= 0 -> (\sum_(i < m.+1) hat s i)%R = 1 + s.
Proof.
move=> hs; elim: m => [|m IH].
  by rewrite big_ord_recl big_ord0 GRing.addr0 /hat; cbn [nat_of_ord ord0 INR]; rcases.
rewrite ?S_INR big_ord_recr /= IH RaddE /hat S_INR.
by have := pos_INR m => m0; move: (INR m) m0 => x x0; rcases.
Qed.
(** Partial sums of the normalised weights. *)
Lemma sum_weight m o : (o < f * num)%N -> (m < num)%N ->
  (\sum_(i < m.+1) resize_weight num f i o)%R =
  if (m.+1 == num)%N then 1 else clamp01 (INR m + 1 - resize_sample f o).
Proof.
move=> ho hm; have [s1 s2] := sample_range ho.
have -> : (\sum_(i < m.+1) resize_weight num f i o)%R =
  (\sum_(i < m.+1) (hat (resize_sample f o) i / (\sum_(k < num) hat (resize_sample f o) k)%R))%R.
  apply: eq_bigr => i _; rewrite /resize_weight; case: Rle_dec => [h|]; cbn [is_left]; last lra.
  case: Rle_dec => [h'|]; cbn [is_left]; last lra.
  case: Rlt_dec => [h2|[]]; cbn [is_left]; first by [].
  have : 1 / 2 <= (\sum_(k < num) hat (resize_sample f o) k)%R.
    have -> : (\sum_(k < num) hat (resize_sample f o) k)%R = (\sum_(k < num.-1.+1) hat (resize_sample f o) k)%R by rewrite prednK.
    have e : INR num.-1 = INR num - 1 by rewrite -{2}(prednK num0) S_INR; ring.
    case: (Rle_lt_dec (resize_sample f o) 0) => h0; first by rewrite sum_hat_neg; lra.
    by rewrite sum_hat ?e; [rcases|lra].
  by move=> h3; apply: Rlt_le_trans (Rle_abs _); apply: Rlt_le_trans h3; lra.
move: (resize_sample f o) s1 s2 => s s1 s2 {ho}.
rewrite -GRing.mulr_suml RmulE.
have e : INR num.-1 = INR num - 1 by rewrite -{2}(prednK num0) S_INR; ring.
have -> : (\sum_(k < num) hat s k)%R = (\sum_(k < num.-1.+1) hat s k)%R by rewrite prednK.
case: (Rle_lt_dec s 0) => h0.
  rewrite !sum_hat_neg //; try lra.
  rewrite /= Rinv_r; last lra.
  by case: eqP => // _; have := pos_INR m; rcases.
rewrite !sum_hat ?e; try lra.
case: eqP => [em|/eqP nm].
  have -> : INR m = INR num - 1 by rewrite -em S_INR; ring.
  by rewrite /= Rinv_r //; rcases.
have hm' : INR m + 1 <= INR num - 1.
  by rewrite -e -S_INR; apply: le_INR; apply/leP; rewrite -ltnS prednK // ltn_neqAle nm.
have C1 : clamp01 (INR m + 1 - s) = 0 \/ clamp01 (INR num - 1 + 1 - s) = 1 by
  case: (Rle_lt_dec s (INR num - 1)); rcases; try (left; lra); right; lra.
by case: C1 => ->; [rewrite Rmult_0_l|rewrite RinvE Rinv_1 Rmult_1_r].
Qed.
(** Each output has total weight one. *)
Lemma weight_column o : (o < f * num)%N -> (\sum_(i < num) resize_weight num f i o)%R = 1.
Proof.
move=> ho; have := @sum_weight num.-1 o ho; rewrite prednK // eqxx => h; apply: h.
exact: leqnn.
Qed.
Lemma weight_ge0 i o : 0 <= resize_weight num f i o.
Proof.
rewrite /resize_weight; case: Rle_dec => h /=; last lra. case: Rle_dec => h' /=; last lra.
case: Rlt_dec => h2 /=; last lra.
have t0 : 0 <= (\sum_(k < num) resize_kernel f k o)%R.
  by apply: big_ind => [|x y x0 y0|k _]; [right|exact: Rplus_le_le_0_compat|exact: Rmax_l].
have k0 : 0 <= resize_kernel f i o by exact: Rmax_l.
apply: Rmult_le_pos => //; left; apply: Rinv_0_lt_compat.
case: t0 => // e; move: h2; rewrite -e Rabs_R0; lra.
Qed.
(** Sums of clamped distances are exact by reflection about [s = m + 1/2]. *)
Lemma sample_reflect m o : (o < 2 * f * m.+1)%N ->
  resize_sample f (2 * f * m.+1 - o.+1) = 2 * INR m + 1 - resize_sample f o.
Proof.
move=> ho; rewrite /resize_sample -minusE minus_INR; last by apply/leP.
rewrite [INR o.+1]S_INR -!multE !mult_INR [INR m.+1]S_INR; have -> : INR 2 = 2 by rewrite /=; ring.
by field; lra.
Qed.
Lemma sum_clamp_reflect m :
  (\sum_(o < 2 * f * m.+1) clamp01 (INR m + 1 - resize_sample f o))%R = INR f * (INR m + 1).
Proof.
set S := (\sum_(o < _) _)%R.
have S2 : S + S = 2 * INR f * (INR m + 1).
  rewrite {2}/S (reindex_inj rev_ord_inj) /= -RaddE -big_split /=.
  rewrite (eq_bigr (fun=> 1)); last first.
    move=> o _; rewrite sample_reflect // RaddE.
    have -> : INR m + 1 - (2 * INR m + 1 - resize_sample f o) = 1 - (INR m + 1 - resize_sample f o) by ring.
    exact: clamp01_sym.
  rewrite GRing.sumr_const card_ord.
  have mulrnR : forall k, (1 *+ k)%R = INR k :> R.
    by elim=> // k IH; rewrite GRing.mulrS IH S_INR RaddE Rplus_comm.
  rewrite (mulrnR (2 * f * m.+1)%N) -!multE !mult_INR [INR m.+1]S_INR; have -> : INR 2 = 2 by rewrite /=; ring.
  by [].
lra.
Qed.
Lemma sum_clamp_far m N : (f * m.+1 + f <= N)%N -> 
  (\sum_(o < N) clamp01 (INR m + 1 - resize_sample f o))%R =
  (\sum_(o < f * m.+1 + f) clamp01 (INR m + 1 - resize_sample f o))%R.
Proof.
move=> h; rewrite -(subnKC h) big_split_ord /= [X in (_ + X)%R]big1 ?GRing.addr0 // => o _.
have c0 x : x <= 0 -> clamp01 x = 0 by rcases.
apply: c0; have : INR m + 1 <= resize_sample f (f * m.+1 + f + o); last lra.
move: (nat_of_ord o) => {}o.
rewrite /resize_sample -!plusE -!multE !plus_INR mult_INR S_INR; have o0 := pos_INR o.
have : INR m + 2 <= (INR f * (INR m + 1) + INR f + INR o + 1 / 2) * / INR f; last lra.
apply: (Rmult_le_reg_r (INR f)); first lra.
rewrite Rmult_assoc Rinv_l; lra.
Qed.
Lemma sum_clamp m : (m.+1 < num)%N ->
  (\sum_(o < f * num) clamp01 (INR m + 1 - resize_sample f o))%R = INR f * (INR m + 1).
Proof.
move=> hm; rewrite sum_clamp_far; last by rewrite -mulnSr leq_mul2l hm orbT.
rewrite -sum_clamp_reflect [in RHS]sum_clamp_far //.
by rewrite -mulnSr (mulnC 2%N) -(mulnA f) leq_mul2l mul2n -addnn addSn ltnS leq_addl orbT.
Qed.
(** Each input contributes the upsampling factor in total, also at the edges. *)
Lemma weight_row i : (i < num)%N -> (\sum_(o < f * num) resize_weight num f i o)%R = INR f.
Proof.
have P m : (m < num)%N -> (\sum_(o < f * num) \sum_(i < m.+1) resize_weight num f i o)%R = INR f * (INR m + 1).
  move=> hm; case: (eqVneq m.+1 num) => e.
    rewrite (eq_bigr (fun=> 1)); last by move=> o _; rewrite sum_weight // e eqxx.
    have mulrnR : forall k, (1 *+ k)%R = INR k :> R.
      by elim=> // k IH; rewrite GRing.mulrS IH S_INR RaddE Rplus_comm.
    by rewrite GRing.sumr_const card_ord (mulrnR (f * num)%N) -multE mult_INR -e S_INR.
  rewrite -sum_clamp; last by rewrite ltn_neqAle e.
  by apply: eq_bigr => o _; rewrite sum_weight // (negbTE e).
case: i => [|i] hi.
  have := P 0%N hi; rewrite /= => h; have -> : INR f = INR f * (0 + 1) by ring.
  rewrite -h.
  by apply: eq_bigr => o _; rewrite big_ord_recl big_ord0 GRing.addr0.
have := P _ hi; rewrite S_INR (eq_bigr (fun o : 'I__ => (\sum_(i < i.+1) resize_weight num f i o + resize_weight num f i.+1 o)%R)); last first.
  by move=> o _; rewrite big_ord_recr.
rewrite big_split /= P ?RaddE; [lra|exact: ltnW].
Qed.
Lemma weight_le1 i o : (i < num)%N -> (o < f * num)%N -> resize_weight num f i o <= 1.
Proof.
move=> hi ho; rewrite -(weight_column ho) (bigD1 (Ordinal hi)) //= RaddE.
set r := (\sum_(k < num | _) _)%R; suff : 0 <= r by lra.
by apply: big_ind => [|x y x0 y0|k _]; [right|exact: Rplus_le_le_0_compat|exact: weight_ge0].
Qed.
Lemma weightE i o : (i < num)%N -> (o < f * num)%N -> resize_weight num f i o = interpolation num f i o.
Proof.
move=> hi ho; have [s1 s2] := sample_range ho; rewrite /interpolation.
have -> : (INR o + 1 / 2) / INR f - 1 / 2 = resize_sample f o by [].
have e : INR num.-1 = INR num - 1 by rewrite -{2}(prednK num0) S_INR; ring.
rewrite /resize_weight; case: Rle_dec => [h|]; cbn [is_left]; last lra.
case: Rle_dec => [h'|]; cbn [is_left]; last lra.
have -> : (\sum_(k < num) resize_kernel f k o)%R = (\sum_(k < num.-1.+1) hat (resize_sample f o) k)%R by rewrite prednK.
rewrite -[resize_kernel f i o]/(hat (resize_sample f o) i).
have hi' : INR i <= INR num - 1 by rewrite -e; apply: le_INR; apply/leP; rewrite -ltnS prednK.
have i1 : i = 0%N \/ 1 <= INR i.
  by case: (i) => [|j]; [left|right; apply: (le_INR 1); apply/leP].
have i2 : INR i = INR num - 1 \/ INR i <= INR num - 2.
  move: hi; rewrite leq_eqVlt => /orP [/eqP h2|/leP h2]; first by left; rewrite -h2 S_INR; ring.
  by right; have := le_INR _ _ h2; rewrite !S_INR; lra.
move: (resize_sample f o) s1 s2 {h h'} => s s1 s2.
have T : [\/ s <= 0 /\ (\sum_(k < num.-1.+1) hat s k)%R = 1 + s,
    0 < s <= INR num - 1 /\ (\sum_(k < num.-1.+1) hat s k)%R = 1 |
    INR num - 1 < s /\ (\sum_(k < num.-1.+1) hat s k)%R = INR num - s].
  case: (Rle_lt_dec s 0) => h0; first by constructor 1; rewrite sum_hat_neg //; lra.
  rewrite sum_hat ?e; last lra.
  by case: (Rle_lt_dec s (INR num - 1)) => h1; [constructor 2|constructor 3]; split=> //; rcases.
have big x : 1 / 2 <= x -> Rlt_dec (1000 * / 2 ^ 23) (Rabs x).
  move=> hx; case: Rlt_dec => //= -[]; apply: Rlt_le_trans (Rle_abs _); lra.
case: T => -[hs ->]; rewrite big; try lra.
- have -> : Rmin (INR num - 1) (Rmax 0 s) = 0 by rcases.
  case: i1 => [->|i1].
    have -> : hat s 0 = 1 + s by rewrite /hat; cbn [INR]; rcases.
    have -> : Rmax 0 (1 - Rabs (0 - INR 0)) = 1 by cbn [INR]; rcases.
    by field; lra.
  have -> : hat s i = 0 by rcases.
  have -> : Rmax 0 (1 - Rabs (0 - INR i)) = 0 by rcases.
  by rewrite /Rdiv Rmult_0_l.
- have -> : Rmin (INR num - 1) (Rmax 0 s) = s by rcases.
  by rewrite /hat; field.
- have -> : Rmin (INR num - 1) (Rmax 0 s) = INR num - 1 by rcases.
  case: i2 => i2.
    have -> : hat s i = INR num - s by rewrite /hat i2; rcases.
    have -> : Rmax 0 (1 - Rabs (INR num - 1 - INR i)) = 1 by rewrite i2; rcases.
    by field; lra.
  have -> : hat s i = 0 by rcases.
  have -> : Rmax 0 (1 - Rabs (INR num - 1 - INR i)) = 0 by rcases.
  by rewrite /Rdiv Rmult_0_l.
Qed.
End Resize.
(** A factor of one changes nothing. *)
Lemma weight_one num i o : (i < num)%N -> (o < num)%N -> resize_weight num 1 i o = if (i == o)%N then 1 else 0.
Proof.
move=> hi ho; have num0 : (0 < num)%N by exact: leq_ltn_trans hi.
have s : resize_sample 1 o = INR o by rewrite /resize_sample /=; field.
have K k : resize_kernel 1 k o = if (k == o)%N then 1 else 0.
  rewrite /resize_kernel s; case: eqP => [->|/eqP]; first by rcases.
  rewrite neq_ltn => /orP [/leP h|/leP h]; have := le_INR _ _ h; rewrite S_INR; rcases.
have T : (\sum_(k < num) resize_kernel 1 k o)%R = 1.
  rewrite (bigD1 (Ordinal ho)) //= K eqxx big1 ?GRing.addr0 // => k hk; rewrite K ifF //.
  by apply: contraNF hk => /eqP e; apply/eqP/val_inj.
rewrite /resize_weight T K s.
have ho' : INR o + 1 <= INR num by rewrite -S_INR; apply: le_INR; apply/leP.
have o0 := pos_INR o.
case: Rle_dec => h /=; last lra. case: Rle_dec => h' /=; last lra.
by rewrite Rabs_R1; case: Rlt_dec => h2 /=; [case: eqP => _; field|lra].
Qed.

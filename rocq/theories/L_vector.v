(** Lemmas: vector fields. *)
From Coq Require Import Reals ZArith Lra Lia.
From mathcomp Require Import all_ssreflect all_algebra.
From Verif Require Import CField Err LinAlg Tac M_utils M_basis M_fft M_fmm_matrices M_fmm M_fields M_nd M_farfield M_vector S_vector.
Set Implicit Arguments. Unset Strict Implicit. Unset Printing Implicit Defensive.
Import GRing.Theory.
Local Open Scope ring_scope.

Lemma Cmod_ge0 z : (0 <= Cmod z)%coqR. Proof. by rewrite CmodE; exact: sqrt_pos. Qed.
Lemma Cmod_sqr z : (Cmod z ^ 2 = abs2 z)%coqR.
Proof. by rewrite -Cmod2 /=; ring. Qed.
Lemma Cmod_RC (x : R) : Cmod (RtoC x) = Rabs x.
Proof.
rewrite CmodE /abs2 !reimE; have -> : (x * x + R0 * R0 = Rsqr x)%coqR by rewrite /Rsqr; ring.
exact: sqrt_Rsqr_abs.
Qed.
Lemma length_sqr x y : (vector_length x y ^ 2 = abs2 x + abs2 y)%coqR.
Proof.
rewrite /vector_length !Cmod_sqr /= Rmult_1_r sqrt_sqrt //.
by have := abs2_ge0 x; have := abs2_ge0 y; lra.
Qed.
Lemma length_ge0 x y : (0 <= vector_length x y)%coqR. Proof. exact: sqrt_pos. Qed.
Lemma lengthE x y : vector_length x y = sqrt (abs2 x + abs2 y)%coqR.
Proof. by rewrite /vector_length !Cmod_sqr. Qed.
Lemma length_eq x y r : (0 <= r)%coqR -> (abs2 x + abs2 y = r * r)%coqR -> vector_length x y = r.
Proof. by move=> h e; rewrite lengthE e sqrt_square. Qed.
Lemma RtoC_inv (s : R) : s <> 0%coqR -> RtoC (/ s)%coqR = (RtoC s)^-1.
Proof.
move=> h; apply: (mulfI (RtoC_neq0 h)); rewrite divff; last exact: RtoC_neq0.
by rewrite -rmorphM /= RmulE Rinv_r.
Qed.
Lemma length_scale x y (z : C) : vector_length (x * z) (y * z) = (vector_length x y * Cmod z)%coqR.
Proof.
rewrite !lengthE !abs2M -Rmult_plus_distr_r sqrt_mult ?CmodE //; last exact: abs2_ge0.
by have := abs2_ge0 x; have := abs2_ge0 y; lra.
Qed.
Lemma length_div x y (s : R) : (0 < s)%coqR ->
  (vector_length (x / RtoC s)%R (y / RtoC s)%R = vector_length x y / s)%coqR.
Proof.
move=> h; rewrite -RtoC_inv; last lra.
by rewrite length_scale Cmod_RC Rabs_pos_eq //; left; exact: Rinv_0_lt_compat.
Qed.
Lemma isclose0P x : (0 <= x)%coqR -> reflect (x <= tolerance)%coqR (isclose0 x).
Proof.
by move=> h; rewrite /isclose0 Rabs_pos_eq // /tolerance; case: Rle_dec => hx; constructor.
Qed.
Lemma tolerance_gt0 : (0 < tolerance)%coqR.
Proof. by rewrite /tolerance; apply: Rinv_0_lt_compat; apply: pow_lt; lra. Qed.
Lemma tolerance_lt1 : (tolerance < 1)%coqR.
Proof. by rewrite /tolerance; lra. Qed.

Section Fields.
Variables nx ny : nat.
Implicit Types v : vfield nx ny.
Lemma magnitudeE v i j : field_magnitude v i j = length_at v i j.
Proof.
rewrite /field_magnitude /length_at /vector_length; case: eqP => // ->.
by rewrite sqrt_0.
Qed.
Lemma grid_pointsP (p : 'I_nx * 'I_ny) : p \in grid_points nx ny.
Proof. by apply/allpairsP; exists p; rewrite !mem_enum; case: p. Qed.
Lemma foldr_max_ge (T : eqType) (f : T -> R) (s : seq T) p : p \in s -> (f p <= foldr Rmax 0 (map f s))%coqR.
Proof.
elim: s => // a s IH; rewrite inE => /orP [/eqP ->|h] /=; first exact: Rmax_l.
by apply: Rle_trans (IH h) _; exact: Rmax_r.
Qed.
Lemma foldr_max_ge0 (s : seq R) : (0 <= foldr Rmax 0 s)%coqR.
Proof. by elim: s => [|a s IH] /=; [lra|apply: Rle_trans IH _; exact: Rmax_r]. Qed.
Lemma foldr_max_attained (T : eqType) (f : T -> R) (s : seq T) :
  foldr Rmax 0 (map f s) = 0%coqR \/ exists2 p, p \in s & f p = foldr Rmax 0 (map f s).
Proof.
elim: s => [|a s IH] /=; first by left.
rewrite /Rmax; case: Rle_dec => h /=.
  case: IH => [e|[p hp e]]; last by right; exists p; rewrite ?inE ?hp ?orbT.
  by left.
by right; exists a; rewrite ?inE ?eqxx.
Qed.
Lemma max_ge v i j : (length_at v i j <= max_field_magnitude v)%coqR.
Proof.
rewrite -magnitudeE; exact: (foldr_max_ge (fun p => field_magnitude v p.1 p.2) (grid_pointsP (i, j))).
Qed.
Lemma max_ge0 v : (0 <= max_field_magnitude v)%coqR. Proof. exact: foldr_max_ge0. Qed.
Lemma max_attained v : (0 < max_field_magnitude v)%coqR -> exists i j, length_at v i j = max_field_magnitude v.
Proof.
move=> h; case: (foldr_max_attained (fun p => field_magnitude v p.1 p.2) (grid_points nx ny)) => [e|[p _ e]].
  by rewrite /max_field_magnitude e in h; lra.
by exists p.1, p.2; rewrite -magnitudeE.
Qed.
(** The divisor of [normalize]. *)
Definition norm_factor v : R := if isclose0 (max_field_magnitude v) then 1%coqR else max_field_magnitude v.
Lemma norm_factor_gt0 v : (0 < norm_factor v)%coqR.
Proof.
rewrite /norm_factor; case: isclose0P => [|_|h]; [exact: max_ge0|lra|].
by have := tolerance_gt0; lra.
Qed.
Lemma normalizeE v i j : (normalize v).1 i j = v.1 i j / RtoC (norm_factor v) /\
  (normalize v).2 i j = v.2 i j / RtoC (norm_factor v).
Proof. by rewrite !mxE. Qed.
Lemma normalize_length v i j : (length_at (normalize v) i j = length_at v i j / norm_factor v)%coqR.
Proof. by rewrite /length_at; have [-> ->] := normalizeE v i j; rewrite length_div //; exact: norm_factor_gt0. Qed.
End Fields.

(** C40: invariances of tangent fields. *)
From Coq Require Import Reals ZArith Lra Lia.
From mathcomp Require Import all_ssreflect all_algebra.
From Verif Require Import CField Err LinAlg Tac M_utils M_basis M_fft M_fmm_matrices M_fmm M_fields M_nd M_farfield M_vector.
From Verif Require Import S_fft S_fields S_basis S_vector S_scale L_scattering L_scale L_fft L_fields L_basis L_flux P_fft P_flux P_fmm L_vector P_vector L_newton L_loss L_direction P_tangent P_grating.
Set Implicit Arguments. Unset Strict Implicit. Unset Printing Implicit Defensive.
Import GRing.Theory.
Local Open Scope ring_scope.

(** ** Scaling the lattice *)
Section Lattice.
Variable s : R.
Hypothesis s0 : (0 < s)%coqR.
Lemma area_scale l : sqrt (M_vector.cell_area (scale_lattice s l)) = (s * sqrt (M_vector.cell_area l))%coqR.
Proof.
rewrite /M_vector.cell_area /=.
have -> : (s * (lat_u l).1 * (s * (lat_v l).2) - s * (lat_v l).1 * (s * (lat_u l).2) =
   (s * s) * ((lat_u l).1 * (lat_v l).2 - (lat_v l).1 * (lat_u l).2))%coqR by ring.
rewrite Rabs_mult (Rabs_right (s * s)); last by nra.
by rewrite sqrt_mult_alt ?sqrt_square //; nra.
Qed.
Lemma basis_scale l : normalized_basis (scale_lattice s l) = normalized_basis l.
Proof.
rewrite /normalized_basis area_scale recipR_scale // rmap_bind; apply: eq_bind => r _ /=.
have e x : (s * x * (/ s * r) = x * r)%coqR by field; lra.
by rewrite !e.
Qed.
Lemma fourier_loss_scale n (expn : n.-tuple (Z * Z)) l : fourier_loss expn (scale_lattice s l) = fourier_loss expn l.
Proof.
rewrite /fourier_loss; have e0 : (0, 0)%coqR = scale_wavevector s (0, 0)%coqR.
  by rewrite /scale_wavevector /=; congr pair; field; lra.
rewrite {1}e0 wavevectors_scale // rmap_bind; apply: eq_bind => k _; cbn [fst snd]; congr Val.
apply: FunctionalExtensionality.functional_extensionality => F; apply: eq_bigr => i _; apply: eq_bigr => c _.
congr (_ * _ ^+ 2); rewrite area_scale !mxE /norm2; cbn [fst snd]; rewrite !RmulE.
have i0 : (0 < / s)%coqR by exact: Rinv_0_lt_compat.
move: (k.1 0 i) (k.2 0 i) => x y.
have -> : (/ s * x * (/ s * x) + / s * y * (/ s * y) = (/ s * / s) * (x * x + y * y))%coqR by ring.
rewrite sqrt_mult_alt ?sqrt_square; [|lra|nra].
have e (p q : R) : (/ s * p * (s * q) = p * q)%coqR by field; lra.
exact: e.
Qed.
Lemma field_loss_scale nx ny n F (expn : n.-tuple (Z * Z)) l (t : vfield nx ny) w fw sw :
  field_loss F expn (scale_lattice s l) t w fw sw = field_loss F expn l t w fw sw.
Proof. by rewrite /field_loss fourier_loss_scale /smoothness_loss /vector_field_gradient basis_scale. Qed.
(** The tangent field of a scaled structure is the same. *)
Theorem C40_lattice_scale nx ny n (arr : 'M[C]_(nx, ny)) (expn : n.-tuple (Z * Z)) l jones fw sw steps :
  compute_tangent_field arr expn (scale_lattice s l) jones fw sw steps = compute_tangent_field arr expn l jones fw sw steps.
Proof.
rewrite /compute_tangent_field /compute_gradient basis_scale; congr check.
apply: eq_bind => grad _; apply: eq_bind => gx _; apply: eq_bind => gy _.
case: (is_1d_field _) => b a; apply: eq_bind => F _; rewrite field_loss_scale.
apply: eq_bind => _ _; apply: eq_bind => _ _; congr bind; case: b => //; congr bind; congr (newton _ _ _).
by apply: FunctionalExtensionality.functional_extensionality => z; rewrite field_loss_scale.
Qed.
End Lattice.

(** ** Adding a constant to the array *)
Lemma mxget_const nx ny (x : 'M[C]_(nx, ny)) c i j : (i < nx)%N -> (j < ny)%N ->
  mxget (x + const_mx c) i j = mxget x i j + c.
Proof. by move=> hi hj; rewrite -[i]/(val (Ordinal hi)) -[j]/(val (Ordinal hj)) !mxget_ord !mxE. Qed.
Theorem C40_constant nx ny n (arr : 'M[C]_(nx, ny)) c (expn : n.-tuple (Z * Z)) l jones fw sw steps :
  compute_tangent_field (arr + const_mx c) expn l jones fw sw steps = compute_tangent_field arr expn l jones fw sw steps.
Proof.
suff e : partial_gradient (arr + const_mx c) = partial_gradient arr by rewrite /compute_tangent_field /compute_gradient e.
have p N (i : 'I_N) : (0 < N)%N := leq_ltn_trans (leq0n i) (ltn_ord i).
have q (x y : C) : x + c - (y + c) = x - y by rewrite opprD addrACA subrr addr0.
rewrite !partial_gradientE; congr (_, _); apply/matrixP => i j; rewrite [LHS]mxE [RHS]mxE !mxget_const ?ltn_mod ?q //; exact: p.
Qed.

(** ** Scaling the array *)
Lemma tangent_depends nx ny n (arr arr' : 'M[C]_(nx, ny)) (expn : n.-tuple (Z * Z)) l jones fw sw steps g g' gx gy gx' gy' :
  compute_gradient arr l = Val g -> filter_and_adjust_resolution g.1 expn = Val gx -> filter_and_adjust_resolution g.2 expn = Val gy ->
  compute_gradient arr' l = Val g' -> filter_and_adjust_resolution g'.1 expn = Val gx' -> filter_and_adjust_resolution g'.2 expn = Val gy' ->
  normalize (gx, gy) = normalize (gx', gy') ->
  compute_tangent_field arr expn l jones fw sw steps = compute_tangent_field arr' expn l jones fw sw steps.
Proof.
move=> h1 h2 h3 h1' h2' h3' e; rewrite /compute_tangent_field h1 h1' !bindE h2 h2' !bindE h3 h3' !bindE e.
by [].
Qed.
Definition scale_field nx ny (c : R) (v : vfield nx ny) : vfield nx ny := (RtoC c *: v.1, RtoC c *: v.2).
Lemma scale_length nx ny c (v : vfield nx ny) i j : (0 < c)%coqR -> (length_at (scale_field c v) i j = c * length_at v i j)%coqR.
Proof.
move=> c0; rewrite /length_at !mxE ![RtoC c * _]mulrC length_scale Cmod_RC Rabs_right; last lra.
by rewrite Rmult_comm.
Qed.
Lemma normalize_scale nx ny c (v : vfield nx ny) : (0 < c)%coqR ->
  (exists i j, (tolerance < length_at v i j)%coqR) -> (exists i j, (tolerance < c * length_at v i j)%coqR) ->
  normalize (scale_field c v) = normalize v.
Proof.
move=> c0 [i1 [j1 h1]] [i2 [j2 h2]].
have t0 := tolerance_gt0; have m1 := max_ge v i1 j1; have m2 := max_ge (scale_field c v) i2 j2; rewrite scale_length // in m2.
have e : max_field_magnitude (scale_field c v) = (c * max_field_magnitude v)%coqR.
  apply: Rle_antisym.
    have [|i [j <-]] := @max_attained _ _ (scale_field c v); first lra.
    by rewrite scale_length //; apply: Rmult_le_compat_l; [lra|exact: max_ge].
  have [|i [j <-]] := @max_attained _ _ v; first lra.
  by rewrite -scale_length //; exact: max_ge.
have f : norm_factor (scale_field c v) = (c * norm_factor v)%coqR.
  rewrite /norm_factor e; case: (isclose0P (max_ge0 v)) => [|_]; first lra.
  by rewrite -e; case: (isclose0P (max_ge0 (scale_field c v))) => [|_]; [lra|rewrite e].
have f0 := norm_factor_gt0 v.
have fC : RtoC (norm_factor v) != 0 by apply: RtoC_neq0; lra.
have cC : RtoC c != 0 by apply: RtoC_neq0; lra.
rewrite [LHS]surjective_pairing [RHS]surjective_pairing; congr pair; apply/matrixP => i j;
  have [n1 n2] := normalizeE v i j; have [n3 n4] := normalizeE (scale_field c v) i j; rewrite ?n1 ?n2 ?n3 ?n4 f !mxE.
- by rewrite -RmulE rmorphM /= invfM mulrACA divff // mul1r.
- by rewrite -RmulE rmorphM /= invfM mulrACA divff // mul1r.
Qed.
(** The tangent field of an array times a positive number is that of the array, if the filtered
    gradient is significant before and after. *)
Theorem C40_scale nx ny n (arr : 'M[C]_(nx, ny)) c (expn : n.-tuple (Z * Z)) l jones fw sw steps grad :
  n <> 0%N -> distinct expn -> resolves nx ny expn -> nondegenerate l -> central_gradient l arr grad -> (0 < c)%coqR ->
  let w := field_series expn (field_coefficients grad expn) (doubled_shape nx ny expn).1 (doubled_shape nx ny expn).2 in
  (exists i j, (tolerance < length_at w i j)%coqR) -> (exists i j, (tolerance < c * length_at w i j)%coqR) ->
  compute_tangent_field (RtoC c *: arr) expn l jones fw sw steps = compute_tangent_field arr expn l jones fw sw steps.
Proof.
move=> n0 hd hr hn hg c0 w s1 s2.
have G (x : 'M[C]_(nx, ny)) g : central_gradient l x g -> compute_gradient x l = Val g.
  move=> h; have [k0 [k1 k2]] := C49_gradient x l; have [g' hg'] := k0 hn; rewrite hg'; congr Val.
  by apply: k2 => //; have [] := k1 _ hg'.
have hg' : central_gradient l (RtoC c *: arr) (scale_field c grad).
  move=> i j; have [e1 e2] := hg i j; rewrite /gradient_of !mxE; split.
  - by rewrite -!mulrA -mulrDr e1; move: (RtoC _) (RtoC _) (RtoC _) (arr _ _) (arr _ _) => p q r x y; Cring.
  - by rewrite -!mulrA -mulrDr e2; move: (RtoC _) (RtoC _) (RtoC _) (arr _ _) (arr _ _) => p q r x y; Cring.
apply: (tangent_depends _ _ _ _ (G _ _ hg') (filterE _ n0 hd hr) (filterE _ n0 hd hr) (G _ _ hg) (filterE _ n0 hd hr) (filterE _ n0 hd hr)).
have E (g : vfield nx ny) : (fourier_series expn (\col_i fourier_coefficient g.1 (tnth expn i)) (doubled_shape nx ny expn).1 (doubled_shape nx ny expn).2,
       fourier_series expn (\col_i fourier_coefficient g.2 (tnth expn i)) (doubled_shape nx ny expn).1 (doubled_shape nx ny expn).2) =
   field_series expn (field_coefficients g expn) (doubled_shape nx ny expn).1 (doubled_shape nx ny expn).2.
  by rewrite /field_series !field_coefficients_col.
rewrite !E -/w; transitivity (normalize (scale_field c w)); last exact: normalize_scale.
congr normalize.
have F (x : 'M[C]_(nx, ny)) k : fourier_coefficient (RtoC c *: x) k = RtoC c * fourier_coefficient x k.
  rewrite /fourier_coefficient mulrA mulr_sumr; congr (_ / _); apply: eq_bigr => a _; rewrite mulr_sumr; apply: eq_bigr => b _.
  by rewrite mxE mulrA.
rewrite /w /field_series /scale_field !field_coefficients_col; cbn [fst snd].
congr (_, _); apply/matrixP => i j; rewrite [RHS]mxE [LHS]mxE [X in _ = _ * X]mxE mulr_sumr; apply: eq_bigr => k _.
  by rewrite [X in X * _]mxE [X in _ = _ * (X * _)]mxE F [RHS]mulrA.
by rewrite [X in X * _]mxE [X in _ = _ * (X * _)]mxE F [RHS]mulrA.
Qed.
Example ex_C40 : exists g, central_gradient oblique ridge g /\
  let w := field_series cross (field_coefficients g cross) (doubled_shape 3 3 cross).1 (doubled_shape 3 3 cross).2 in
  (exists i j, (tolerance < length_at w i j)%coqR) /\ exists i j, (tolerance < 2 * length_at w i j)%coqR.
Proof.
have [g [hg [_ [i [j h]]]]] := ex_C50; exists g; split=> //; split; exists i, j => //.
by have := tolerance_gt0; lra.
Qed.
Print Assumptions C40_lattice_scale.
Print Assumptions C40_constant.
Print Assumptions C40_scale.

(** ** The schemes *)
(** The weights of the penalties for high orders and for roughness, whether the target is a Jones
    field, and what is done with the minimiser. *)
Definition scheme_weights (s : scheme) : R * R :=
  match s with
  | JonesDirect => (0, / 2)%coqR | Jones | Normal | Pol => (0, 2)%coqR
  | JonesDirectFourier => (/ 20, 0)%coqR | JonesFourier | NormalFourier | PolFourier => (/ 5, 0)%coqR
  end.
Definition jones_target (s : scheme) : bool := match s with JonesDirect | JonesDirectFourier => true | _ => false end.
Definition finish nx ny (s : scheme) (v : vfield nx ny) : vfield nx ny :=
  match s with
  | Jones | JonesFourier => normalize_jones v
  | Normal | NormalFourier => normalize_elementwise v
  | _ => v
  end.
Lemma schemeE nx ny n s (arr : 'M[C]_(nx, ny)) (expn : n.-tuple (Z * Z)) l :
  vector_field_scheme s arr expn l =
  rmap (finish s) (compute_tangent_field arr expn l (jones_target s) (scheme_weights s).1 (scheme_weights s).2 1).
Proof.
have e1 : (1 / 2 = / 2)%coqR by field. have e2 : (1 / 20 = / 20)%coqR by field. have e3 : (1 / 5 = / 5)%coqR by field.
have I (x : res (vfield nx ny)) : x = rmap (fun v => v) x by case: x.
case: s; rewrite /vector_field_scheme /compute_field_jones_direct /compute_field_jones /compute_field_normal /compute_field_pol
  ?e1 ?e2 ?e3 //; exact: I.
Qed.
(** Every scheme returns its minimiser, finished as documented. *)
Theorem C49_schemes nx ny n s (arr : 'M[C]_(nx, ny)) (expn : n.-tuple (Z * Z)) l :
  n <> 0%N -> distinct expn -> resolves nx ny expn -> nondegenerate l ->
  exists grad, central_gradient l arr grad /\
  let g := filtered_gradient grad expn (doubled_shape nx ny expn).1 (doubled_shape nx ny expn).2 in
  let value := objective expn l (alignment_target (jones_target s) g) (length_at g)
                 ((scheme_weights s).1 / INR n) ((scheme_weights s).2 / INR n) in
  (is_1d_field g).1 = false -> exists F,
  [/\ vector_field_scheme s arr expn l = Val (finish s (normalize (field_series expn F nx ny))),
      (forall G, exists y, value G y) &
      forall G x y, value F x -> value G y -> (x <= y)%coqR /\ (x = y -> G = F)].
Proof.
move=> n0 hd hr hn.
have w0 : (0 <= (scheme_weights s).1 /\ 0 <= (scheme_weights s).2 /\ (0 < (scheme_weights s).1 \/ 0 < (scheme_weights s).2))%coqR.
  by case: s => /=; lra.
have [w1 [w2 w3]] := w0.
have [grad [hg h]] := C49_unique_minimiser arr (jones_target s) n0 hd hr hn w1 w2 w3.
exists grad; split=> // g value h1; have [F [k1 k2 k3]] := h h1; exists F; split=> //.
by rewrite schemeE k1.
Qed.
(** The lengths of the fields of each scheme. *)
Theorem C39_schemes nx ny n s (arr : 'M[C]_(nx, ny)) (expn : n.-tuple (Z * Z)) l v i j :
  vector_field_scheme s arr expn l = Val v ->
  match s with
  | Jones | JonesFourier => (length_at v i j <= sqrt 2)%coqR
  | Normal | NormalFourier => length_at v i j = 1%coqR \/ (length_at v i j <= tolerance)%coqR
  | _ => (length_at v i j <= 1)%coqR
  end.
Proof.
rewrite schemeE => hv; have [u hu <-] := rmapV hv.
have u1 : (length_at u i j <= 1)%coqR.
  have [_ h] := checkV hu; binv h g hg; binv h gx hgx; binv h gy hgy.
  case: (is_1d_field (normalize (gx, gy))) h => b a h; binv h F hF; binv h x hx; binv h y hy; binv h w hw.
  by case: h => <-; have [t [_ _ k _ _]] := C39_normalize w; exact: k.
have N : length_at (normalize_elementwise u) i j = 1%coqR \/ (length_at (normalize_elementwise u) i j <= tolerance)%coqR.
  have [h1 h2] := C39_elementwise u i j; have [h|h] := Rlt_dec tolerance (length_at u i j).
    by left; have [] := h1 h.
  by right; rewrite /length_at; have [-> ->] := h2 (Rnot_lt_le _ _ h); apply: Rnot_lt_le.
have J : (length_at (normalize_jones u) i j <= sqrt 2)%coqR by have [] := C39_jones u i j.
by case: s {hu hv}.
Qed.
Print Assumptions C49_schemes.
Print Assumptions C39_schemes.

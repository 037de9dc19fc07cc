(** C17-C19: Fourier transforms, convolution matrices and array index arithmetic. *)
From Coq Require Import Reals ZArith Lra Lia.
From mathcomp Require Import all_ssreflect all_algebra.
From Verif Require Import CField Err LinAlg M_utils M_basis M_fft S_fft L_scattering L_fft.
Set Implicit Arguments. Unset Strict Implicit. Unset Printing Implicit Defensive.
Import GRing.Theory.
Local Open Scope ring_scope.

(** ** C17 *)

(** [fft] returns the Fourier coefficients of the array, [ifft] the Fourier series. *)
Theorem C17_fft_coefficients nx ny n (x : 'M[C]_(nx, ny)) (expn : n.-tuple (Z * Z)) y :
  fft x expn = Val y -> forall i, y i 0 = fourier_coefficient x (tnth expn i).
Proof. by move=> /fft_entry -> i; rewrite mxE. Qed.
Print Assumptions C17_fft_coefficients.

Theorem C17_ifft_series nx ny n (y : 'cV[C]_n) (expn : n.-tuple (Z * Z)) x :
  distinct expn -> ifft y expn nx ny = Val x -> x = fourier_series expn y nx ny.
Proof.
rewrite /ifft => hd; case: (validateE nx ny expn) => e; rewrite e //= => -[<-].
by have [n0 hr] := proj1 (validateP nx ny expn) e; rewrite ifftE.
Qed.
Print Assumptions C17_ifft_series.

(** [fft(ifft(y)) = y] *)
Theorem C17_fft_of_ifft nx ny n (y : 'cV[C]_n) (expn : n.-tuple (Z * Z)) x :
  distinct expn -> ifft y expn nx ny = Val x -> fft x expn = Val y.
Proof.
move=> hd hx; have hs := C17_ifft_series hd hx.
move: hx; rewrite /ifft; case: (validateE nx ny expn) => e; rewrite e //= => _.
have [n0 hr] := proj1 (validateP nx ny expn) e; have [z hz] := fft_total x n0 hr.
rewrite hz; congr (Val _); rewrite (fft_entry hz); apply/colP => i.
by rewrite mxE hs coefficient_series.
Qed.
Print Assumptions C17_fft_of_ifft.

(** [ifft(fft(x)) = x] for every combination [x] of the retained orders. *)
Theorem C17_ifft_of_fft nx ny n (c : 'cV[C]_n) (expn : n.-tuple (Z * Z)) y :
  distinct expn -> fft (fourier_series expn c nx ny) expn = Val y ->
  y = c /\ ifft y expn nx ny = Val (fourier_series expn c nx ny).
Proof.
move=> hd hy; have := hy; rewrite /fft; case: (validateE nx ny expn) => e; rewrite e //= => _.
have [n0 hr] := proj1 (validateP nx ny expn) e.
have hyc : y = c.
  by rewrite (fft_entry hy); apply/colP => i; rewrite mxE coefficient_series.
by split=> //; rewrite hyc /ifft e /= ifftE.
Qed.
Print Assumptions C17_ifft_of_fft.

(** Both functions return a value exactly for the grids that resolve the expansion. *)
Theorem C17_defined nx ny n (expn : n.-tuple (Z * Z)) :
  (forall x : 'M[C]_(nx, ny), (n <> 0%N /\ resolves nx ny expn) <-> exists y, fft x expn = Val y) /\
  (forall y : 'cV[C]_n, (n <> 0%N /\ resolves nx ny expn) <-> exists x, ifft y expn nx ny = Val x).
Proof.
split=> z; rewrite -validateP /fft /ifft; case: (validateE nx ny expn) => ->; split=> //=.
- by eexists.
- by case.
- by eexists.
- by case.
Qed.
Print Assumptions C17_defined.

(** ** C18 *)

Theorem C18_entries nx ny n (x : 'M[C]_(nx, ny)) (expn : n.-tuple (Z * Z)) T :
  fourier_convolution_matrix x expn = Val T ->
  forall i j, T i j = fourier_coefficient x ((tnth expn i).1 - (tnth expn j).1, (tnth expn i).2 - (tnth expn j).2)%coqZ.
Proof. by move=> /conv_entry -> i j; rewrite mxE. Qed.
Print Assumptions C18_entries.

(** Applying the matrix to the coefficients of a function made of the retained orders gives
    the retained coefficients of the product, for every array [x]. *)
Theorem C18_multiplication nx ny n (x : 'M[C]_(nx, ny)) (expn : n.-tuple (Z * Z)) T (c : 'cV[C]_n) :
  fourier_convolution_matrix x expn = Val T ->
  fft (pointwise x (fourier_series expn c nx ny)) expn = Val (T *m c).
Proof.
move=> hT; have := hT; rewrite /fourier_convolution_matrix.
case: (validateE nx ny expn) => e; rewrite e //= => _.
have [n0 hr] := proj1 (validateP nx ny expn) e.
have [y hy] := fft_total (pointwise x (fourier_series expn c nx ny)) n0 hr.
rewrite hy (fft_entry hy); congr (Val _); apply/colP => i; rewrite mxE [RHS]mxE.
transitivity (\sum_j c j 0 * fourier_coefficient (pointwise x
   (\matrix_(a, b) (wave nx (tnth expn j).1 a * wave ny (tnth expn j).2 b))) (tnth expn i)).
  rewrite -coefficient_sum; congr (fourier_coefficient _ _); apply/matrixP => a b.
  rewrite !mxE mulr_sumr; apply: eq_bigr => j _; rewrite !mxE.
  by move: (wave _ _ _ * _) => w; rewrite mulrCA.
by apply: eq_bigr => j _; rewrite coefficient_shift (C18_entries hT) mulrC.
Qed.
Print Assumptions C18_multiplication.

(** In terms of the API only: the matrix of [x] applied to [fft(y)] is [fft(x y)] for every
    [y] that [ifft] can produce. *)
Theorem C18_multiplication_api nx ny n (x : 'M[C]_(nx, ny)) (expn : n.-tuple (Z * Z)) T c y fy :
  distinct expn ->
  fourier_convolution_matrix x expn = Val T -> ifft c expn nx ny = Val y -> fft y expn = Val fy ->
  fft (pointwise x y) expn = Val (T *m fy).
Proof.
move=> hd hT hy hfy; have := C17_fft_of_ifft hd hy; rewrite hfy => -[->].
by rewrite (C17_ifft_series hd hy); apply: C18_multiplication.
Qed.
Print Assumptions C18_multiplication_api.

Theorem C18_constant nx ny n (c : C) (expn : n.-tuple (Z * Z)) T :
  distinct expn -> fourier_convolution_matrix (const_mx c : 'M_(nx, ny)) expn = Val T -> T = c%:M.
Proof.
move=> hd hT; have := hT; rewrite /fourier_convolution_matrix.
case: (validateE nx ny expn) => e; rewrite e //= => _.
have [n0 hr] := proj1 (validateP nx ny expn) e; have [px py] := resolves_pos n0 hr.
apply/matrixP => i j; rewrite (C18_entries hT) coefficient_const // mxE.
case: (i =P j) => [->|ne]; first by rewrite !Z.sub_diag !Zmod_0_l.
have z N d : (Z.abs d < Z.of_nat N)%coqZ -> (d mod Z.of_nat N = 0)%coqZ -> d = 0%coqZ.
  move=> hd0 hm; have [k hk] := proj1 (Z.mod_divide d (Z.of_nat N) ltac:(lia)) hm.
  have k0 : k = 0%coqZ by nia.
  by rewrite hk k0.
case: ifP => [/andP[/Z.eqb_spec h1 /Z.eqb_spec h2]|_]; last by [].
case: ne; apply: hd; have := hr i; have := hr j.
move: h1 h2; case: (tnth expn i) (tnth expn j) => [u v] [u' v']; cbn [fst snd] => h1 h2 [? ?] [? ?].
have := z nx (u - u')%coqZ ltac:(lia) h1; have := z ny (v - v')%coqZ ltac:(lia) h2.
by move=> a b; congr (_, _); lia.
Qed.
Print Assumptions C18_constant.

(** The matrix of the complex conjugate array is the conjugate transpose, so a real array
    has a Hermitian matrix. *)
Theorem C18_conjugate nx ny n (x : 'M[C]_(nx, ny)) (expn : n.-tuple (Z * Z)) T T' :
  fourier_convolution_matrix x expn = Val T ->
  fourier_convolution_matrix (map_mx Cconj x) expn = Val T' -> T' = adjm T.
Proof.
move=> hT hT'; apply/matrixP => i j; rewrite (C18_entries hT') coefficient_conj.
rewrite /adjm mxE [in RHS]mxE (C18_entries hT); congr (Cconj (fourier_coefficient _ (_, _))) => /=; lia.
Qed.
Print Assumptions C18_conjugate.

Theorem C18_real_hermitian nx ny n (x : 'M[C]_(nx, ny)) (expn : n.-tuple (Z * Z)) T :
  (forall a b, im (x a b) = R0) -> fourier_convolution_matrix x expn = Val T -> adjm T = T.
Proof.
move=> hx hT; symmetry; apply: (C18_conjugate hT); rewrite -hT; congr fourier_convolution_matrix.
by apply/matrixP => a b; rewrite mxE; apply/is_realP.
Qed.
Print Assumptions C18_real_hermitian.

Theorem C18_linear nx ny n (a : C) (x y : 'M[C]_(nx, ny)) (expn : n.-tuple (Z * Z)) T T' :
  fourier_convolution_matrix x expn = Val T -> fourier_convolution_matrix y expn = Val T' ->
  fourier_convolution_matrix (a *: x + y) expn = Val (a *: T + T').
Proof.
move=> hT hT'; have := hT; rewrite {1}/fourier_convolution_matrix.
case: (validateE nx ny expn) => e; rewrite e //= => _.
have [n0 hr] := proj1 (validateP nx ny expn) e; have [V hV] := conv_total (a *: x + y) n0 hr.
rewrite hV; congr (Val _); apply/matrixP => i j.
by rewrite (C18_entries hV) coefficientD mxE [(a *: T) i j]mxE (C18_entries hT) (C18_entries hT').
Qed.
Print Assumptions C18_linear.

(** ** C19 *)

(** Validation accepts exactly the grids that resolve every order; otherwise ValueError. *)
Theorem C19_validation nx ny n (expn : n.-tuple (Z * Z)) :
  (n <> 0%N -> resolves nx ny expn -> validate_shape_for_expansion (nx, ny) expn = Val tt) /\
  (~ resolves nx ny expn -> validate_shape_for_expansion (nx, ny) expn = Exn ValueError).
Proof.
split; first by move=> n0 hr; apply/validateP.
move=> hn; case: (validateE nx ny expn) => // /validateP [_ hr]; by case: hn.
Qed.
Print Assumptions C19_validation.

(** Accepted: distinct orders read and write distinct in-range elements. *)
Theorem C19_orders_distinct nx ny n (expn : n.-tuple (Z * Z)) :
  validate_shape_for_expansion (nx, ny) expn = Val tt ->
  (forall i, exists k l, [/\ (k < nx)%N, (l < ny)%N,
     gather_index nx (tnth expn i).1 = k /\ gather_index ny (tnth expn i).2 = l,
     scatter_index nx (tnth expn i).1 = Some k /\ scatter_index ny (tnth expn i).2 = Some l &
     Z.of_nat k = ((tnth expn i).1 mod Z.of_nat nx)%coqZ /\
     Z.of_nat l = ((tnth expn i).2 mod Z.of_nat ny)%coqZ]) /\
  (forall i j, gather_index nx (tnth expn i).1 = gather_index nx (tnth expn j).1 ->
     gather_index ny (tnth expn i).2 = gather_index ny (tnth expn j).2 ->
     tnth expn i = tnth expn j).
Proof.
move=> /validateP [n0 hr]; have [px py] := resolves_pos n0 hr; split.
- move=> i; have [ex lx] := @gather_mod nx (tnth expn i).1 px ltac:(have := hr i; lia).
  have [ey ly] := @gather_mod ny (tnth expn i).2 py ltac:(have := hr i; lia).
  exists (gather_index nx (tnth expn i).1), (gather_index ny (tnth expn i).2); split=> //.
  by split; apply: scatter_gather => //; have := hr i; lia.
- move=> i j; have := hr i; have := hr j.
  case: (tnth expn i) (tnth expn j) => [u v] [u' v']; cbn [fst snd] => -[? ?] [? ?] h1 h2.
  by rewrite (@gather_inj nx u u') // (@gather_inj ny v v').
Qed.
Print Assumptions C19_orders_distinct.

(** Accepted: every order difference reads an in-range element, the one congruent to it. *)
Theorem C19_differences nx ny n (expn : n.-tuple (Z * Z)) i j :
  validate_shape_for_expansion (nx, ny) expn = Val tt ->
  let g := standard_toeplitz_index expn i j in
  [/\ (gather_index nx g.1 < nx)%N, (gather_index ny g.2 < ny)%N,
      Z.of_nat (gather_index nx g.1) = (g.1 mod Z.of_nat nx)%coqZ,
      Z.of_nat (gather_index ny g.2) = (g.2 mod Z.of_nat ny)%coqZ &
      (gather_index nx g.1 = 0%N /\ gather_index ny g.2 = 0%N) -> tnth expn i = tnth expn j].
Proof.
move=> /validateP [n0 hr]; have [px py] := resolves_pos n0 hr => g.
have ri := hr i; have rj := hr j; rewrite /g /standard_toeplitz_index; cbn [fst snd].
move: ri rj; case: (tnth expn i) (tnth expn j) => [u v] [u' v']; cbn [fst snd] => -[? ?] [? ?].
have [ex lx] := @gather_mod nx (u - u')%coqZ px ltac:(lia).
have [ey ly] := @gather_mod ny (v - v')%coqZ py ltac:(lia).
split=> // -[h1 h2]; rewrite h1 in ex; rewrite h2 in ey.
have z N d : (Z.abs d < Z.of_nat N)%coqZ -> Z.of_nat 0 = (d mod Z.of_nat N)%coqZ -> d = 0%coqZ.
  move=> hd0 hm; have [k hk] := proj1 (Z.mod_divide d (Z.of_nat N) ltac:(lia)) (esym hm).
  have k0 : k = 0%coqZ by nia.
  by rewrite hk k0.
have a := z nx (u - u')%coqZ ltac:(lia) ex; have b := z ny (v - v')%coqZ ltac:(lia) ey.
by congr (_, _); lia.
Qed.
Print Assumptions C19_differences.

(** Twice the resolution makes order differences distinct as well. *)
Theorem C19_differences_distinct nx ny n (expn : n.-tuple (Z * Z)) :
  (forall i, (4 * Z.abs (tnth expn i).1 < Z.of_nat nx)%coqZ /\ (4 * Z.abs (tnth expn i).2 < Z.of_nat ny)%coqZ) ->
  forall i j k l,
  let g := standard_toeplitz_index expn i j in let h := standard_toeplitz_index expn k l in
  gather_index nx g.1 = gather_index nx h.1 -> gather_index ny g.2 = gather_index ny h.2 -> g = h.
Proof.
move=> hr i j k l g h; rewrite /g /h /standard_toeplitz_index; cbn [fst snd].
have := hr i; have := hr j; have := hr k; have := hr l => -[? ?] [? ?] [? ?] [? ?] h1 h2.
by congr (_, _); [apply: (@gather_inj nx)|apply: (@gather_inj ny)] => //; lia.
Qed.
Print Assumptions C19_differences_distinct.

(** The accepted shapes do not suffice for that: with orders -1, 0, 1 on three points the
    differences 2 and -1 read the same element, so the convolution matrix of the array
    [exp(2 pi i 2 a / 3)] has that coefficient in both places. *)
Definition three_orders : 3.-tuple (Z * Z) := [tuple (0, 0)%coqZ; (1, 0)%coqZ; (-1, 0)%coqZ].
Theorem C19_differences_alias_refuted :
  validate_shape_for_expansion (3, 1)%N three_orders = Val tt /\ distinct three_orders /\
  exists i j k l,
    standard_toeplitz_index three_orders i j <> standard_toeplitz_index three_orders k l /\
    (forall x : 'M[C]_(3, 1), exists T, fourier_convolution_matrix x three_orders = Val T /\ T i j = T k l).
Proof.
split; first by [].
split.
  move=> i j; rewrite !(tnth_nth (0, 0)%coqZ) => h; apply: val_inj; move: h.
  by case: i j => [[|[|[|i]]] hi] [[|[|[|j]]] hj].
pose o k (h : (k < 3)%N) := Ordinal h : 'I_3.
exists (@o 1%N isT), (@o 2%N isT), (@o 2%N isT), (@o 0%N isT); split.
  by rewrite /standard_toeplitz_index !(tnth_nth (0, 0)%coqZ) /= => -[].
move=> x; have hv : validate_shape_for_expansion (3, 1)%N three_orders = Val tt by [].
have [n0 hr] := proj1 (validateP _ _ _) hv; have [T hT] := conv_total x n0 hr.
exists T; split=> //; move: hT; rewrite /fourier_convolution_matrix hv /= => -[<-].
by rewrite !mxE /standard_toeplitz_index !(tnth_nth (0, 0)%coqZ).
Qed.
Print Assumptions C19_differences_alias_refuted.

(** Non-vacuity: the three orders on a 3 by 1 grid are resolved and distinct; every
    hypothesis above is then a matter of [C17_defined]. *)
Example C17_witness : resolves 3 1 three_orders /\ distinct three_orders /\
  exists x, ifft (\col_(i < 3) RtoC (INR i)) three_orders 3 1 = Val x /\ fft x three_orders = Val (\col_(i < 3) RtoC (INR i)).
Proof.
have hv : validate_shape_for_expansion (3, 1)%N three_orders = Val tt by [].
have [n0 hr] := proj1 (validateP _ _ _) hv.
have [_ [hd _]] := C19_differences_alias_refuted.
split; first exact: hr.
split; first exact: hd.
have [x hx] := proj1 (proj2 (C17_defined 3 1 three_orders) (\col_(i < 3) RtoC (INR i))) (conj n0 hr).
by exists x; split=> //; apply: C17_fft_of_ifft hx.
Qed.
Example C18_witness : exists T, fourier_convolution_matrix (const_mx Ci : 'M_(3, 1)) three_orders = Val T /\ T = Ci%:M.
Proof.
have [hr [hd _]] := C17_witness; have [T hT] := @conv_total 3 1 3 (const_mx Ci) three_orders ltac:(by []) hr.
by exists T; split=> //; apply: (C18_constant hd hT).
Qed.
Example C19_witness : validate_shape_for_expansion (2, 1)%N three_orders = Exn ValueError.
Proof. by []. Qed.

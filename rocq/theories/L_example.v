(** Concrete layers, used to show that the hypotheses of the theorems can be met: uniform
    layers with one Fourier order at normal incidence, wavelength [2 pi], refractive index
    [r > 0], on the unit square lattice. All their matrices are scalar. *)
From Coq Require Import Reals ZArith Lra.
From mathcomp Require Import all_ssreflect all_algebra.
From Verif Require Import CField Err LinAlg M_utils M_basis M_fft M_fmm_matrices M_fmm M_scattering M_fields S_stack L_scattering.
Set Implicit Arguments. Unset Strict Implicit. Unset Printing Implicit Defensive.
Import GRing.Theory.
Local Open Scope ring_scope.

Definition sq_lattice := Lattice (1, 0)%coqR (0, 1)%coqR.
Definition ex_expn : 1.-tuple (Z * Z) := [tuple (0, 0)%coqZ].
Definition ex_wl : R := (2 * PI)%coqR.

Definition ex_layer (r : R) : layer_solve_result 1 :=
  {| wavelength := ex_wl; in_plane_wavevector := (0, 0)%coqR;
     primitive_lattice_vectors := sq_lattice; expansion := ex_expn;
     eigenvalues := const_mx (RtoC r); eigenvectors := 1%:M;
     z_permittivity_matrix := diag (const_mx (RtoC (r * r)%coqR));
     inverse_z_permittivity_matrix := diag (const_mx (RtoC (r * r)%coqR)^-1);
     z_permeability_matrix := diag (const_mx 1);
     inverse_z_permeability_matrix := diag (const_mx 1);
     transverse_permeability_matrix := diag (const_mx 1);
     tangent_vector_field := None |}.

Lemma recip_sq : reciprocal sq_lattice = Val (Lattice (1, 0)%coqR (0, 1)%coqR).
Proof.
rewrite /reciprocal /recipR /cross_product /= ifT.
  by rewrite /= RinvE; congr (Val (Lattice (_, _) (_, _))); field; lra.
by apply/eqP => h; move: h; rewrite R0E; lra.
Qed.

Lemma ex_k : transverse_wavevectors (0, 0)%coqR sq_lattice ex_expn = Val (0, 0).
Proof.
rewrite /transverse_wavevectors recip_sq /=.
by congr (Val (_, _)); apply/matrixP=> i j; rewrite !mxE !(tnth_nth (0, 0)%coqZ) (ord1 j) /= R0E; ring.
Qed.

Lemma ex_w : angular_frequency ex_wl = Val 1%coqR.
Proof.
have p := PI_RGT_0; rewrite /angular_frequency /recipR ifT; last by apply/eqP; rewrite R0E /ex_wl; lra.
by rewrite /= RinvE /ex_wl; congr Val; field; lra.
Qed.

Lemma csqrt_pos (r : R) : (0 <= r)%coqR -> csqrt (RtoC (r * r)%coqR) = RtoC r.
Proof.
move=> r0; have rr : (0 <= r * r)%coqR by nra.
have m : Cmod (RtoC (r * r)%coqR) = (r * r)%coqR.
  by rewrite CmodE /abs2 !reimE Rmult_0_r Rplus_0_r sqrt_square.
rewrite /csqrt m !reimE; case: Rlt_dec => [h|h] /=; first by lra.
have -> : ((r * r + r * r) / 2 = r * r)%coqR by field.
have -> : ((r * r - r * r) / 2 = 0)%coqR by field.
by rewrite sqrt_square // sqrt_0.
Qed.

(** The example layer is what the eigensolve returns. *)
Lemma ex_solve r : (0 < r)%coqR ->
  eigensolve_uniform_isotropic_media ex_wl (0, 0)%coqR sq_lattice (RtoC (r * r)%coqR) ex_expn =
  Val (ex_layer r).
Proof.
move=> r0; rewrite /eigensolve_uniform_isotropic_media ex_k /= ex_w /=.
rewrite /recipC ifT; last by apply: RtoC_neq0; nra.
rewrite /=; congr Val; rewrite /ex_layer; congr LSR.
apply/rowP=> j; rewrite mxE.
have key i : select_eigenvalues_sign
   (\row_i0 csqrt (RtoC (r * r)%coqR * RtoC (1 * 1)%coqR - RtoC ((0 : 'rV[R]_1) 0 i0 ^+ 2) - RtoC ((0 : 'rV[R]_1) 0 i0 ^+ 2))) 0 i = RtoC r.
  rewrite !mxE expr0n /=.
  have -> : RtoC (r * r)%coqR * RtoC (1 * 1)%coqR - RtoC (0 : R) - RtoC (0 : R) = RtoC (r * r)%coqR.
    by rewrite -[RtoC (0 : R)]/(0 : C) !subr0; Creim; ring.
  rewrite csqrt_pos; last by lra.
  by rewrite /select_eigenvalue_sign imRC; case: Rlt_dec => // h; lra.
rewrite mxE; case: (split j) => k; exact: key.
Qed.

Lemma ex_omega r : (0 < r)%coqR -> omega_script_k_matrix (ex_layer r) = Val 1%:M.
Proof.
move=> r0; rewrite /omega_script_k_matrix /= ex_k /=.
rewrite /omega_script_k_matrix_patterned /script_k_matrix_patterned /=.
have u : diag (const_mx (RtoC (r * r)%coqR)) \in @unitmx C_comUnitRing 1.
  by rewrite diag_unit; apply/forallP=> i; rewrite mxE; apply: RtoC_neq0; nra.
rewrite /solve u /= ex_w /=; congr Val.
have -> : vC (0 : 'rV[R]_1) = 0 by apply/matrixP=> i j; rewrite !mxE.
have -> : diag (0 : 'rV[C]_1) = 0 by apply/matrixP=> i j; rewrite !mxE mul0rn.
rewrite mulmx0 oppr0 !rowscaleE !mulmx0 block_mx0 subr0 diag1.
have -> : RtoC (1 * 1)%coqR = 1 by Creim; ring.
by rewrite scale1r.
Qed.

Lemma ex_finite r : (0 < r)%coqR -> exists M, field_conversion_matrix (ex_layer r) = Val M.
Proof.
move=> r0; rewrite /field_conversion_matrix ex_omega //= ex_w /= /recip ifT; first by eexists.
apply/forallP=> i; rewrite !mxE mulf_neq0 //; first exact: oner_neq0.
by apply: RtoC_neq0; lra.
Qed.

Lemma ex_finite_fields (rs : seq R) : allp (fun r => 0 < r)%coqR rs -> finite_fields (map ex_layer rs).
Proof.
elim: rs => [|r rs IH] /=; first by move=> _ l [].
case=> r0 h l [<-|hl]; first exact: ex_finite.
exact: IH.
Qed.
Lemma ex_same_wavelength (rs : seq R) : same_wavelength ex_wl (map ex_layer rs).
Proof. by elim: rs => [|r rs IH] /=; [move=> l []|move=> l [<-|hl] //; exact: IH]. Qed.

(** ** Scalar calculus *)
Lemma solve_scalar m (a b : C) : a != 0 -> solve (a%:M : 'M[C]_m) b%:M = Val (a^-1 * b)%:M.
Proof.
move=> a0; rewrite /solve ifT; last by rewrite unitmxE det_scalar unitrX // unitfE.
by rewrite invmx_scalar -scalar_mxM.
Qed.
Lemma diag_scalar m (a : C) : diag (const_mx a) = a%:M :> 'M[C]_m.
Proof. exact: diag_const_mx. Qed.

Definition ph (r t : R) : C := cexp (Ci * RtoC r * RtoC t).
Lemma phase_ex r t : diag (phase (eigenvalues (ex_layer r)) t) = (ph r t)%:M.
Proof. by rewrite -diag_scalar; congr diag; apply/matrixP=> i j; rewrite !mxE. Qed.

Definition i1 (r r' : R) : C := RtoC ((r / r' + 1) / 2)%coqR.
Definition i2 (r r' : R) : C := RtoC ((1 - r / r') / 2)%coqR.
Lemma ex_interface r r' : (0 < r)%coqR -> (0 < r')%coqR ->
  interface_matrices (ex_layer r) (ex_layer r') = Val ((i1 r r')%:M, (i2 r r')%:M).
Proof.
move=> r0 r0'; rewrite /interface_matrices !ex_omega //=.
rewrite /recip ifT /=; last by apply/forallP=> i; rewrite mxE; apply: RtoC_neq0; lra.
rewrite !mulmx1 colscaleE mul1mx.
have -> : diag (map_mx (fun x : C => x^-1) (const_mx (RtoC r'))) = ((RtoC r')^-1)%:M :> 'M[C]_(1 + 1).
  by rewrite -diag_scalar; congr diag; apply/matrixP=> i j; rewrite !mxE.
rewrite !(@solve_scalar (1 + 1) 1) ?oner_neq0 //= rowscaleE diag_scalar -scalar_mxM.
have cr : RtoC r' != 0 by apply: RtoC_neq0; lra.
have e : RtoC r * (1^-1 * (RtoC r')^-1) = RtoC (r / r')%coqR.
  by rewrite invr1 mul1r; toC; rewrite -Complex.RtoC_inv ?Complex.RtoC_mult //; lra.
congr (Val (_, _)); rewrite invr1 mul1r in e *; rewrite ?e.
- apply/matrixP=> i j; rewrite !mxE; case: (i == j); rewrite ?mulr1n ?mulr0n ?mulr1 ?addr0 ?oppr0 ?mulr0 //;  rewrite /half /i1; Creim; lra.
- apply/matrixP=> i j; rewrite !mxE; case: (i == j); rewrite ?mulr1n ?mulr0n ?mulr1 ?oppr0 ?addr0 ?mulr0 //; rewrite /half /i2; Creim; lra.
Qed.

(** A scattering matrix with scalar blocks. *)
Definition sc_smat (a b c d : C) (l : layer_solve_result 1) t l' t' : scattering_matrix 1 :=
  SMat a%:M b%:M c%:M d%:M l t l' t'.

Lemma ex_append a b c d r0 t0 r t r' t' : (0 < r)%coqR -> (0 < r')%coqR ->
  i1 r r' - ph r t * b * i2 r r' != 0 ->
  append_layer (sc_smat a b c d (ex_layer r0) t0 (ex_layer r) t) (ex_layer r') t' =
  let T := (i1 r r' - ph r t * b * i2 r r')^-1 in
  let a' := T * (ph r t * a) in
  let b' := T * ((ph r t * b * i1 r r' - i2 r r') * ph r' t') in
  Val (sc_smat a' b' (d * i2 r r' * a' + c) (d * i2 r r' * b' + d * i1 r r' * ph r' t')
        (ex_layer r0) t0 (ex_layer r') t').
Proof.
move=> hr hr' nz; rewrite /append_layer /extend_s_matrix /= ex_interface //=.
rewrite !(rowscaleE, colscaleE) !phase_ex -!scalar_mxM.
have sB (x y : C) : x%:M - y%:M = (x - y)%:M :> 'M[C]_(1 + 1) by rewrite raddfB.
have sD (x y : C) : x%:M + y%:M = (x + y)%:M :> 'M[C]_(1 + 1) by rewrite raddfD.
rewrite !sB -!scalar_mxM !solve_scalar //= -!scalar_mxM !sD.
by [].
Qed.

Lemma ex_identity r t :
  identity_s_matrix (ex_layer r) t = sc_smat 1 0 0 1 (ex_layer r) t (ex_layer r) t.
Proof. by rewrite /identity_s_matrix /sc_smat !diag_scalar raddf0. Qed.

Lemma ph1 : ph 1 PI = -1.
Proof.
rewrite /ph /cexp !reimE.
have -> : ((0 * 1 - 1 * 0) * PI - (0 * 0 + 1 * 1) * 0 = 0)%coqR by ring.
have -> : ((0 * 1 - 1 * 0) * 0 + (0 * 0 + 1 * 1) * PI = PI)%coqR by ring.
rewrite exp_0 cos_PI sin_PI; Creim; toR; ring.
Qed.
Lemma ph2 : ph 2 (PI / 4) = Ci.
Proof.
rewrite /ph /cexp !reimE.
have -> : ((0 * 2 - 1 * 0) * (PI / 4) - (0 * 0 + 1 * 2) * 0 = 0)%coqR by ring.
have -> : ((0 * 2 - 1 * 0) * 0 + (0 * 0 + 1 * 2) * (PI / 4) = PI / 2)%coqR by field.
rewrite exp_0 cos_PI2 sin_PI2; Creim; toR; ring.
Qed.

(** Quarter-wave layer of index 2 between half spaces of index 1. *)
Definition ex_stack := [:: ex_layer 1; ex_layer 2; ex_layer 1].
Definition ex_thickness := [:: PI; (PI / 4)%coqR; PI].
Definition ex_pair := 
  sc_smat (RtoC (- 4 / 3)%coqR) (- RtoC (1 / 3)%coqR * Ci) (RtoC (- 1 / 3)%coqR) (RtoC (2 / 3)%coqR * Ci)
    (ex_layer 1) PI (ex_layer 2) (PI / 4).
Definition ex_smat := 
  sc_smat (RtoC (- 4 / 5)%coqR * Ci) (RtoC (- 3 / 5)%coqR) (RtoC (- 3 / 5)%coqR) (RtoC (- 4 / 5)%coqR * Ci)
    (ex_layer 1) PI (ex_layer 1) PI.

Lemma sc_inv (x y : C) : x * y = 1 -> x^-1 = y.
Proof.
move=> h; have x0 : x != 0 by apply/eqP => e; move: h; rewrite e mul0r => /esym/eqP; rewrite oner_eq0.
by rewrite -[LHS]mulr1 -h mulKf.
Qed.

Ltac scal := Creim; rewrite /Rdiv; toR; field.

Lemma ex_pairE : append_layer (identity_s_matrix (ex_layer 1) PI) (ex_layer 2) (PI / 4) = Val ex_pair.
Proof.
have e1 : i1 1 2 = RtoC (3 / 4)%coqR by rewrite /i1; congr RtoC; field.
have e2 : i2 1 2 = RtoC (1 / 4)%coqR by rewrite /i2; congr RtoC; field.
rewrite ex_identity ex_append; [|by lra|by lra|]; last first.
  by rewrite mulr0 mul0r subr0 e1; apply: RtoC_neq0; lra.
rewrite mulr0 mul0r subr0 e1 e2 ph1 ph2 (@sc_inv (RtoC (3 / 4)%coqR) (RtoC (4 / 3)%coqR)); last by scal.
by congr Val; rewrite /ex_pair /sc_smat; congr SMat; congr scalar_mx; scal.
Qed.

Lemma ex_stackE : stack_s_matrix ex_stack ex_thickness = Val ex_smat.
Proof.
rewrite /stack_s_matrix /stack_s_matrices /= pair_extend ex_pairE /=.
have e1 : i1 2 1 = RtoC (3 / 2)%coqR by rewrite /i1; congr RtoC; field.
have e2 : i2 2 1 = RtoC (- 1 / 2)%coqR by rewrite /i2; congr RtoC; field.
have eT : i1 2 1 - ph 2 (PI / 4) * (- RtoC (1 / 3)%coqR * Ci) * i2 2 1 = RtoC (5 / 3)%coqR.
  by rewrite e1 e2 ph2; scal.
rewrite /ex_pair ex_append; [|by lra|by lra|]; last by rewrite eT; apply: RtoC_neq0; lra.
rewrite eT e1 e2 ph1 ph2 (@sc_inv (RtoC (5 / 3)%coqR) (RtoC (3 / 5)%coqR)) /=; last by scal.
by congr Val; rewrite /ex_smat /sc_smat; congr SMat; congr scalar_mx; scal.
Qed.

Lemma ex_hyps : same_wavelength ex_wl ex_stack /\ finite_fields ex_stack.
Proof.
split; first exact: (@ex_same_wavelength [:: 1; 2; 1]%coqR).
by apply: (@ex_finite_fields [:: 1; 2; 1]%coqR); rewrite /=; lra.
Qed.

(** Interior matrices and amplitudes of the example, for incident amplitudes [2] and [0]. *)
Lemma ex_stacksE : stack_s_matrices ex_stack ex_thickness =
  Val [:: identity_s_matrix (ex_layer 1) PI; ex_pair; ex_smat].
Proof.
have := ex_stackE; rewrite /stack_s_matrix /stack_s_matrices /= pair_extend ex_pairE /=.
by case: append_layer => //= s [->].
Qed.

Definition ex_interior : seq (scattering_matrix 1 * scattering_matrix 1) :=
  [:: (identity_s_matrix (ex_layer 1) PI, reverse_s_matrix ex_smat);
      (ex_pair, reverse_s_matrix ex_pair);
      (ex_smat, reverse_s_matrix (identity_s_matrix (ex_layer 1) PI))].
Lemma ex_interiorE : stack_s_matrices_interior ex_stack ex_thickness = Val ex_interior.
Proof.
rewrite /stack_s_matrices_interior.
have -> : rev ex_stack = ex_stack by [].
have -> : rev ex_thickness = ex_thickness by [].
by rewrite ex_stacksE.
Qed.

Definition ex_amplitudes : seq ('M[C]_(1 + 1) * 'M[C]_(1 + 1)) :=
  [:: ((RtoC 2)%:M, (RtoC (- 6 / 5)%coqR)%:M);
      ((RtoC (- 12 / 5)%coqR)%:M, (RtoC (4 / 5)%coqR * Ci)%:M);
      ((RtoC (- 8 / 5)%coqR * Ci)%:M, 0)].
Lemma ex_amp a b c d l0 t0 l1 t1 a' b' c' d' l0' t0' l1' t1' x y : 1 - b * c' = y -> y != 0 ->
  amplitudes_interior (sc_smat a b c d l0 t0 l1 t1) (sc_smat a' b' c' d' l0' t0' l1' t1')
    (x%:M : 'M[C]_(1 + 1)) 0 = Val ((y^-1 * (a * x))%:M, (c' * (y^-1 * (a * x)))%:M).
Proof.
move=> <- nz; rewrite /amplitudes_interior /= !mulmx0 !addr0 -!scalar_mxM.
have sB (u v : C) : u%:M - v%:M = (u - v)%:M :> 'M[C]_(1 + 1) by rewrite raddfB.
by rewrite sB solve_scalar //= addr0 -scalar_mxM.
Qed.
Lemma ex_amplitudesE : stack_amplitudes_interior ex_interior (RtoC 2)%:M 0 = Val ex_amplitudes.
Proof.
rewrite /stack_amplitudes_interior /ex_interior ex_identity.
rewrite [reverse_s_matrix ex_smat]/(sc_smat _ _ _ _ _ _ _ _) [reverse_s_matrix ex_pair]/(sc_smat _ _ _ _ _ _ _ _).
rewrite [reverse_s_matrix _]/(sc_smat _ _ _ _ _ _ _ _) /=.
rewrite (@ex_amp _ _ _ _ _ _ _ _ _ _ _ _ _ _ _ _ _ 1); [|by rewrite mul0r subr0|exact: oner_neq0].
rewrite (@ex_amp _ _ _ _ _ _ _ _ _ _ _ _ _ _ _ _ _ (RtoC (10 / 9)%coqR)); [|by scal|by apply: RtoC_neq0; lra].
rewrite (@ex_amp _ _ _ _ _ _ _ _ _ _ _ _ _ _ _ _ _ 1); [|by rewrite mulr0 subr0|exact: oner_neq0].
rewrite /= (@sc_inv (RtoC (10 / 9)%coqR) (RtoC (9 / 10)%coqR)); last by scal.
rewrite invr1 !mul1r mul0r raddf0 /ex_amplitudes.
congr Val; congr [:: (_, _); (_, _); (_, _)]; congr (_%:M); scal.
Qed.

Lemma ex_amplitudes_b : exists ys, stack_amplitudes_interior ex_interior 0 (RtoC 3)%:M = Val ys.
Proof.
have E (before after : scattering_matrix 1) (b : 'M[C]_(1 + 1)) xs :
    stack_amplitudes_interior [:: (before, after)] (RtoC 2)%:M 0 = Val xs ->
    exists x, amplitudes_interior before after 0 b = Val x.
  rewrite /stack_amplitudes_interior /amplitudes_interior /= /solve.
  by case: ifP => //= _ _; eexists.
have := ex_amplitudesE; rewrite /stack_amplitudes_interior /= => H.
have h b a y : amplitudes_interior b a (RtoC 2)%:M 0 = Val y -> 
    stack_amplitudes_interior [:: (b, a)] ((RtoC 2)%:M : 'M[C]_(1 + 1)) 0 = Val [:: y].
  by rewrite /stack_amplitudes_interior /= => ->.
binv H x1 h1; binv H r1 g1; binv g1 x2 h2; binv g1 r2 g2; binv g2 x3 h3.
have [y1 ->] := E _ _ (RtoC 3)%:M _ (h _ _ _ h1).
have [y2 ->] := E _ _ (RtoC 3)%:M _ (h _ _ _ h2).
have [y3 ->] := E _ _ (RtoC 3)%:M _ (h _ _ _ h3).
by eexists.
Qed.

(** Star products of the example. *)
Lemma ex_red s a b c d l t l' t' b11 b12 b21 b22 k u k' u' y z :
  append_layer s k u = Val (sc_smat a b c d l t l' t') -> 1 - b * b21 = y -> y * z = 1 ->
  redheffer_star_product s (sc_smat b11 b12 b21 b22 k u k' u') =
  Val (SMat (b11 * (z * a))%:M (b12 + b11 * (z * (b * b22)))%:M (c + d * (z * (b21 * a)))%:M
        (d * (z * b22))%:M (start_layer_solve_result s) (start_layer_thickness s) k' u').
Proof.
move=> H e h; have y0 : y != 0 by apply/eqP => e'; move: h; rewrite e' mul0r => /esym/eqP; rewrite oner_eq0.
have ez : z = y^-1 by rewrite (sc_inv h).
have sB (v w : C) : v%:M - w%:M = (v - w)%:M :> 'M[C]_(1 + 1) by rewrite raddfB.
have sD (v w : C) : v%:M + w%:M = (v + w)%:M :> 'M[C]_(1 + 1) by rewrite raddfD.
rewrite /redheffer_star_product /= H /= diag_scalar -!scalar_mxM !sB [b21 * b]mulrC e.
by rewrite !solve_scalar //= ez -!scalar_mxM !sD.
Qed.

Definition ex_pair2 := sc_smat (RtoC (4 / 3)%coqR * Ci) (RtoC (1 / 3)%coqR * Ci) (RtoC (- 1 / 3)%coqR) (RtoC (2 / 3)%coqR)
    (ex_layer 1) PI (ex_layer 2) (PI / 4).
Definition ex_pair3 := sc_smat (RtoC (4 / 3)%coqR) (- RtoC (1 / 3)%coqR * Ci) (RtoC (- 1 / 3)%coqR) (- RtoC (2 / 3)%coqR * Ci)
    (ex_layer 1) PI (ex_layer 2) (PI / 4).

Lemma ex_pair_append : append_layer ex_pair (ex_layer 1) PI = Val ex_smat.
Proof.
have := ex_stackE; rewrite /stack_s_matrix /stack_s_matrices /= pair_extend ex_pairE /=.
by case: append_layer => //= s [->].
Qed.

Lemma ex_red2 : redheffer_star_product ex_pair ex_pair = Val ex_pair2.
Proof.
rewrite {2}/ex_pair (@ex_red _ _ _ _ _ _ _ _ _ _ _ _ _ _ _ _ _ (RtoC (4 / 5)%coqR) (RtoC (5 / 4)%coqR) ex_pair_append); [|by scal|by scal].
by congr Val; rewrite /ex_pair2 /sc_smat; congr SMat; congr (_%:M); scal.
Qed.
Lemma ex_red2' : redheffer_star_product ex_pair ex_pair2 = Val ex_pair3.
Proof.
rewrite /ex_pair2 (@ex_red _ _ _ _ _ _ _ _ _ _ _ _ _ _ _ _ _ (RtoC (4 / 5)%coqR) (RtoC (5 / 4)%coqR) ex_pair_append); [|by scal|by scal].
by congr Val; rewrite /ex_pair3 /sc_smat; congr SMat; congr (_%:M); scal.
Qed.
Lemma ex_red3 : redheffer_star_product ex_pair2 ex_pair = Val ex_pair3.
Proof.
have e1 : i1 2 1 = RtoC (3 / 2)%coqR by rewrite /i1; congr RtoC; field.
have e2 : i2 2 1 = RtoC (- 1 / 2)%coqR by rewrite /i2; congr RtoC; field.
have eT : i1 2 1 - ph 2 (PI / 4) * (RtoC (1 / 3)%coqR * Ci) * i2 2 1 = RtoC (4 / 3)%coqR.
  by rewrite e1 e2 ph2; scal.
have E : append_layer ex_pair2 (ex_layer 1) PI = Val (sc_smat (-1) 0 0 (-1) (ex_layer 1) PI (ex_layer 1) PI).
  rewrite /ex_pair2 ex_append; [|by lra|by lra|]; last by rewrite eT; apply: RtoC_neq0; lra.
  rewrite eT e1 e2 ph1 ph2 (@sc_inv (RtoC (4 / 3)%coqR) (RtoC (3 / 4)%coqR)) /=; last by scal.
  by congr Val; rewrite /sc_smat; congr SMat; congr (_%:M); scal.
rewrite /ex_pair (@ex_red _ _ _ _ _ _ _ _ _ _ _ _ _ _ _ _ _ 1 1 E); [|by rewrite mul0r subr0|by rewrite mulr1].
by congr Val; rewrite /ex_pair3 /sc_smat; congr SMat; congr (_%:M); scal.
Qed.

Lemma ex_pair_rev :
  append_layer (identity_s_matrix (ex_layer 2) (PI / 4)) (ex_layer 1) PI = Val (reverse_s_matrix ex_pair).
Proof.
have e1 : i1 2 1 = RtoC (3 / 2)%coqR by rewrite /i1; congr RtoC; field.
have e2 : i2 2 1 = RtoC (- 1 / 2)%coqR by rewrite /i2; congr RtoC; field.
rewrite ex_identity ex_append; [|by lra|by lra|]; last first.
  by rewrite mulr0 mul0r subr0 e1; apply: RtoC_neq0; lra.
rewrite mulr0 mul0r subr0 e1 e2 ph1 ph2 (@sc_inv (RtoC (3 / 2)%coqR) (RtoC (2 / 3)%coqR)); last by scal.
by congr Val; rewrite /reverse_s_matrix /ex_pair /sc_smat /=; congr SMat; congr (_%:M); scal.
Qed.

(** Proofs about scattering matrices. *)
From Coq Require Import Reals ZArith Lra.
From mathcomp Require Import all_ssreflect all_algebra.
From Verif Require Import CField Err LinAlg M_utils M_basis M_fft M_fmm_matrices M_fmm M_scattering M_fields S_stack.
Set Implicit Arguments. Unset Strict Implicit. Unset Printing Implicit Defensive.
Import GRing.Theory.
Local Open Scope ring_scope.

Ltac inv1 H := match type of H with
 | bind _ _ = Val _ => let x := fresh "x" in let h := fresh "h" in
      case: (bindV H) => {H} x h H
 | check _ _ _ = Val _ => let h := fresh "h" in case: (checkV H) => {H} h H
 | rmap _ _ = Val _ => let x := fresh "x" in let h := fresh "h" in
      case: (rmapV H) => {H} x h H
 | Val _ = Val _ => move/Val_inj: H => H
 end.

Tactic Notation "binv" hyp(H) ident(x) ident(h) := case: (bindV H) => {H} x h H.

Lemma angular_frequencyV wl w : angular_frequency wl = Val w ->
  wl <> R0 /\ w <> R0 /\ w = (2 * PI / wl)%coqR.
Proof.
rewrite /angular_frequency => H; inv1 H; case/recipRV: h => nz e; case: H => <-; rewrite {}e.
have wl0 : wl <> R0 by move/eqP: nz.
split=> //; split=> //; rewrite RinvE.
have p := PI_RGT_0; apply: Rmult_integral_contrapositive; split; first by lra.
exact: Rinv_neq_0_compat.
Qed.

Section Layer.
Variable n : nat.
Implicit Types (l : layer_solve_result n).

(** Finite conversion: everything the fields need. *)
Record fin_layer l := FinLayer {
  fl_O : 'M[C]_(n + n); fl_w : R; fl_kx : 'rV[R]_n; fl_ky : 'rV[R]_n;
  fl_k : transverse_wavevectors (in_plane_wavevector l) (primitive_lattice_vectors l)
           (expansion l) = Val (fl_kx, fl_ky);
  fl_Oe : omega_script_k_matrix l = Val fl_O;
  fl_we : angular_frequency (wavelength l) = Val fl_w;
  fl_q : forall i, eigenvalues l 0 i != 0 }.

Lemma fin_layerP l M : field_conversion_matrix l = Val M -> inhabited (fin_layer l).
Proof.
rewrite /field_conversion_matrix => H.
inv1 H; inv1 H; inv1 H.
have hk := h; rewrite /omega_script_k_matrix in hk; inv1 hk.
case: x2 h2 {hk} => kx ky h2.
constructor; apply: (@FinLayer l x x0 kx ky) => // i.
move/recipV: h1 => [nz _]; have := nz i; rewrite !mxE.
by rewrite mulf_eq0 negb_or => /andP[].
Qed.

Lemma fin_w0 l (f : fin_layer l) : RtoC (fl_w f) != 0.
Proof. by case: (angular_frequencyV (fl_we f)) => _ [h _]; apply: RtoC_neq0. Qed.

Definition wq l (f : fin_layer l) : 'rV[C]_(n + n) := \row_i (RtoC (fl_w f) * eigenvalues l 0 i)^-1.
Definition emat l (f : fin_layer l) := fl_O f *m eigenvectors l *m diag (wq f).

Lemma recip_wq l (f : fin_layer l) : recip (RtoC (fl_w f) *: eigenvalues l) = Val (wq f).
Proof.
rewrite /recip ifT; first by congr Val; apply/matrixP=> i j; rewrite !mxE (ord1 i).
by apply/forallP=> i; rewrite mxE mulf_neq0 ?fin_w0 ?fl_q.
Qed.

Lemma field_conversionE l (f : fin_layer l) :
  field_conversion_matrix l = Val (block_mx (emat f) (- emat f) (eigenvectors l) (eigenvectors l)).
Proof. by rewrite /field_conversion_matrix (fl_Oe f) /= (fl_we f) /= recip_wq. Qed.

Lemma a_matrixE l (f : fin_layer l) : poynting_flux_a_matrix l = Val (emat f).
Proof. by rewrite /poynting_flux_a_matrix (fl_Oe f) /= (fl_we f) /= recip_wq. Qed.

Section Fields.
Variables (m : nat) (l : layer_solve_result n) (f : fin_layer l).
(** tangential electric field [(-ey, ex)] and magnetic field [(hx, hy)] *)
Definition Et (a b : 'M[C]_(n + n, m)) := emat f *m (a - b).
Definition Ht (a b : 'M[C]_(n + n, m)) := eigenvectors l *m (a + b).
Definition ez_of (a b : 'M[C]_(n + n, m)) : 'M[C]_(n, m) :=
  (Ci * RtoC (fl_w f))^-1 *: ((- inverse_z_permittivity_matrix l) *m
     (rowscale (Ci *: vC (fl_kx f)) (dsubmx (Ht a b)) - rowscale (Ci *: vC (fl_ky f)) (usubmx (Ht a b)))).
Definition hz_of (a b : 'M[C]_(n + n, m)) : 'M[C]_(n, m) :=
  (Ci * RtoC (fl_w f))^-1 *: (inverse_z_permeability_matrix l *m
     (rowscale (Ci *: vC (fl_kx f)) (- usubmx (Et a b)) - rowscale (Ci *: vC (fl_ky f)) (dsubmx (Et a b)))).
Lemma fields_fromE (a b : 'M[C]_(n + n, m)) :
  fields_from_wave_amplitudes a b l =
  Val (Fields (dsubmx (Et a b)) (- usubmx (Et a b)) (ez_of a b)
              (usubmx (Ht a b)) (dsubmx (Ht a b)) (hz_of a b)).
Proof.
rewrite /fields_from_wave_amplitudes (field_conversionE f) /= (fl_k f) /= (fl_we f) /=.
rewrite /recipC ifT ?mulf_neq0 ?Ci_neq0 ?fin_w0 //= mul_block_col col_mxKu col_mxKd.
rewrite mulNmx -mulmxBr -mulmxDr -/(Et a b) -/(Ht a b).
by [].
Qed.
End Fields.
End Layer.

Lemma col_mx_inj p q r (A B : 'M[C]_(p + q, r)) :
  usubmx A = usubmx B -> dsubmx A = dsubmx B -> A = B.
Proof. by move=> h1 h2; rewrite -(vsubmxK A) -(vsubmxK B) h1 h2. Qed.

Lemma phaseD m (q : 'rV[C]_m) d1 d2 :
  diag (phase q d1) *m diag (phase q d2) = diag (phase q (d1 + d2)%coqR).
Proof.
rewrite diagM; congr diag; apply/matrixP=> i j; rewrite !mxE -cexpD; congr cexp.
by rewrite -mulrDr -rmorphD.
Qed.
Lemma phase0 m (q : 'rV[C]_m) : diag (phase q 0%coqR) = 1%:M.
Proof.
rewrite -diag_const_mx; congr diag; apply/matrixP=> i j; rewrite !mxE.
by rewrite -[RtoC _]/(0 : C) mulr0 cexp0.
Qed.
Lemma phase_unit m (q : 'rV[C]_m) d : diag (phase q d) \in unitmx.
Proof. by rewrite diag_unit; apply/forallP=> i; rewrite mxE cexp_neq0. Qed.
Lemma diag1 m : diag (const_mx 1) = 1%:M :> 'M[C]_m.
Proof. by rewrite diag_const_mx. Qed.

Lemma propagateE n m (a : 'M[C]_(n + n, m)) d (l : layer_solve_result n) :
  propagate_amplitude a (const_mx d) l = diag (phase (eigenvalues l) d) *m a.
Proof. by rewrite mul_diag_mx; apply/matrixP=> i j; rewrite !mxE mulrC. Qed.

Lemma colocateE n m (a b : 'M[C]_(n + n, m)) z (l : layer_solve_result n) t :
  colocate_amplitudes a b (const_mx z) l t =
  (diag (phase (eigenvalues l) z) *m a, diag (phase (eigenvalues l) (t - z)%coqR) *m b).
Proof.
rewrite /colocate_amplitudes; congr pair; first exact: propagateE.
by rewrite -propagateE; congr propagate_amplitude; apply/matrixP=> i j; rewrite !mxE.
Qed.

(** Linear identities between matrices, products being atoms. *)
Ltac mxnorm := repeat match goal with |- context [@fun_of_matrix ?T ?p ?q ?M ?i ?j] =>
  lazymatch T with Complex.C => fail
  | _ => change (@fun_of_matrix T p q M i j) with (@fun_of_matrix Complex.C p q M i j) end end.
Ltac mxab := repeat match goal with |- context [mulmx ?A ?B] => move: (mulmx A B) => ? end;
  apply/matrixP=> ? ?; rewrite !mxE; mxnorm; Cring.

Lemma half2 : half + half = 1.
Proof. by rewrite /half -rmorphD /= RaddE -[1]/(RtoC 1%coqR); congr RtoC; field. Qed.
Lemma halfD (V : lmodType C) (v : V) : half *: (v + v) = v.
Proof. by rewrite scalerDr -scalerDl half2 scale1r. Qed.
Lemma sum_diff p q (a b A B : 'M[C]_(p, q)) :
  (a - b = A /\ a + b = B) <-> (a = half *: (A + B) /\ b = half *: (B - A)).
Proof.
split=> [[<- <-]|[-> ->]]; split; apply/matrixP=> i j; rewrite !mxE /half; Creim; lra.
Qed.

Section Interface.
Variables (n m : nat).
Implicit Types (l : layer_solve_result n).
Notation F l d := (diag (phase (eigenvalues l) d)).

Lemma tangentialE (l : layer n) (f : fin_layer l.1) z (x : layer_amplitudes n m) :
  tangential_fields l z x =
   Val (let a := F l.1 z *m x.1 in let b := F l.1 (l.2 - z)%coqR *m x.2 in
        (dsubmx (Et f a b), - usubmx (Et f a b), usubmx (Ht l.1 a b), dsubmx (Ht l.1 a b))).
Proof. by rewrite /tangential_fields colocateE /= (fields_fromE f). Qed.

Lemma interfaceE (l : layer n) (f : fin_layer l.1) (l' : layer n) (f' : fin_layer l'.1)
   (x x' : layer_amplitudes n m) :
  interface_matched l x l' x' <->
  (Et f (F l.1 l.2 *m x.1) x.2 = Et f' x'.1 (F l'.1 l'.2 *m x'.2) /\
   Ht l.1 (F l.1 l.2 *m x.1) x.2 = Ht l'.1 x'.1 (F l'.1 l'.2 *m x'.2)).
Proof.
rewrite /interface_matched (tangentialE f) (tangentialE f') /=.
have z1 : (l.2 - l.2 = 0)%coqR by lra.
have z2 : (l'.2 - 0 = l'.2)%coqR by lra.
rewrite z1 z2 !phase0 !mul1mx.
split.
  case=> X [[<-]] [h1 h2 h3 h4]; split; apply: col_mx_inj => //.
  by apply/eqP; rewrite -eqr_opp h2.
by case=> <- <-; eexists; split.
Qed.

(** The interface matrices express continuity. *)
Lemma interface_matricesP l l' (f : fin_layer l) (f' : fin_layer l') i1 i2 (t t' : R)
   (x x' : layer_amplitudes n m) :
  wavelength l = wavelength l' ->
  interface_matrices l l' = Val (i1, i2) ->
  interface_matched (l, t) x (l', t') x' <->
  (F l t *m x.1 = i1 *m x'.1 + i2 *m (F l' t' *m x'.2) /\
   x.2 = i2 *m x'.1 + i1 *m (F l' t' *m x'.2)).
Proof.
move=> wl; rewrite /interface_matrices (fl_Oe f) /= (fl_Oe f') /= => H.
binv H rq' hr; binv H X1 h1; binv H X2 h2.
rewrite (@interfaceE (l, t) f (l', t') f') /=.
have ww : fl_w f = fl_w f'.
  by have := fl_we f; rewrite wl (fl_we f') => -[].
move/solveV: h1 => [u e1]; move/solveV: h2 => [_ e2].
move/recipV: hr => [nz rq].
set T1 := rowscale _ _ in H.
case: H => <- <-.
set a := F l t *m x.1; set b := x.2; set a' := x'.1; set b' := F l' t' *m x'.2.
have [uO uP] : fl_O f \in unitmx /\ eigenvectors l \in unitmx.
  by move: u; rewrite unitmx_mul => /andP.
(* h-field *)
have hH : Ht l a b = Ht l' a' b' <-> a + b = X2 *m (a' + b').
  rewrite /Ht; split=> h.
    by apply: (can_inj (mulKmx u)); rewrite mulmxA e2 -!mulmxA -h.
  by apply: (can_inj (mulKmx uO)); rewrite mulmxA h mulmxA e2 -!mulmxA.
(* e-field *)
have wqE (k : layer_solve_result n) (g : fin_layer k) :
   diag (wq g) = (RtoC (fl_w g))^-1 *: diag (\row_i (eigenvalues k 0 i)^-1).
  by apply/matrixP=> i j; rewrite !mxE; case: (i == j); rewrite ?mulr1n ?mulr0n ?mulr0 // invfM.
set Q := diag (eigenvalues l); set Qi := diag (\row_i (eigenvalues l 0 i)^-1).
have qq : Q *m Qi = 1%:M.
  rewrite diagM -diag_const_mx; congr diag; apply/matrixP=> i j; rewrite !mxE divff //; exact: fl_q.
have qq' : Qi *m Q = 1%:M by rewrite -qq !diagM; congr diag; apply/matrixP=> i j; rewrite !mxE mulrC.
have xE : rq' = \row_i (eigenvalues l' 0 i)^-1 by apply/matrixP=> i j; rewrite !mxE (ord1 i) rq.
rewrite colscaleE xE in e1.
have hE : Et f a b = Et f' a' b' <-> a - b = T1 *m (a' - b').
  rewrite /Et /emat !wqE ww -!scalemxAr -!scalemxAl /T1 rowscaleE -/Q -/Qi.
  have w0 : (RtoC (fl_w f'))^-1 != 0 by rewrite invr_eq0 fin_w0.
  rewrite -e1; split=> [/(scalerI w0) h|->].
    have: fl_O f *m eigenvectors l *m (Qi *m (a - b)) = fl_O f *m eigenvectors l *m (X1 *m (a' - b')).
      by rewrite !mulmxA h.
    by move/(can_inj (mulKmx u)) => h'; rewrite -[LHS]mul1mx -qq -mulmxA h' mulmxA.
  by congr (_ *: _); rewrite -!mulmxA [Qi *m _]mulmxA qq' mul1mx.
rewrite hH hE sum_diff -!scalemxAl.
have -> : T1 *m (a' - b') + X2 *m (a' + b') = (T1 + X2) *m a' + (- T1 + X2) *m b'.
  by rewrite mulmxBr mulmxDr !mulmxDl mulNmx; mxab.
have -> : X2 *m (a' + b') - T1 *m (a' - b') = (- T1 + X2) *m a' + (T1 + X2) *m b'.
  by rewrite mulmxBr mulmxDr !mulmxDl mulNmx; mxab.
by rewrite !scalerDr.
Qed.
End Interface.

(* keeps [by []] from unfolding the fields *)
#[global] Opaque interface_matched.

Lemma eq_iff p q (X Y Z W : 'M[C]_(p, q)) : X - Y = W - Z -> (X = Y <-> Z = W).
Proof.
by move=> h; split=> /eqP; rewrite -subr_eq0 => /eqP e; apply/eqP; rewrite -subr_eq0 -oppr_eq0 opprB; apply/eqP;
  rewrite -e -?h // -[LHS]opprB h opprB.
Qed.

Section Extend.
Variables (n m : nat).
Implicit Types (l : layer_solve_result n).
Notation F l d := (diag (phase (eigenvalues l) d)).
Notation blocks := ('M[C]_(n + n) * 'M[C]_(n + n) * 'M[C]_(n + n) * 'M[C]_(n + n))%type.

Definition srel (S : blocks) (a0 b0 aN bN : 'M[C]_(n + n, m)) :=
  let: (S11, S12, S21, S22) := S in
  aN = S11 *m a0 + S12 *m bN /\ b0 = S21 *m a0 + S22 *m bN.

Lemma interface_flip l l' (f : fin_layer l) (f' : fin_layer l') t t' (a b a' b' : 'M[C]_(n + n, m)) :
  interface_matched (l, t) (a, b) (l', t') (a', b') <->
  interface_matched (l', t') (b', a') (l, t) (b, a).
Proof.
rewrite (@interfaceE _ _ (l, t) f (l', t') f') (@interfaceE _ _ (l', t') f' (l, t) f) /=.
have EtN k (g : fin_layer k) (x y : 'M[C]_(n + n, m)) : Et g x y = - Et g y x.
  by rewrite /Et -mulmxN opprB.
have HtC (k : layer_solve_result n) (x y : 'M[C]_(n + n, m)) : Ht k x y = Ht k y x.
  by rewrite /Ht addrC.
split=> -[h1 h2]; split.
- by rewrite EtN -h1 -EtN.
- by rewrite HtC -h2 HtC.
- by rewrite EtN -h1 -EtN.
- by rewrite HtC -h2 HtC.
Qed.

Lemma extendP (S N : blocks) l l' (f : fin_layer l) (f' : fin_layer l') t t' :
  wavelength l = wavelength l' ->
  extend_s_matrix S l t l' t' = Val N ->
  forall a0 b0 a' b' : 'M[C]_(n + n, m),
  srel N a0 b0 a' b' <->
  exists aN bN, srel S a0 b0 aN bN /\ interface_matched (l, t) (aN, bN) (l', t') (a', b').
Proof.
move=> wl H; rewrite /extend_s_matrix in H.
binv H i12 hi; case: i12 hi H => i1 i2 hi H.
case: S H => [[[S11 S12] S21] S22] H.
binv H N11 h11; binv H N12 h12; case: H => <-.
move/solveV: h11 => [u e11]; move/solveV: h12 => [_ e12].
rewrite !(rowscaleE, colscaleE) in e11 e12 u *.
move=> a0 b0 a' b'.
have K aN bN := @interface_matricesP n m l l' f f' i1 i2 t t' (aN, bN) (a', b') wl hi.
set fd := F l t in u e11 e12 K *; set fd' := F l' t' in u e11 e12 K *.
set T := i1 - _ in u e11 e12.
have key (bN : 'M[C]_(n + n, m)) : bN = i2 *m a' + i1 *m (fd' *m b') ->
   (a' = N11 *m a0 + N12 *m b' <->
    fd *m (S11 *m a0 + S12 *m bN) = i1 *m a' + i2 *m (fd' *m b')).
  move=> ->.
  have -> : (a' = N11 *m a0 + N12 *m b') <-> T *m a' = T *m (N11 *m a0 + N12 *m b').
    by split=> [{1}->|/(can_inj (mulKmx u))].
  rewrite [T *m (_ + _)]mulmxDr !mulmxA e11 e12 /T.
  rewrite !(mulmxDr, mulmxDl, mulNmx, mulmxBl, mulmxBr, mulmxA).
  by apply: eq_iff; mxab.
split.
- case=> h1 h2.
  set bN := i2 *m a' + i1 *m (fd' *m b').
  exists (S11 *m a0 + S12 *m bN), bN; split; last first.
    apply/K; split=> //=; exact/(key bN).
  split=> //; rewrite h2 /bN.
  rewrite !mulmxDl !mulmxDr !mulmxA.
  have -> : S22 *m i2 *m a' = S22 *m i2 *m N11 *m a0 + S22 *m i2 *m N12 *m b'.
    by rewrite {1}h1 mulmxDr !mulmxA.
  by mxab.
- case=> aN [bN [[-> ->]]] /K /= [h1 h2].
  have ha : a' = N11 *m a0 + N12 *m b' by apply/(key bN).
  split=> //; rewrite {1}h2.
  rewrite !mulmxDl !mulmxDr !mulmxA.
  have -> : S22 *m i2 *m a' = S22 *m i2 *m N11 *m a0 + S22 *m i2 *m N12 *m b'.
    by rewrite {1}ha mulmxDr !mulmxA.
  by mxab.
Qed.

(** A single layer: the identity. *)
Lemma identity_rel (a0 b0 aN bN : 'M[C]_(n + n, m)) l t :
  scatters (identity_s_matrix l t) a0 b0 aN bN <-> (aN, bN) = (a0, b0).
Proof.
rewrite /scatters /= !diag1 !mul1mx !mul0mx addr0 add0r.
by split=> [[-> ->]|[-> ->]].
Qed.

(** _pair_s_matrix is _extend_s_matrix of the identity. *)
Lemma pair_extend l t l' t' :
  pair_s_matrix l t l' t' = append_layer (identity_s_matrix l t) l' t'.
Proof.
rewrite /pair_s_matrix /append_layer /extend_s_matrix.
case: interface_matrices => [[i1 i2]|e] //=.
rewrite rowscaleE mulmx0 mul0mx subr0 rowscaleE diag1 mulmx1 mul0mx sub0r.
case: solve => [s11|] //=; case: solve => [s12|] //=.
by rewrite !mul1mx addr0.
Qed.
End Extend.

Section StackSolution.
Variables (n m : nat).
Implicit Types (ls : seq (layer n)) (xs : seq (layer_amplitudes n m)).

Lemma stack_solution_size ls xs : stack_solution ls xs -> size xs = size ls.
Proof.
elim: ls xs => [|l ls IH] [|x xs] //=; case: ls xs IH => [|l' ls] [|x' xs] IH //.
by case=> _ /IH /= ->.
Qed.

Lemma stack_solution_cons l l' ls x x' xs :
  stack_solution (l :: l' :: ls) (x :: x' :: xs) <->
  interface_matched l x l' x' /\ stack_solution (l' :: ls) (x' :: xs).
Proof. by []. Qed.
Lemma stack_solution1 l (x : layer_amplitudes n m) : stack_solution [:: l] [:: x].
Proof. by []. Qed.

Lemma stack_solution_cat l ls l' ls' x xs x' xs' : size xs = size ls ->
  stack_solution ((l :: ls) ++ l' :: ls') ((x :: xs) ++ x' :: xs') <->
  [/\ stack_solution (l :: ls) (x :: xs),
      interface_matched (last l ls) (last x xs) l' x' & stack_solution (l' :: ls') (x' :: xs')].
Proof.
elim: ls l xs x => [|k ls IH] l [|y xs] x //.
  by rewrite /cat stack_solution_cons; split=> [[h1 h2]|[_ h1 h2]]; split.
move=> [sz]; rewrite !cat_cons !stack_solution_cons.
have := IH k xs y sz; rewrite !cat_cons => ->; rewrite /=.
by split=> [[h [h1 h2 h3]]|[[h1 h2] h3 h4]].
Qed.

Lemma stack_solution_rcons l ls x xs l' x' : size xs = size ls ->
  stack_solution (rcons (l :: ls) l') (rcons (x :: xs) x') <->
  stack_solution (l :: ls) (x :: xs) /\ interface_matched (last l ls) (last x xs) l' x'.
Proof.
move=> sz; rewrite -!cats1; have := stack_solution_cat l l' [::] x x' [::] sz => ->.
by split=> [[h1 h2 _]|[h1 h2]].
Qed.

Lemma stack_ends_rcons l ls l' (a0 b0 a' b' : 'M[C]_(n + n, m)) :
  stack_ends (rcons (l :: ls) l') a0 b0 a' b' <->
  exists aN bN, stack_ends (l :: ls) a0 b0 aN bN /\
                interface_matched (last l ls) (aN, bN) l' (a', b').
Proof.
split.
- case=> x0 [xs [h e1 e2]]; have := stack_solution_size h; rewrite size_rcons /= => -[sz].
  case/lastP: xs sz h e2 => [//|xs y]; rewrite size_rcons => -[sz] h.
  rewrite last_rcons => ey; rewrite ey in h.
  rewrite -rcons_cons in h; case/(stack_solution_rcons _ _ _ _ sz): h => h1 h2.
  case E: (last x0 xs) h2 => [aN bN] h2; exists aN, bN; split=> //.
  by exists x0, xs; split.
- case=> aN [bN [[x0 [xs [h e1 e2]]] hm]].
  have := stack_solution_size h => /= -[sz].
  exists x0, (rcons xs (a', b')); split=> //; last by rewrite last_rcons.
  by rewrite -rcons_cons; apply/(stack_solution_rcons _ _ _ _ sz); rewrite e2.
Qed.

Lemma stack_ends_cat l ls l' ls' (a0 b0 a2 b2 : 'M[C]_(n + n, m)) :
  stack_ends ((l :: ls) ++ l' :: ls') a0 b0 a2 b2 <->
  exists aN bN a1 b1, [/\ stack_ends (l :: ls) a0 b0 aN bN,
     interface_matched (last l ls) (aN, bN) l' (a1, b1) & stack_ends (l' :: ls') a1 b1 a2 b2].
Proof.
split.
- case=> x0 [xs [h e1 e2]]; have := stack_solution_size h.
  rewrite size_cat /= => -[sz].
  have szt : size (take (size ls) xs) = size ls by rewrite size_takel // sz leq_addr.
  case E: (drop (size ls) xs) => [|x' xs'].
    by move: (size_drop (size ls) xs); rewrite E /= sz addKn.
  have exs : xs = take (size ls) xs ++ x' :: xs' by rewrite -E cat_take_drop.
  rewrite exs in h e2; rewrite -cat_cons in h.
  case/(stack_solution_cat _ _ _ _ _ _ szt): h => h1 h2 h3.
  rewrite last_cat /= in e2.
  case E1: (last x0 (take (size ls) xs)) h2 => [aN bN] h2.
  case E2: x' h2 h3 e2 => [a1 b1] h2 h3 e2.
  exists aN, bN, a1, b1; split=> //; first by exists x0, (take (size ls) xs); split.
  by exists (a1, b1), xs'; split.
- case=> aN [bN [a1 [b1 [[x0 [xs [h1 e1 e2]]] h2 [y0 [ys [h3 e3 e4]]]]]]].
  have := stack_solution_size h1 => /= -[sz].
  exists x0, (xs ++ y0 :: ys); split=> //; last by rewrite last_cat.
  rewrite -cat_cons; apply/(stack_solution_cat _ _ _ _ _ _ sz).
  by split; [exact: h1|rewrite e2 e3; exact: h2|exact: h3].
Qed.

Lemma stack_ends1 l (a0 b0 aN bN : 'M[C]_(n + n, m)) :
  stack_ends [:: l] a0 b0 aN bN <-> (aN, bN) = (a0, b0).
Proof.
split; first by case=> x0 [[|x xs] [h1 h2 h3]] //; rewrite -h3 -h2.
by move=> e; exists (a0, b0), [::].
Qed.
End StackSolution.

(** [s] is the scattering matrix of the stack [ls]. *)
Record represents n (ls : seq (layer n)) (s : scattering_matrix n) : Prop := Represents {
  rep_rel : forall m (a0 b0 aN bN : 'M[C]_(n + n, m)),
    scatters s a0 b0 aN bN <-> stack_ends ls a0 b0 aN bN;
  rep_start : forall d, (start_layer_solve_result s, start_layer_thickness s) = head d ls;
  rep_end : forall d, (end_layer_solve_result s, end_layer_thickness s) = last d ls;
  rep_nonempty : ls <> [::] }.

(** [P] holds of every element. *)
Fixpoint allp (T : Type) (P : T -> Prop) (s : seq T) : Prop :=
  if s is x :: s' then P x /\ allp P s' else True.
Lemma allpP (T : Type) (P : T -> Prop) s : allp P s <-> forall x, List.In x s -> P x.
Proof.
elim: s => [|x s IH] //=; rewrite IH; split=> [[h1 h2] y [<-|]|h] //; first exact: h2.
by split=> [|y hy]; apply: h; [left|right].
Qed.
Lemma allp_cat (T : Type) (P : T -> Prop) s1 s2 : allp P (s1 ++ s2) <-> allp P s1 /\ allp P s2.
Proof. by elim: s1 => [|x s IH] /=; [split=> // -[]|rewrite IH; split=> [[? []]|[[]]]]. Qed.
Lemma allp_rcons (T : Type) (P : T -> Prop) s x : allp P (rcons s x) <-> allp P s /\ P x.
Proof. by rewrite -cats1 allp_cat /=; split=> -[? ] // []. Qed.
Lemma allp_rev (T : Type) (P : T -> Prop) s : allp P (rev s) <-> allp P s.
Proof. by elim: s => [|x s IH] //; rewrite rev_cons allp_rcons IH /=; split=> -[]. Qed.
Lemma allp_last (T : Type) (P : T -> Prop) x s : allp P (x :: s) -> P (last x s).
Proof. by elim: s x => [|y s IH] x /= [] // h1 h2; apply: IH. Qed.
Lemma allp_take (T : Type) (P : T -> Prop) s k : allp P s -> allp P (take k s).
Proof. by elim: s k => [|x s IH] [|k] //= [? /IH]. Qed.
Lemma allp_drop (T : Type) (P : T -> Prop) s k : allp P s -> allp P (drop k s).
Proof. by elim: s k => [|x s IH] [|k] //= [? /IH]. Qed.

Section StackProofs.
Variable n : nat.
Implicit Types (ls : seq (layer n)) (s : scattering_matrix n).

Definition okl (wl : R) (l : layer n) :=
  wavelength l.1 = wl /\ inhabited (fin_layer l.1).

Lemma okls wl (ls : seq (layer_solve_result n)) (ts : seq R) :
  same_wavelength wl ls -> finite_fields ls -> allp (okl wl) (zip ls ts).
Proof.
rewrite /same_wavelength /finite_fields; elim: ls ts => [|l ls IH] [|t ts] // h1 h2.
split; last by apply: IH => k hk; [apply: h1|apply: h2]; right.
split; first by apply: h1; left.
by case: (h2 l) => [|M hM]; [left|exact: fin_layerP hM].
Qed.

Lemma scatters_srel m s (a0 b0 aN bN : 'M[C]_(n + n, m)) :
  scatters s a0 b0 aN bN <-> srel (s11 s, s12 s, s21 s, s22 s) a0 b0 aN bN.
Proof. by []. Qed.

Lemma append_represents wl ls s l t s' :
  allp (okl wl) ls -> okl wl (l, t) ->
  represents ls s -> append_layer s l t = Val s' -> represents (rcons ls (l, t)) s'.
Proof.
case: ls => [|l0 ls] oks [wl2 [f2]] [rel hs he ne] //.
have ee := he l0; rewrite /= in ee.
have [] := allp_last oks.
rewrite -ee /= => wl1 [f1].
rewrite /append_layer => H; binv H N hN; case: N hN H => [[[N11 N12] N21] N22] hN [<-].
have wl12 : wavelength (end_layer_solve_result s) = wavelength l by rewrite wl1.
split=> //=; last by move=> d; rewrite last_rcons.
move=> m a0 b0 a' b'; rewrite scatters_srel.
  have -> := @extendP n m _ _ _ _ f1 f2 _ _ wl12 hN a0 b0 a' b'.
  rewrite (stack_ends_rcons l0 ls (l, t)).
  rewrite -ee.
  by split=> -[aN [bN [h1 h2]]]; exists aN, bN; split=> //; apply/rel.
Qed.

Lemma identity_represents (l : layer_solve_result n) t :
  represents [:: (l, t)] (identity_s_matrix l t).
Proof. by split=> // m a0 b0 aN bN; rewrite identity_rel stack_ends1. Qed.

Lemma append_layers_represents wl ls0 s ls ss :
  allp (okl wl) (ls0 ++ ls) -> represents ls0 s -> append_layers s ls = Val ss ->
  size ss = size ls /\
  forall i d, (i < size ls)%N -> represents (ls0 ++ take i.+1 ls) (nth d ss i).
Proof.
elim: ls ls0 s ss => [|[l t] ls IH] ls0 s ss ok r /= H; first by case: H => <-.
binv H s' h; binv H tl h'; case: H => <-.
move: ok; rewrite allp_cat /= => -[ok0 [ok1 ok2]].
have r' := append_represents ok0 ok1 r h.
have ok' : allp (okl wl) (rcons ls0 (l, t) ++ ls) by rewrite allp_cat allp_rcons.
have [sz hi] := IH _ _ _ ok' r' h'.
split=> [/=|[|i] d hlt]; first by rewrite sz.
  by rewrite take0 cats1.
by have := hi i d hlt; rewrite cat_rcons.
Qed.

Lemma stack_s_matricesP wl (ls : seq (layer_solve_result n)) ts ss :
  stack_s_matrices ls ts = Val ss -> allp (okl wl) (zip ls ts) ->
  [/\ size ls = size ts, (0 < size ls)%N, size ss = size ls &
   forall i d, (i < size ls)%N -> represents (take i.+1 (zip ls ts)) (nth d ss i)].
Proof.
rewrite /stack_s_matrices => H; inv1 H; move/eqP: h => sz.
have szz : size (zip ls ts) = size ls by rewrite size_zip sz minnn.
move=> ok; suff K : [/\ (0 < size (zip ls ts))%N, size ss = size (zip ls ts) &
   forall i d, (i < size (zip ls ts))%N -> represents (take i.+1 (zip ls ts)) (nth d ss i)].
  by case: K; rewrite szz; split.
move: ok; case: (zip ls ts) H {sz szz} => [|[l0 t0] [|[l1 t1] rest]] H ok //.
  case: H => <-; split=> // -[|i] d //= _; exact: identity_represents.
binv H s1 h1; binv H tl htl; case: H => <-.
rewrite pair_extend in h1; case: ok => ok0 [ok1 ok2].
have r0 := identity_represents l0 t0.
have r1 : represents [:: (l0, t0); (l1, t1)] s1.
  by apply: (@append_represents wl [:: (l0, t0)] _ l1 t1 s1 _ ok1 r0 h1).
have [szt hi] := append_layers_represents (ls0 := [:: (l0, t0); (l1, t1)]) (wl:=wl)
   (conj ok0 (conj ok1 ok2)) r1 htl.
split=> //=; first by rewrite szt.
move=> [|[|i]] d hlt.
- exact: r0.
- by rewrite /= take0.
- exact: (hi i d hlt).
Qed.

Lemma stack_s_matrixP wl (ls : seq (layer_solve_result n)) ts s :
  stack_s_matrix ls ts = Val s -> allp (okl wl) (zip ls ts) ->
  [/\ size ls = size ts, (0 < size ls)%N & represents (zip ls ts) s].
Proof.
rewrite /stack_s_matrix => H ok; binv H ss h.
have [sz pos szs hi] := stack_s_matricesP h ok.
have szz : size (zip ls ts) = size ls by rewrite size_zip sz minnn.
split=> //; case: ss H szs hi {h} => // s0 ss [<-] szs hi.
have := hi (size ss) s0; rewrite -szs ltnS leqnn => /(_ isT).
by rewrite nth_last /= [(size ss).+1]szs -szz take_size.
Qed.

(** The scattering relation determines the matrix. *)
Lemma scatters_inj s s' :
  (forall m (a0 b0 aN bN : 'M[C]_(n + n, m)), scatters s a0 b0 aN bN <-> scatters s' a0 b0 aN bN) ->
  [/\ s11 s = s11 s', s12 s = s12 s', s21 s = s21 s' & s22 s = s22 s'].
Proof.
move=> h.
have [e1 e2] : scatters s' 1%:M (s21 s) (s11 s) 0.
  by apply/h; split; rewrite mulmx1 mulmx0 addr0.
have [e3 e4] : scatters s' 0 (s22 s) (s12 s) 1%:M.
  by apply/h; split; rewrite mulmx1 mulmx0 add0r.
by move: e1 e2 e3 e4; rewrite !mulmx1 !mulmx0 !addr0 !add0r.
Qed.

Lemma represents_inj ls s s' : represents ls s -> represents ls s' -> s = s'.
Proof.
case=> r hs he ne [r' hs' he' _].
have [] := @scatters_inj s s'; first by move=> *; rewrite r r'.
case: ls ne hs he hs' he' {r r'} => // l ls _ /(_ l) hs /(_ l) he /(_ l) hs' /(_ l) he'.
rewrite -hs' in hs; rewrite -he' in he.
by case: s s' hs he {hs' he'} => a b c d e f g h [a' b' c' d' e' f' g' h'] /= [-> ->] [-> ->] -> -> -> ->.
Qed.
End StackProofs.

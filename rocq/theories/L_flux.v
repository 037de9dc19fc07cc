(** Proofs about power flow. *)
From Coq Require Import Reals ZArith Lra.
From mathcomp Require Import all_ssreflect all_algebra.
From Verif Require Import CField Err LinAlg M_utils M_basis M_fft M_fmm_matrices M_fmm M_scattering M_fields S_stack S_maxwell L_scattering L_stack L_maxwell.
Set Implicit Arguments. Unset Strict Implicit. Unset Printing Implicit Defensive.
Import GRing.Theory.
Local Open Scope ring_scope.

(** A real equation between the parts of complex numbers. *)
Ltac parts := rewrite /half /re /im /=; toR; field.

Lemma amplitude_alg (x y u v : C) :
  re (half * (Cconj x * u + Cconj u * x + (Cconj v * x - Cconj y * u))) +
  re (half * (- (Cconj y * v + Cconj v * y) + Cconj (Cconj v * x - Cconj y * u))) =
  re (Cconj (x - y) * (u + v)).
Proof. by case: x y u v => [x x'] [y y'] [u u'] [v v']; parts. Qed.

Lemma directional_alg (x y u v : C) :
  re (half * (Cconj (x + y) * u + Cconj (u + v) * x)) +
  re (half * (Cconj (x + y) * v + Cconj (u + v) * y)) = re (Cconj (x + y) * (u + v)).
Proof. by case: x y u v => [x x'] [y y'] [u u'] [v v']; parts. Qed.
Lemma eigenmode_alg (x u : C) : re (half * (Cconj x * u + Cconj u * x)) = re (Cconj x * u).
Proof. by case: x u => [x x'] [u u']; parts. Qed.
Lemma poynting_alg (x y u v : C) :
  re (Cconj x * u) + re (Cconj y * v) = re (y * Cconj v - - x * Cconj u).
Proof. by case: x y u v => [x x'] [y y'] [u u'] [v v']; parts. Qed.

Section Flux.
Variables (n m : nat) (l : layer_solve_result n) (f : fin_layer l) (a b : 'M[C]_(n + n, m)).
Notation A := (emat f).
Notation phi := (eigenvectors l).

Lemma amplitude_flux_row sf sb : amplitude_poynting_flux a b l = Val (sf, sb) ->
  forall i j, sf i j + sb i j = re (Cconj (Et f a b i j) * Ht l a b i j).
Proof.
rewrite /amplitude_poynting_flux (a_matrixE f) /= => -[<- <-] i j.
rewrite /Et /Ht mulmxBr mulmxDr.
move: (A *m a) (A *m b) (phi *m a) (phi *m b) => ae be ah bh.
by rewrite !mxE; exact: amplitude_alg.
Qed.
Lemma amplitude_flux_total : exists sf sb, amplitude_poynting_flux a b l = Val (sf, sb).
Proof. by rewrite /amplitude_poynting_flux (a_matrixE f) /=; do 2!eexists. Qed.

Lemma directional_flux_row sf sb : directional_poynting_flux a b l = Val (sf, sb) ->
  forall i j, sf i j + sb i j = re (Cconj (Et f a b i j) * Ht l a b i j).
Proof.
rewrite /directional_poynting_flux /eigenmode_poynting_flux (a_matrixE f) /= => -[<- <-] i j.
set ff := (\matrix_(i, j) (if _ then a i j else 0)).
set fb := (\matrix_(i, j) (if _ then 0 else a i j)).
set bf := (\matrix_(i, j) (if _ then b i j else 0)).
set bb := (\matrix_(i, j) (if _ then 0 else b i j)).
have ea : a = ff + fb.
  by apply/matrixP=> r c; rewrite !mxE; case: ifP; rewrite ?addr0 ?add0r.
have eb : b = bf + bb.
  by apply/matrixP=> r c; rewrite !mxE; case: ifP; rewrite ?addr0 ?add0r.
rewrite /poynting_flux_subset -/(Et f a b) -/(Ht l a b).
have eE : Et f a b = A *m (ff - bf) + A *m (fb - bb).
  by rewrite /Et -mulmxDr {1}ea {1}eb opprD addrACA.
have eH : Ht l a b = phi *m (ff + bf) + phi *m (fb + bb).
  by rewrite /Ht -mulmxDr {1}ea {1}eb addrACA.
move: (A *m _) (A *m (fb - bb)) (phi *m _) (phi *m (fb + bb)) eE eH => x y u v -> ->.
by rewrite !mxE; exact: directional_alg.
Qed.
Lemma directional_flux_total : exists sf sb, directional_poynting_flux a b l = Val (sf, sb).
Proof.
by rewrite /directional_poynting_flux /eigenmode_poynting_flux (a_matrixE f) /=; do 2!eexists.
Qed.

Lemma eigenmode_fluxE s : eigenmode_poynting_flux l = Val s ->
  forall j, s 0 j = \sum_i re (Cconj (A i j) * phi i j).
Proof.
rewrite /eigenmode_poynting_flux (a_matrixE f) /= => -[<-] j; rewrite mxE; apply: eq_bigr => i _.
move: (emat f) (eigenvectors l) => X Y; rewrite !mxE; exact: eigenmode_alg.
Qed.
Lemma poynting_rows F k j : fields_from_wave_amplitudes a b l = Val F ->
  re (Cconj (Et f a b (lshift n k) j) * Ht l a b (lshift n k) j) +
  re (Cconj (Et f a b (rshift n k) j) * Ht l a b (rshift n k) j) = poynting_z F k j.
Proof.
rewrite (fields_fromE f) => -[<-]; rewrite /poynting_z /=.
move: (Et f a b) (Ht l a b) => E H; rewrite !mxE; exact: poynting_alg.
Qed.
End Flux.

(** ** Conservation of the flux in a lossless layer *)
Lemma hd_mul f g z d e : has_derivative f z d -> has_derivative g z e ->
  has_derivative (fun x => f x * g x) z (d * g z + f z * e).
Proof.
move=> [h1 h2] [h3 h4]; split.
- have -> : re (d * g z + f z * e) =
    ((re d * re (g z) + re (f z) * re e) - (im d * im (g z) + im (f z) * im e))%coqR.
    by rewrite !reimE; ring.
  by apply: derivable_pt_lim_minus; apply: derivable_pt_lim_mult.
- have -> : im (d * g z + f z * e) =
    ((re d * im (g z) + re (f z) * im e) + (im d * re (g z) + im (f z) * re e))%coqR.
    by rewrite !reimE; ring.
  by apply: derivable_pt_lim_plus; apply: derivable_pt_lim_mult.
Qed.
Lemma hd_conj f z d : has_derivative f z d -> has_derivative (fun x => Cconj (f x)) z (Cconj d).
Proof. by move=> [h1 h2]; split=> //; apply: derivable_pt_lim_opp. Qed.

Lemma addE p r (A B : 'M[C]_(p, r)) i j : (A + B) i j = A i j + B i j.
Proof. by rewrite mxE. Qed.
Lemma mulE p q r (A : 'M[C]_(p, q)) (B : 'M[C]_(q, r)) i j : (A *m B) i j = \sum_k A i k * B k j.
Proof. by rewrite mxE. Qed.
Lemma adjE p q (A : 'M[C]_(p, q)) i j : adjm A i j = Cconj (A j i).
Proof. by rewrite !mxE. Qed.
Lemma adjmM p q r (A : 'M[C]_(p, q)) (B : 'M[C]_(q, r)) : adjm (A *m B) = adjm B *m adjm A.
Proof. by rewrite /adjm map_mxM trmx_mul. Qed.
Lemma adjmK p q (A : 'M[C]_(p, q)) : adjm (adjm A) = A.
Proof. by apply/matrixP=> i j; rewrite !adjE CconjK. Qed.
Lemma adjmB p q (A B : 'M[C]_(p, q)) : adjm (A - B) = adjm A - adjm B.
Proof. by apply/matrixP=> i j; rewrite !mxE rmorphB. Qed.
Lemma adjmD p q (A B : 'M[C]_(p, q)) : adjm (A + B) = adjm A + adjm B.
Proof. by apply/matrixP=> i j; rewrite !mxE rmorphD. Qed.
Lemma adjmZ p q c (A : 'M[C]_(p, q)) : adjm (c *: A) = Cconj c *: adjm A.
Proof. by apply/matrixP=> i j; rewrite !mxE rmorphM. Qed.
Lemma adjm1 p : adjm (1%:M : 'M[C]_p) = 1%:M.
Proof. by rewrite /adjm map_mx1 trmx1. Qed.
Lemma adjmV p (A : 'M[C]_p) : A \in unitmx -> adjm (invmx A) = invmx (adjm A).
Proof.
move=> u; have e : adjm A *m adjm (invmx A) = 1%:M by rewrite -adjmM mulVmx // adjm1.
by case: (mulmx1_unit e) => u' _; rewrite -[LHS]mul1mx -(mulVmx u') -mulmxA e mulmx1.
Qed.

Lemma md_adj_mul p m (F G : R -> 'M[C]_(p, m)) z D E : mderiv F z D -> mderiv G z E ->
  mderiv (fun x => adjm (F x) *m G x) z (adjm D *m G z + adjm (F z) *m E).
Proof.
move=> h1 h2 i j; rewrite [X in has_derivative _ _ X]mxE [X in _ + X]mxE [X in X + _]mxE -big_split /=.
apply: hd_ext (@hd_sum _ _ (fun k x => Cconj (F x k i) * G x k j) z
  (fun k => adjm D i k * G z k j + adjm (F z) i k * E k j) _).
  by move=> x; rewrite mxE; apply: eq_bigr => k _; rewrite adjE.
by move=> k; rewrite !adjE; apply: hd_mul => //; apply: hd_conj.
Qed.

Lemma null_deriv (f : R -> R) : (forall z, derivable_pt_lim f z 0) -> forall x y, f x = f y.
Proof.
move=> h; have pr : derivable f by move=> x; exists R0; exact: h.
have := null_derivative_1 f pr; apply => x; apply: derive_pt_eq_0; exact: h.
Qed.
Lemma md_null p q (F : R -> 'M[C]_(p, q)) : (forall z, mderiv F z 0) -> forall x y, F x = F y.
Proof.
move=> h x y; apply/matrixP=> i j; apply: C_ext.
  by apply: (@null_deriv (fun x => re (F x i j))) => z; have [] := h z i j; rewrite mxE.
by apply: (@null_deriv (fun x => im (F x i j))) => z; have [] := h z i j; rewrite mxE.
Qed.

Lemma kcol_adj n (kx ky : 'rV[R]_n) : adjm (krow kx ky) = kcol kx ky.
Proof.
apply/matrixP=> i j; rewrite adjE /krow /kcol; case: (splitP i) => k e.
- have -> : i = lshift n k by apply: val_inj.
  by rewrite row_mxEl col_mxEu !mxE rmorphMn /= Cconj_RC eq_sym; case: eqP => [->|].
- have -> : i = rshift n k by apply: val_inj.
  by rewrite row_mxEr col_mxEd !mxE rmorphMn /= Cconj_RC eq_sym; case: eqP => [->|].
Qed.
Lemma krow_adj n (kx ky : 'rV[R]_n) : adjm (kcol kx ky) = krow kx ky.
Proof. by rewrite -kcol_adj adjmK. Qed.
Lemma kik_herm n (kx ky : 'rV[R]_n) Z : Z \in unitmx -> hermitian Z ->
  hermitian (kcol kx ky *m (invmx Z *m krow kx ky)).
Proof. by move=> u h; rewrite /hermitian !adjmM krow_adj kcol_adj adjmV // h mulmxA. Qed.

Section Conserve.
Variables (n m : nat) (l : layer_solve_result n) (f : fin_layer l) (t : R) (a b : 'M[C]_(n + n, m)).
Hypothesis (ll : lossless l).
Notation w := (RtoC (fl_w f)).
Notation e := (e_at f t a b).
Notation h := (h_at l t a b).

Lemma flux_matrix_deriv z : mderiv (fun x => adjm (e x) *m h x + adjm (h x) *m e x) z 0.
Proof.
have [et [ex [het hez hmt hmz]]] := ll.
have [K [hK _]] := exactE f ex; have [uK eK] := k_matrixV hK.
have dh := h_deriv_exact t a b ex z hK; have de := e_deriv f t a b z.
have [S [hS eO]] := fl_OE f; have [uS eS] := script_kV hS.
have KH : hermitian K by rewrite eK; exact: kik_herm.
have SH : hermitian S by rewrite eS; exact: kik_herm.
have OH : hermitian (fl_O f).
  by rewrite /hermitian eO adjmB adjmZ hmt SH rmorphM /= Cconj_RC.
have H1 := md_adj_mul de dh; have H2 := md_adj_mul dh de; have H := mdD H1 H2.
have -> : (0 : 'M[C]_m) = adjm ((Ci / w) *: (fl_O f *m h z)) *m h z +
     adjm (e z) *m ((Ci * w) *: (et *m e z) - (Ci / w) *: (K *m e z)) +
     (adjm ((Ci * w) *: (et *m e z) - (Ci / w) *: (K *m e z)) *m e z +
      adjm (h z) *m ((Ci / w) *: (fl_O f *m h z))); last exact: H.
have c1 : Cconj (Ci / w) = - (Ci / w).
  rewrite rmorphM /= Cconj_i mulNr; congr (- (_ * _)).
  by rewrite -[w^-1]/(Complex.Cinv w) -[in RHS](Cconj_RC (fl_w f)) -[RHS]/((Cconj w)^-1) -fmorphV.
have c2 : Cconj (Ci * w) = - (Ci * w) by rewrite rmorphM /= Cconj_i Cconj_RC mulNr.
move: {H H1 H2 de dh} (e z) (h z) c1 c2 => E' H'; move: (Ci / w) (Ci * w) => c d c1 c2.
rewrite adjmB !adjmZ c1 c2 !adjmM het KH OH.
rewrite !mulmxBr !mulmxBl -!scalemxAl -!scalemxAr -!mulmxA !scaleNr.
move: (adjm H' *m _) (adjm E' *m (et *m _)) (adjm E' *m (K *m _)) => X Y W.
by apply/matrixP=> i j; rewrite !mxE; Cring.
Qed.

Lemma flux_matrix_const z z' : adjm (e z) *m h z + adjm (h z) *m e z = adjm (e z') *m h z' + adjm (h z') *m e z'.
Proof. exact: (md_null flux_matrix_deriv). Qed.

Lemma flux_sum p q (E H : 'M[C]_(p, q)) j :
  \sum_i re (Cconj (E i j) * H i j) = (re ((adjm E *m H + adjm H *m E)%R j j) / 2)%coqR.
Proof.
rewrite addE !mulE -big_split /= raddf_sum /=.
have -> x : (x / 2)%coqR = x * (/ 2)%coqR by [].
rewrite mulr_suml; apply: eq_bigr => i _; rewrite !adjE.
by case: (E i j) (H i j) => [x y] [u v]; parts.
Qed.

Lemma flux_const z z' j :
  \sum_i re (Cconj (e z i j) * h z i j) = \sum_i re (Cconj (e z' i j) * h z' i j).
Proof. by rewrite !flux_sum (flux_matrix_const z z'). Qed.
End Conserve.

Lemma total_rows n m (l : layer_solve_result n) (f : fin_layer l) (a b : 'M[C]_(n + n, m)) F j :
  fields_from_wave_amplitudes a b l = Val F ->
  \sum_i re (Cconj (Et f a b i j) * Ht l a b i j) = total_poynting_z F j.
Proof.
move=> hF; rewrite big_split_ord -big_split; apply: eq_bigr => k _; exact: poynting_rows.
Qed.

(** ** Stacks *)
Definition same_tangential n m (F F' : fields6 'M[C]_(n, m)) :=
  (f_ex F, f_ey F, f_hx F, f_hy F) = (f_ex F', f_ey F', f_hx F', f_hy F').
Lemma same_total n m (F F' : fields6 'M[C]_(n, m)) j : same_tangential F F' ->
  total_poynting_z F j = total_poynting_z F' j.
Proof. by case: F F' => [x y z u v w] [x' y' z' u' v' w'] [-> -> -> ->]. Qed.

Lemma layer_flux n m (l : layer n) (x : layer_amplitudes n m) z z' F F' j : lossless l.1 ->
  reported_fields l.1 l.2 x.1 x.2 z = Val F -> reported_fields l.1 l.2 x.1 x.2 z' = Val F' ->
  total_poynting_z F j = total_poynting_z F' j.
Proof.
move=> ll hF hF'; have := hF; rewrite /reported_fields /fields_from_wave_amplitudes => H; binv H M hM.
have [f] := fin_layerP hM; rewrite -(total_rows f j hF) -(total_rows f j hF') !colocateE /=.
exact: flux_const.
Qed.

Transparent interface_matched.
Lemma interface_flux n m (l l' : layer n) (x x' : layer_amplitudes n m) :
  interface_matched l x l' x' -> exists F F',
  [/\ reported_fields l.1 l.2 x.1 x.2 l.2 = Val F,
      reported_fields l'.1 l'.2 x'.1 x'.2 0%coqR = Val F' & same_tangential F F'].
Proof.
rewrite /interface_matched /tangential_fields => -[T [h h']].
case: (rmapV h) => F hF eF; case: (rmapV h') => F' hF' eF'.
by exists F, F'; split=> //; rewrite /same_tangential eF eF'.
Qed.

Opaque interface_matched.
Lemma stack_flux n m (ls : seq (layer n)) (xs : seq (layer_amplitudes n m)) :
  (forall l, List.In l ls -> lossless l.1) -> stack_solution ls xs ->
  exists P : 'rV[R]_m, forall l x, List.In (l, x) (zip ls xs) -> forall z F,
    reported_fields l.1 l.2 x.1 x.2 z = Val F -> forall j, total_poynting_z F j = P 0 j.
Proof.
elim: ls xs => [|l ls IH] [|x xs] //= hl; first by exists 0.
have l1 : lossless l.1 by apply: hl; left.
have hl' k : List.In k ls -> lossless k.1 by move=> hk; apply: hl; right.
case: ls xs IH hl hl' => [|l' ls] [|x' xs] IH hl hl' // => [_|[hi hs]].
  have [F hF] : exists F : 'rV[R]_m, forall z (G : fields6 'M[C]_(n, m)), reported_fields l.1 l.2 x.1 x.2 z = Val G -> forall j, total_poynting_z G j = F 0 j.
    case e : (reported_fields l.1 l.2 x.1 x.2 R0) => [G|er].
      by exists (\row_j total_poynting_z G j) => z G' hG' j; rewrite mxE; apply: layer_flux hG' e.
    exists 0 => z G hG j; exfalso; move: hG; rewrite /reported_fields /fields_from_wave_amplitudes => H.
    binv H M hM; have [f] := fin_layerP hM; by move: e; rewrite (reportedE f).
  by exists F => k y [[<- <-]|[]]; exact: hF.
have [P hP] := IH (x' :: xs) hl' hs.
have [F [F' [hF hF' sF]]] := interface_flux hi.
exists P => k y [[<- <-]|hk] z G hG j; last exact: hP hk _ _ hG j.
rewrite (layer_flux j l1 hG hF) (same_total j sF).
by apply: (hP l' x' _ _ _ hF'); left.
Qed.

Lemma zip_inl (A B : Type) (s : seq A) (t : seq B) x y :
  List.In (x, y) (zip s t) -> List.In x s /\ List.In y t.
Proof.
elim: s t => [|a s IH] [|b t] //= [[<- <-]|/IH [h1 h2]]; first by split; left.
by split; right.
Qed.
Lemma zip_head_last (A B : Type) (s : seq A) (t : seq B) (a : A) (b : B) :
  size s = size t ->
  List.In (a, b) (zip (a :: s) (b :: t)) /\ List.In (last a s, last b t) (zip (a :: s) (b :: t)).
Proof.
move=> sz; split; first by left.
elim: s t a b sz => [|a' s IH] [|b' t] a b //= => [_|[sz]]; first by left.
by right; exact: IH.
Qed.

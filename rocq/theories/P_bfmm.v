(** C54: batches of patterned and anisotropic layers. *)
From Coq Require Import Reals ZArith Lra.
From mathcomp Require Import all_ssreflect all_algebra.
From Verif Require Import Tac CField Err LinAlg M_utils M_basis M_fft M_fmm_matrices M_nd M_fmm M_vector M_batch M_bstack M_bvector M_bfmm
  S_utils P_utils S_fft L_fft S_batch L_batch P_batch L_broadcast P_broadcast S_bstack L_bstack P_bstack S_bvector L_bvector P_bvector
  S_bfmm L_bfmm L_example P_fmm.
Set Implicit Arguments. Unset Strict Implicit. Unset Printing Implicit Defensive.
Import GRing.Theory.

Section Solves.
Variables (eig : eig_fn) (nx ny n : nat) (wl k u v : nd R) (expn : n.-tuple (Z * Z)) (kb pb A : seq nat).
Variables (form : bformulation nx ny n) (form1 : formulation nx ny n).
Hypotheses (n0 : 0 < n) (hb : solve_batch wl k u v kb pb A).
Lemma tangent_trans m (r : batched_result m) B : tangent_shaped r nx ny A -> bcto A B -> tangent_shaped r nx ny B.
Proof.
rewrite /tangent_shaped => + c; case: b_tangent => [[t1 t2]|] // -[[s1 e1 c1] [s2 e2 c2]].
by split; [exists s1|exists s2] => //; [exact: bcto_trans c1 c|exact: bcto_trans c2 c].
Qed.
Lemma elementwiseI T (result : res (batched_result n)) single (medium : seq nat -> T -> Prop) :
  (exists r, [/\ result = Val r, full_batch r A, batched_layer r A, tangent_shaped r nx ny A &
     forall B b m r1, bcto A B -> valid_index B b -> medium b m ->
       single (nget wl (bindex (nshape wl) b)) (nget k (bindex kb b ++ [:: 0]), nget k (bindex kb b ++ [:: 1]))
         (Lattice (the_vector u) (the_vector v)) m = Val r1 -> solve_element r b r1]) ->
  solves_elementwise nx ny result single medium wl k u v kb A.
Proof.
case=> r [h1 h2 h3 h4 h5]; exists r; split=> // [B c|B b jw jk m r1 c hv' /selectsE -> /selectsE -> hm].
- by split; [exact: layer_trans h3 c|exact: tangent_trans h4 c].
- exact: h5 c hv' hm.
Qed.

Lemma uniform_iso (eps : nd C) : nx = 1 -> ny = 1 -> nshape eps = pb ++ [:: 1; 1] ->
  exists r, [/\ eigensolve_uniform_isotropic_media_b wl k u v eps expn = Val r,
    full_batch r A, batched_layer r A, tangent_shaped r nx ny A &
    forall B b e1 r1, bcto A B -> valid_index B b -> array_element eps (b ++ [:: 0; 0]) e1 ->
      eigensolve_uniform_isotropic_media (nget wl (bindex (nshape wl) b)) (nget k (bindex kb b ++ [:: 0]), nget k (bindex kb b ++ [:: 1]))
         (Lattice (the_vector u) (the_vector v)) e1 expn = Val r1 -> solve_element r b r1].
Proof.
move=> ex ey ep; case: hb => ek hu hv hA zA.
have cAA : broadcasts_to A A := bcto_refl A.
have hB : uniform_batch wl kb u v eps A by exists pb, A.
have [r [h1 h2 h3]] := uniform_layer expn n0 ek hu hv hB.
have [r' [h1' h2' [[W [K [cW cK sK sh]]] _] h3']] := batched_solve expn n0 ek ep hu hv hA zA.
have er : r' = r by move: h1'; rewrite h1 => -[]. 
subst r'; have bt : b_tangent r = None.
  by move: sh; rewrite /shapes_of => -[_ _ _ _ _ _ _ _ _ _ _]; case: b_tangent.
exists r; split=> //.
- move: sh; rewrite /shapes_of => -[_ _ _ _ t5 t6 _ t8 _ t10 _ _]; rewrite !mul2n -!addnn in t5 t6.
  by split=> //; exists A => //; exact: bcto_refl.
- by rewrite /tangent_shaped bt.
move=> B b e1 r1 c hv1 he hr.
have cs s : s \in [:: nshape wl; kb; nseq (ndim u).-1 1; nseq (ndim v).-1 1; pb] -> bcto s A by case: hA => h _ _ /h.
have hbA := valid_bindex c hv1.
have T s : bcto s A -> bindex s (bindex A b) = bindex s b := bindexT b.
have cw : bcto (nshape wl) A by apply: cs; rewrite !inE eqxx.
have ck : bcto kb A by apply: cs; rewrite !inE eqxx ?orbT.
have cp : bcto pb A by apply: cs; rewrite !inE eqxx ?orbT.
have hBB : uniform_batch wl kb u v eps B by exists pb, A; split.
have [r2 [q1 _ q3]] := uniform_layer expn n0 ek hu hv hBB.
have er2 : r2 = r by move: q1; rewrite h1 => -[]. 
subst r2; have le := q3 b _ _ e1 r1 hv1 (selects_bindex _ _) (selects_bindex _ _) he hr.
move/array_elementE: he => he.
have ee1 : nget eps (bindex pb b ++ [:: 0; 0]) = e1 by move: he; rewrite /bget ep bindex_cat2.
have := h3' (bindex A b) hbA r1; rewrite !T // ee1 => /(_ hr) [_ _ _ g6 _].
move: sh; rewrite /shapes_of => -[t1 t2 t3 t4 t5 t6 t7 t8 t9 t10 t11 _].
split=> //.
- by move=> i j; apply/array_elementE; rewrite /bget t8 bindex_cat2 //; case: (g6 i j).
- by move=> i j; apply/array_elementE; rewrite /bget t9 bindex_cat2 //; case: (g6 i j).
- by move=> i j; apply/array_elementE; rewrite /bget t10 bindex_cat2 //; case: (g6 i j).
- rewrite /tangent_element bt; move: hr; rewrite /eigensolve_uniform_isotropic_media.
  by move=> H; bv H a ha; bv H b' hb'; bv H c' hc'; case: H => <-.
Qed.
End Solves.

Lemma squeezeE (a : 'M[C]_(1, 1)) : squeeze11 a = a 0%R 0%R.
Proof. by rewrite /squeeze11 (mxgetE _ (ltn0Sn 0) (ltn0Sn 0)); congr (a _ _); exact: val_inj. Qed.
Lemma grid11 (p : nd C) b (a : 'M[C]_(1, 1)) : grid_element p b a -> array_element p (b ++ [:: 0; 0]) (squeeze11 a).
Proof. by move=> h; rewrite squeezeE; exact: (h 0%R 0%R). Qed.
Lemma not11 nx ny : (nx, ny) <> (1, 1) -> (([:: nx; ny] == [:: 1; 1]) = false) * (((nx, ny) == (1, 1)) = false).
Proof. by move=> h; split; apply/eqP => // -[e1 e2]; apply: h; rewrite e1 e2. Qed.

(** A solve of isotropic layers, uniform or patterned, with batch dimensions. *)
Theorem C54_isotropic (eig : eig_fn) nx ny n (wl k u v : nd R) (eps : nd C) (expn : n.-tuple (Z * Z)) (kb pb A : seq nat)
    (form : bformulation nx ny n) (form1 : formulation nx ny n) :
  (0 < n)%N -> solve_batch wl k u v kb pb A -> nshape eps = pb ++ [:: nx; ny] ->
  (nx, ny) = (1, 1)%N \/ resolves nx ny expn -> batch_formulation expn form form1 ->
  solves_elementwise nx ny (eigensolve_isotropic_media_b eig wl k u v eps expn form)
    (fun w k0 l e => eigensolve_isotropic_media eig w k0 l e expn form1) (grid_element eps) wl k u v kb A.
Proof.
move=> n0 hb ep hr hf; have [ek hu hv hA zA] := hb; apply: elementwiseI.
rewrite /eigensolve_isotropic_media_b ep trailing2_cat.
case: (@eqP _ (nx, ny) (1, 1)) => [[ex ey]|ne].
- subst nx ny; rewrite eqxx; have [r [h1 h2 h3 h4 h5]] := uniform_iso expn n0 hb erefl erefl ep.
  exists r; split=> // B b e1 r1 c hv1 he; rewrite /eigensolve_isotropic_media eqxx; exact: h5 c hv1 (grid11 he).
- rewrite !(not11 ne); have hr' : resolves nx ny expn by case: hr.
  have [r [h1 h2 h3 h4 h5]] := patterned_iso eig n0 ek hu hv hA zA hf hr' ep.
  exists r; split=> // B b e1 r1 c hv1 he; rewrite /eigensolve_isotropic_media (not11 ne); exact: h5 c hv1 he.
Qed.
(** A solve of anisotropic and magnetic layers. *)
Theorem C54_anisotropic (eig : eig_fn) nx ny n (wl k u v : nd R) (eps mu : tensor (nd C)) (source : option (nd C))
    (expn : n.-tuple (Z * Z)) (kb pb A : seq nat) (form : bformulation nx ny n) (form1 : formulation nx ny n) :
  (0 < n)%N -> solve_batch wl k u v kb pb A ->
  tensor_shaped eps (pb ++ [:: nx; ny]) -> tensor_shaped mu (pb ++ [:: nx; ny]) ->
  (forall s, source = Some s -> nshape s = pb ++ [:: nx; ny]) ->
  (nx, ny) = (1, 1)%N \/ resolves nx ny expn -> batch_formulation expn form form1 ->
  solves_elementwise nx ny (eigensolve_general_anisotropic_media_b eig wl k u v eps mu expn form source)
    (fun w k0 l m => eigensolve_general_anisotropic_media eig w k0 l m.1.1 m.1.2 expn form1 m.2)
    (fun b m => [/\ tensor_element eps b m.1.1, tensor_element mu b m.1.2 & source_element source b m.2]) wl k u v kb A.
Proof.
move=> n0 hb ee em hs hr hf; have [ek hu hv hA zA] := hb; apply: elementwiseI.
rewrite /eigensolve_general_anisotropic_media_b; have [e1 e2 e3 e4 e5] := ee; rewrite e1 trailing2_cat.
case: (@eqP _ (nx, ny) (1, 1)) => [[ex ey]|ne].
- subst nx ny; rewrite eqxx; have [r [h1 h2 h3 h4 h5]] := uniform_aniso eig expn n0 ek hu hv hA zA ee em erefl erefl.
  exists r; split=> // B b [[a1 a2] a3] r1 c hv1 [/= [i1 i2 i3 i4 i5] [j1 j2 j3 j4 j5] _]; rewrite /eigensolve_general_anisotropic_media eqxx.
  by apply: h5; split; exact: grid11.
- rewrite !(not11 ne); have hr' : resolves nx ny expn by case: hr.
  have [s [-> es gs]] : exists s, [/\ match source with Some s => Val s
       | None => s <- nmap2 (fun a b : C => a + b)%R (t_xx eps) (t_yy eps);; Val (nmap (fun z : C => z / RtoC 2%coqR)%R s) end = Val s,
      nshape s = pb ++ [:: nx; ny] &
      forall b (a : tensor 'M[C]_(nx, ny)) s1, tensor_element eps b a -> source_element source b s1 ->
        grid_element s b (match s1 with Some s => s | None => map_mx (fun z : C => z / RtoC 2%coqR)%R (t_xx a + t_yy a)%R end)].
    case: source hs => [s|] hs; first by exists s; split; [|exact: hs|move=> b a [s1|]].
    have [s [-> es gs]] := ns2 (fun a b : C => a + b)%R e1 e4; cbn [bind]; eexists; split; [by reflexivity|exact: es|].
    move=> b a [s1|] // [q1 _ _ q4 _] _ i j; apply/array_elementE; rewrite bget_nmap gs !mxE.
    by have /array_elementE -> := q1 i j; have /array_elementE -> := q4 i j.
  cbn [bind]; have [r [h1 h2 h3 h4 h5]] := patterned_aniso eig n0 ek hu hv hA zA hf hr' ee em es.
  exists r; split=> // B b [[a1 a2] a3] r1 c hv1 [/= q1 q2 q3]; rewrite /eigensolve_general_anisotropic_media (not11 ne); cbv zeta.
  by apply: (h5 B b a1 a2 _ r1 c hv1 q1 q2); exact: gs.
Qed.
(** Anisotropic layers that are not magnetic. *)
Theorem C54_permittivity_tensor (eig : eig_fn) nx ny n (wl k u v : nd R) (eps : tensor (nd C))
    (expn : n.-tuple (Z * Z)) (kb pb A : seq nat) (form : bformulation nx ny n) (form1 : formulation nx ny n) :
  (0 < n)%N -> solve_batch wl k u v kb pb A -> tensor_shaped eps (pb ++ [:: nx; ny]) ->
  (nx, ny) = (1, 1)%N \/ resolves nx ny expn -> batch_formulation expn form form1 ->
  solves_elementwise nx ny (eigensolve_anisotropic_media_b eig wl k u v eps expn form)
    (fun w k0 l e => eigensolve_anisotropic_media eig w k0 l e expn form1) (tensor_element eps) wl k u v kb A.
Proof.
move=> n0 hb ee hr hf; rewrite /eigensolve_anisotropic_media_b; cbv zeta.
have [e1 _ _ _ _] := ee.
set mu := Tensor _ _ _ _ _; have em : tensor_shaped mu (pb ++ [:: nx; ny]) by split; exact: e1.
have [|r [h1 h2 h3 h4]] := @C54_anisotropic eig nx ny n wl k u v eps mu None expn kb pb A form form1 n0 hb ee em _ hr hf; first by [].
exists r; split=> // B b jw jk m r1 c hv hw hk hm; rewrite /eigensolve_anisotropic_media; cbv zeta => H.
apply: (h4 B b jw jk (m, _, None) r1 c hv hw hk _ H); split=> //.
by split=> i j; rewrite mxE.
Qed.
(** The named schemes satisfy the hypothesis on the formulation. *)
Theorem C54_schemes nx ny n s (expn : n.-tuple (Z * Z)) : n <> 0%N -> resolves nx ny expn ->
  batch_formulation expn (BVector (@vector_field_scheme_b nx ny n s)) (Vector (@vector_field_scheme nx ny n s)).
Proof. by move=> n0 hr arr u v hu hv; exact: C53_batch. Qed.

(** The case of three wavelengths by two permittivities, of which one is a grating. *)
Section Example54.
Let wl := Nd [:: 3; 1] (fun idx => Rmult (INR (head 0 idx).+1) PI).
Let k := Nd [:: 2] (fun idx => 0%coqR).
Let u := Nd [:: 2] (fun idx => if head 0 idx == 0 then 1%coqR else 0%coqR).
Let v := Nd [:: 2] (fun idx => if head 0 idx == 0 then 0%coqR else 1%coqR).
Let eps : nd C := Nd [:: 2; 2; 1] (fun idx =>
  if head 0 idx == 0 then RtoC 5 else if nth 0 idx 1 == 0 then 1%R else RtoC 3).
Let zero : nd C := Nd [:: 2; 2; 1] (fun=> 0%R).
Lemma batch54 : solve_batch wl k u v [::] [:: 2] [:: 3; 2].
Proof.
split=> //; split.
- move=> s; rewrite !inE => h; have h' : s = [:: 3; 1] \/ s = [::] \/ s = [:: 2].
    by case/orP: h => [/eqP ->|h]; [left|right; case/orP: h => [/eqP ->|h]; [left|case/orP: h => [/eqP ->|h]; [left|case/orP: h => [/eqP ->|/eqP ->]; [left|right]]]].
  case: h' => [->|[->|->]]; split=> //; case=> [|[|[|i]]] //; first [by left|by right].
- by exists [:: 3; 1]; rewrite // inE eqxx.
- case=> [|[|i]]; [exists [:: 2]|exists [:: 3; 1]|exists [:: 2]] => //; rewrite ?inE ?eqxx ?orbT //.
  by rewrite /axis_size !nth_default.
Qed.
Lemma grating54 : grid_element eps [:: 1; 1] ex_grating.
Proof.
move=> i j; apply/array_elementE; rewrite mxE (ord1 j).
by case: (split_ordP (i : 'I_(1 + 1))) => x ->; rewrite (ord1 x).
Qed.
Let lat : Lattice (the_vector u) (the_vector v) = sq_lattice. Proof. by []. Qed.
Let wl54 : nget wl [:: 1; 0] = ex_wl. Proof. by rewrite -[LHS]/(INR 2 * PI)%coqR INR_IZR_INZ. Qed.
Let s1 : selects (nshape wl) [:: 1; 1] [:: 1; 0]. Proof. by split=> // -[|[|]]. Qed.
Let s2 : selects [::] [:: 1; 1] [::]. Proof. by []. Qed.
Example ex_C54 : exists r r1, [/\ eigensolve_isotropic_media_b diag_eig wl k u v eps ex_expn (@BFFT 2 1 1) = Val r,
  batch_shape r = [:: 3; 2],
  eigensolve_isotropic_media diag_eig ex_wl (0, 0)%coqR sq_lattice ex_grating ex_expn FFT = Val r1,
  solve_element r [:: 1; 1] r1 &
  exists s, stack_s_matrix_b [:: r; r] [:: Nd [::] (fun=> 1%coqR); Nd [::] (fun=> 2%coqR)] = Val s].
Proof.
have [r [h1 h2 h3 h4]] := C54_isotropic diag_eig (isT : 0 < 1) batch54 (erefl : nshape eps = [:: 2] ++ [:: 2; 1])
  (or_intror (@ex_resolves 2 1 isT isT)) (I : batch_formulation ex_expn (@BFFT 2 1 1) FFT).
have [r1 [hr _ _ _ _]] := C12_patterned_witness; exists r, r1; split; [exact: h1|case: h2 => h2 _ _ _ _; exact: h2|exact: hr| |].
- apply: (h4 [:: 3; 2] [:: 1; 1] [:: 1; 0] [::] ex_grating r1 (bcto_refl _) isT s1 s2 grating54).
  rewrite wl54; exact: hr.
- have [hl _] := h3 [:: 3; 2] (bcto_refl _).
  have [||s [hs _ _ _]] := @C52_stack 1 [:: r; r] [:: Nd [::] (fun=> 1%coqR); Nd [::] (fun=> 2%coqR)] [:: 3; 2] r isT isT erefl; last (exists s; exact: hs).
    apply: List.Forall_cons; [exact: hl|apply: List.Forall_cons; [exact: hl|exact: List.Forall_nil]].
  apply: List.Forall_cons; [left; exact: erefl|apply: List.Forall_cons; [left; exact: erefl|exact: List.Forall_nil]].
Qed.
Example ex_C54_tensor : exists r r1, [/\
  eigensolve_anisotropic_media_b diag_eig wl k u v (Tensor eps zero zero eps eps) ex_expn (@BFFT 2 1 1) = Val r,
  batch_shape r = [:: 3; 2],
  eigensolve_anisotropic_media diag_eig ex_wl (0, 0)%coqR sq_lattice
    (Tensor ex_grating (const_mx 0) (const_mx 0) ex_grating ex_grating)%R ex_expn FFT = Val r1 &
  solve_element r [:: 1; 1] r1].
Proof.
have ee : tensor_shaped (Tensor eps zero zero eps eps) ([:: 2] ++ [:: 2; 1]) by [].
have [r [h1 h2 h3 h4]] := C54_permittivity_tensor diag_eig (isT : 0 < 1) batch54 ee
  (or_intror (@ex_resolves 2 1 isT isT)) (I : batch_formulation ex_expn (@BFFT 2 1 1) FFT).
have [r1 [hr _ _ _ _]] := C12_patterned_witness; exists r, r1.
have hr' : eigensolve_anisotropic_media diag_eig ex_wl (0, 0)%coqR sq_lattice
    (Tensor ex_grating (const_mx 0) (const_mx 0) ex_grating ex_grating)%R ex_expn FFT = Val r1.
  rewrite -hr -(@C45_anisotropic_is_isotropic _ 2 1 1 _ _ _ _ ex_expn _ ex_distinct _ (@ex_resolves 2 1 isT isT)); [|discriminate|discriminate].
  have z : const_mx 0%R = 0%R :> 'M[C]_(2, 1) by apply/matrixP => i j; rewrite !mxE.
  rewrite z; exact: erefl.
split; [exact: h1|case: h2 => h2 _ _ _ _; exact: h2|exact: hr'|]; apply: (h4 [:: 3; 2] [:: 1; 1] [:: 1; 0] [::] _ r1 (bcto_refl _) isT s1 s2); last (rewrite wl54; exact: hr').
have z : grid_element zero [:: 1; 1] (const_mx 0%R : 'M[C]_(2, 1)) by move=> i j; rewrite mxE; apply/array_elementE.
split; [exact: grating54|exact: z|exact: z|exact: grating54|exact: grating54].
Qed.
End Example54.

Print Assumptions C54_isotropic.
Print Assumptions C54_anisotropic.
Print Assumptions C54_permittivity_tensor.
Print Assumptions C54_schemes.

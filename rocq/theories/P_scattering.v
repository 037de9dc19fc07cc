(** C01-C09: scattering matrices and interior amplitudes. *)
From Coq Require Import Reals ZArith Lra.
From mathcomp Require Import all_ssreflect all_algebra.
From Verif Require Import CField Err LinAlg M_utils M_basis M_fft M_fmm_matrices M_fmm M_scattering M_fields S_stack L_scattering L_stack L_example.
Set Implicit Arguments. Unset Strict Implicit. Unset Printing Implicit Defensive.
Import GRing.Theory.
Local Open Scope ring_scope.

(** ** C01 *)

(** A finite stack scattering matrix holds exactly for the end amplitudes of field solutions. *)
Theorem C01_stack_s_matrix_is_field_continuity n (wl : R) (ls : seq (layer_solve_result n)) (ts : seq R) s :
  stack_s_matrix ls ts = Val s -> same_wavelength wl ls -> finite_fields ls ->
  [/\ size ls = size ts,
      forall m (a_0 b_0 a_N b_N : 'M[C]_(n + n, m)),
        scatters s a_0 b_0 a_N b_N <-> stack_ends (zip ls ts) a_0 b_0 a_N b_N,
      forall d, (start_layer_solve_result s, start_layer_thickness s) = head d (zip ls ts) &
      forall d, (end_layer_solve_result s, end_layer_thickness s) = last d (zip ls ts)].
Proof.
move=> H hw hf; have [sz _ [rel hs he _]] := stack_s_matrixP H (okls ts hw hf).
by split.
Qed.
Print Assumptions C01_stack_s_matrix_is_field_continuity.

Theorem C01_single_layer_identity n (l : layer_solve_result n) t :
  stack_s_matrix [:: l] [:: t] = Val (SMat 1%:M 0 0 1%:M l t l t).
Proof. by rewrite /stack_s_matrix /stack_s_matrices /= /identity_s_matrix !diag1. Qed.
Print Assumptions C01_single_layer_identity.

(** The scattering matrix is finite unless some stack of the first [k] layers has a nonzero
    field without incoming waves (a resonance). *)
Theorem C01_stack_s_matrix_finite n (wl : R) (ls : seq (layer_solve_result n)) (ts : seq R) :
  size ls = size ts -> ls <> [::] ->
  same_wavelength wl ls -> finite_fields ls -> complete_modes ls ->
  (forall k, (1 < k <= size ls)%N -> forall a_N b_0 : 'cV[C]_(n + n),
     stack_ends (take k (zip ls ts)) 0 b_0 a_N 0 -> a_N = 0) ->
  exists s, stack_s_matrix ls ts = Val s.
Proof.
move=> sz ne hw hf hc hres; apply: (stack_total (wl := wl)) => //.
- by case: (ls) ne.
- exact: okls.
- exact: completes.
Qed.
Print Assumptions C01_stack_s_matrix_finite.

(** Mismatched lists and the empty stack raise. *)
Theorem C01_stack_s_matrix_raises n (ls : seq (layer_solve_result n)) (ts : seq R) :
  (size ls <> size ts -> stack_s_matrix ls ts = Exn ValueError) /\
  (stack_s_matrix ([::] : seq (layer_solve_result n)) [::] = Exn IndexError).
Proof. by split=> // h; rewrite /stack_s_matrix /stack_s_matrices; case: eqP. Qed.
Print Assumptions C01_stack_s_matrix_raises.

(** Witness: air, a quarter-wave layer of index 2, air; reflection coefficient [-3/5]. *)
Example C01_witness :
  (forall r, List.In r [:: 1; 2]%coqR ->
     eigensolve_uniform_isotropic_media ex_wl (0, 0)%coqR sq_lattice (RtoC (r * r)%coqR) ex_expn
     = Val (ex_layer r)) /\
  stack_s_matrix ex_stack ex_thickness = Val ex_smat /\
  same_wavelength ex_wl ex_stack /\ finite_fields ex_stack /\
  s21 ex_smat = (RtoC (- 3 / 5)%coqR)%:M.
Proof.
split; first by move=> r [<-|[<-|[]]]; apply: ex_solve; lra.
by split; [exact: ex_stackE|split; [exact: ex_hyps.1|split; [exact: ex_hyps.2|]]].
Qed.

(** ** C02 *)
Theorem C02_redheffer_composes n (wl : R) (ls1 ls2 : seq (layer_solve_result n)) (ts1 ts2 : seq R) a b s :
  stack_s_matrix ls1 ts1 = Val a -> stack_s_matrix ls2 ts2 = Val b ->
  redheffer_star_product a b = Val s ->
  same_wavelength wl (ls1 ++ ls2) -> finite_fields (ls1 ++ ls2) ->
  (forall m (a_0 b_0 a_N b_N : 'M[C]_(n + n, m)),
     scatters s a_0 b_0 a_N b_N <-> stack_ends (zip (ls1 ++ ls2) (ts1 ++ ts2)) a_0 b_0 a_N b_N) /\
  (forall s', stack_s_matrix (ls1 ++ ls2) (ts1 ++ ts2) = Val s' -> s' = s).
Proof.
move=> H1 H2 H hw hf.
have ok : forall ts, allp (okl wl) (zip (ls1 ++ ls2) ts) by move=> ts; exact: okls.
have ok1 : allp (okl wl) (zip ls1 ts1).
  by apply: okls => l hl; [apply: hw|apply: hf]; apply: List.in_or_app; left.
have ok2 : allp (okl wl) (zip ls2 ts2).
  by apply: okls => l hl; [apply: hw|apply: hf]; apply: List.in_or_app; right.
have [sz1 _ r1] := stack_s_matrixP H1 ok1; have [sz2 _ r2] := stack_s_matrixP H2 ok2.
have r := redheffer_represents ok1 ok2 r1 r2 H; rewrite -zip_cat // in r.
split; first by case: r.
move=> s' H'; have [_ _ r'] := stack_s_matrixP H' (ok _).
exact: represents_inj r' r.
Qed.
Print Assumptions C02_redheffer_composes.

(** Associativity, for any scattering matrices with finite fields at the joined ends. *)
Theorem C02_redheffer_associative n (a b c ab bc x y : scattering_matrix n) :
  wavelength (end_layer_solve_result a) = wavelength (start_layer_solve_result b) ->
  wavelength (end_layer_solve_result b) = wavelength (start_layer_solve_result c) ->
  finite_fields [:: end_layer_solve_result a; start_layer_solve_result b;
                    end_layer_solve_result b; start_layer_solve_result c] ->
  redheffer_star_product a b = Val ab -> redheffer_star_product ab c = Val x ->
  redheffer_star_product b c = Val bc -> redheffer_star_product a bc = Val y -> x = y.
Proof.
move=> w1 w2 hf.
have [|Ma /fin_layerP [fa]] := hf (end_layer_solve_result a); first by left.
have [|Mb /fin_layerP [fb]] := hf (start_layer_solve_result b); first by right; left.
have [|Mb' /fin_layerP [fb']] := hf (end_layer_solve_result b); first by right; right; left.
have [|Mc /fin_layerP [fc]] := hf (start_layer_solve_result c); first by right; right; right; left.
exact: (redheffer_assoc_rel fa fb fb' fc w1 w2).
Qed.
Print Assumptions C02_redheffer_associative.

Example C02_witness :
  let ls := [:: ex_layer 1; ex_layer 2] in
  stack_s_matrix ls [:: PI; (PI / 4)%coqR] = Val ex_pair /\
  redheffer_star_product ex_pair ex_pair = Val ex_pair2 /\
  redheffer_star_product ex_pair2 ex_pair = Val ex_pair3 /\
  redheffer_star_product ex_pair ex_pair2 = Val ex_pair3 /\
  same_wavelength ex_wl (ls ++ ls) /\ finite_fields (ls ++ ls).
Proof.
split; first by rewrite /stack_s_matrix /stack_s_matrices /= pair_extend ex_pairE.
split; first exact: ex_red2.
split; first exact: ex_red3.
split; first exact: ex_red2'.
split; first exact: (@ex_same_wavelength [:: 1; 2; 1; 2]%coqR).
by apply: (@ex_finite_fields [:: 1; 2; 1; 2]%coqR); rewrite /=; lra.
Qed.

(** ** C03 *)

(** [append_layer] computes the same values as rebuilding, failures included. *)
Theorem C03_append_layer_rebuilds n (ls : seq (layer_solve_result n)) ts l t s :
  stack_s_matrix ls ts = Val s ->
  append_layer s l t = stack_s_matrix (rcons ls l) (rcons ts t).
Proof.
rewrite -!scan_stack /stack_s_matrix_scan !size_rcons => H; inv1 H.
move/eqP: h => sz; rewrite sz eqxx /check zip_rcons //.
case: (zip ls ts) H => [|[l0 t0] rest] //= H.
by rewrite -cats1 scan_layers_cat H /=; case: append_layer.
Qed.
Print Assumptions C03_append_layer_rebuilds.

Theorem C03_prepend_layer_rebuilds n (wl : R) (ls : seq (layer_solve_result n)) ts l t s s' :
  stack_s_matrix ls ts = Val s -> prepend_layer s l t = Val s' ->
  same_wavelength wl (l :: ls) -> finite_fields (l :: ls) ->
  (forall m (a_0 b_0 a_N b_N : 'M[C]_(n + n, m)),
     scatters s' a_0 b_0 a_N b_N <-> stack_ends ((l, t) :: zip ls ts) a_0 b_0 a_N b_N) /\
  (forall s'', stack_s_matrix (l :: ls) (t :: ts) = Val s'' -> s'' = s').
Proof.
move=> H1 H2 hw hf.
have ok' : allp (okl wl) (zip (l :: ls) (t :: ts)) by exact: okls.
have [ok1 ok2] := ok'.
have [sz _ r] := stack_s_matrixP H1 ok2.
have r' := prepend_represents ok2 ok1 r H2.
split; first by case: r'.
by move=> s'' H''; have [_ _ r''] := stack_s_matrixP H'' ok'; exact: represents_inj r'' r'.
Qed.
Print Assumptions C03_prepend_layer_rebuilds.

Example C03_witness : exists s',
  append_layer ex_pair (ex_layer 1) PI = Val ex_smat /\
  stack_s_matrix [:: ex_layer 2; ex_layer 1] [:: (PI / 4)%coqR; PI] = Val (reverse_s_matrix ex_pair) /\
  prepend_layer (reverse_s_matrix ex_pair) (ex_layer 1) PI = Val s' /\
  same_wavelength ex_wl [:: ex_layer 1; ex_layer 2; ex_layer 1] /\
  finite_fields [:: ex_layer 1; ex_layer 2; ex_layer 1].
Proof.
exists (reverse_s_matrix ex_smat); split; first exact: ex_pair_append.
split; last first.
  split; last exact: ex_hyps.
  have e : reverse_s_matrix (reverse_s_matrix ex_pair) = ex_pair by [].
  by rewrite prependE e ex_pair_append.
by rewrite /stack_s_matrix /stack_s_matrices /= pair_extend ex_pair_rev.
Qed.

(** ** C04 *)
Theorem C04_interior_matrices n (wl : R) (ls : seq (layer_solve_result n)) ts ss :
  stack_s_matrices_interior ls ts = Val ss -> same_wavelength wl ls -> finite_fields ls ->
  size ss = size ls /\
  forall i d, (i < size ls)%N ->
    let before := (nth d ss i).1 in let after := (nth d ss i).2 in
    [/\ stack_s_matrix (take i.+1 ls) (take i.+1 ts) = Val before,
        forall m (a_0 b_0 a_i b_i : 'M[C]_(n + n, m)),
          scatters before a_0 b_0 a_i b_i <-> stack_ends (take i.+1 (zip ls ts)) a_0 b_0 a_i b_i,
        forall m (a_i b_i a_N b_N : 'M[C]_(n + n, m)),
          scatters after a_i b_i a_N b_N <-> stack_ends (drop i (zip ls ts)) a_i b_i a_N b_N &
        forall s', stack_s_matrix (drop i ls) (drop i ts) = Val s' -> s' = after].
Proof.
move=> H hw hf; have ok := okls ts hw hf.
have [sz pos szs hi] := interiorP H ok; split=> // i d hlt.
have [r1 r2] := hi i d hlt; split; [|by case: r1|by case: r2|].
- have H' := H; rewrite /stack_s_matrices_interior in H'; binv H' bef hb; binv H' r hr; case: H' => e.
  have := stack_prefix d.1 hb hlt => ->.
  have szb : size bef = size [seq reverse_s_matrix x | x <- rev r].
    have [_ _ sb _] := stack_s_matricesP hb ok.
    have okr : allp (okl wl) (zip (rev ls) (rev ts)) by rewrite -rev_zip // allp_rev.
    have [_ _ sr _] := stack_s_matricesP hr okr.
    by rewrite size_map size_rev sb sr size_rev.
  by rewrite -e; case: (d) => d1 d2; rewrite nth_zip.
- move=> s' H'; have okd : allp (okl wl) (zip (drop i ls) (drop i ts)).
    by rewrite -drop_zip //; apply: allp_drop.
  have [_ _ r'] := stack_s_matrixP H' okd; rewrite -drop_zip // in r'.
  exact: represents_inj r' r2.
Qed.
Print Assumptions C04_interior_matrices.

Example C04_witness :
  stack_s_matrices_interior ex_stack ex_thickness = Val ex_interior /\
  same_wavelength ex_wl ex_stack /\ finite_fields ex_stack.
Proof. by split; [exact: ex_interiorE|exact: ex_hyps]. Qed.

(** ** C05 *)
Theorem C05_scan_equals_loop n (ls : seq (layer_solve_result n)) ts :
  stack_s_matrix_scan ls ts = stack_s_matrix ls ts.
Proof. exact: scan_stack. Qed.
Print Assumptions C05_scan_equals_loop.

(** ** C06 *)

(** For two or more layers the thickness functions equal rebuilding, failures included. *)
Theorem C06_set_end_layer_thickness n (l0 : layer_solve_result n) ls lN ts tN tN' :
  rmap (fun s => set_end_layer_thickness s tN')
       (stack_s_matrix (rcons (l0 :: ls) lN) (rcons ts tN)) =
  stack_s_matrix (rcons (l0 :: ls) lN) (rcons ts tN').
Proof. exact: stack_set_end. Qed.
Print Assumptions C06_set_end_layer_thickness.

Theorem C06_set_start_layer_thickness n (l0 l1 : layer_solve_result n) ls ts t0 t0' :
  rmap (fun s => set_start_layer_thickness s t0') (stack_s_matrix (l0 :: l1 :: ls) (t0 :: ts)) =
  stack_s_matrix (l0 :: l1 :: ls) (t0' :: ts).
Proof. exact: stack_set_start. Qed.
Print Assumptions C06_set_start_layer_thickness.

(** For a stack of one layer they do not: the result is not the identity. *)
Theorem C06_single_layer_refuted : exists (l : layer_solve_result 1) (t t' : R) s s',
  [/\ stack_s_matrix [:: l] [:: t] = Val s, stack_s_matrix [:: l] [:: t'] = Val s',
      set_end_layer_thickness s t' <> s' & set_start_layer_thickness s t' <> s'].
Proof.
exists (ex_layer 1), 0%coqR, PI; eexists; eexists; split; first reflexivity; first reflexivity.
- move/(congr1 (@s22 1)); rewrite /= colscaleE diag1 mul1mx Rminus_0_r phase_ex ph1.
  move/matrixP/(_ (lshift 1 ord0) (lshift 1 ord0)); rewrite !mxE eqxx !mulr1n => /(congr1 re).
  by rewrite !reimE => h; lra.
- move/(congr1 (@s11 1)); rewrite /= colscaleE diag1 mul1mx Rminus_0_r phase_ex ph1.
  move/matrixP/(_ (lshift 1 ord0) (lshift 1 ord0)); rewrite !mxE eqxx !mulr1n => /(congr1 re).
  by rewrite !reimE => h; lra.
Qed.
Print Assumptions C06_single_layer_refuted.

(** ** C07 *)

(** Splitting an inner layer in two gives the same scattering matrix, and either both are
    computed or none is. *)
Theorem C07_split_layer n (ls1 ls2 : seq (layer_solve_result n)) l ts1 ts2 t1 t2 s :
  size ls1 = size ts1 -> size ls2 = size ts2 -> ls1 <> [::] -> ls2 <> [::] -> finite_fields [:: l] ->
  stack_s_matrix (ls1 ++ [:: l, l & ls2]) (ts1 ++ [:: t1, t2 & ts2]) = Val s <->
  stack_s_matrix (ls1 ++ [:: l & ls2]) (ts1 ++ [:: (t1 + t2)%coqR & ts2]) = Val s.
Proof.
move=> sz1 sz2 ne1 ne2 hf.
have [|M /fin_layerP [f]] := hf l; first by left.
rewrite -!scan_stack /stack_s_matrix_scan !size_cat /= sz1 sz2 !eqxx /check.
case: ls1 ts1 sz1 ne1 => [|k ks] [|u us] // [szk] _.
case: ls2 ts2 sz2 ne2 => [|k' ks'] [|u' us'] // _ _ /=.
rewrite !zip_cat //=; exact: scan_split.
Qed.
Print Assumptions C07_split_layer.

(** A layer of zero thickness can be removed. *)
Theorem C07_zero_thickness n (wl : R) (ls1 ls2 : seq (layer_solve_result n)) l ts1 ts2 s s' :
  size ls1 = size ts1 -> ls1 <> [::] -> ls2 <> [::] ->
  same_wavelength wl (ls1 ++ l :: ls2) -> finite_fields (ls1 ++ l :: ls2) ->
  stack_s_matrix (ls1 ++ l :: ls2) (ts1 ++ 0%coqR :: ts2) = Val s ->
  stack_s_matrix (ls1 ++ ls2) (ts1 ++ ts2) = Val s' -> s = s'.
Proof.
move=> sz1 ne1 ne2 hw hf H H'.
have ok : allp (okl wl) (zip (ls1 ++ l :: ls2) (ts1 ++ 0%coqR :: ts2)) by exact: okls.
have ok' : allp (okl wl) (zip (ls1 ++ ls2) (ts1 ++ ts2)).
  by apply: okls => k /List.in_app_iff hk; [apply: hw|apply: hf]; apply/List.in_app_iff;
    case: hk => hk; [left|right; right|left|right; right].
have [sz _ [rel hs he _]] := stack_s_matrixP H ok.
have [sz' _ [rel' hs' he' _]] := stack_s_matrixP H' ok'.
have [|M /fin_layerP [f]] := hf l; first by apply/List.in_app_iff; right; left.
have sz2 : size ls2 = size ts2.
  by move: sz'; rewrite !size_cat sz1; exact: addnI.
have d0 : layer n := (l, 0%coqR).
case: ls1 ts1 sz1 ne1 H H' ok ok' rel hs he rel' hs' he' {hw hf sz sz'} => [|k ks] [|u us] // [szk] _.
case: ls2 ts2 sz2 ne2 => [|k' ks'] [|u' us'] // [szk'] _ H H'.
rewrite /= !zip_cat //= => ok ok' rel hs he rel' hs' he'.
have u0 : invertible_modes f.
  move: (H); rewrite -(scan_stack _ _) /stack_s_matrix_scan /check; case: ifP => // _.
  move=> H0; apply: (@scan_invertible n (identity_s_matrix k u) (zip ks us) l 0 (k', u') (zip ks' us') s).
  have <- : zip (ks ++ [:: l, k' & ks']) (us ++ [:: 0%coqR, u' & us']) =
         zip ks us ++ [:: (l, 0%coqR), (k', u') & zip ks' us'] by rewrite zip_cat.
  exact: H0.
have ok1 : allp (okl wl) ((k, u) :: zip ks us) by case: ok => h1 /allp_cat [h2 _]; split.
have ok2 : okl wl (k', u') by case: ok => _ /allp_cat [_ [_ []]].
have E m (a0 b0 aN bN : 'M[C]_(n + n, m)) : scatters s a0 b0 aN bN <-> scatters s' a0 b0 aN bN.
  rewrite rel rel'; 
  exact: (@zero_ends n m wl (k, u) (zip ks us) l f (k', u') (zip ks' us') a0 b0 aN bN ok1 ok2 u0).
have [e1 e2 e3 e4] := scatters_inj E.
have := hs d0; rewrite -(hs' d0) => -[e5 e6].
have := he d0; rewrite last_cat /= => e7; have := he' d0; rewrite last_cat /= -e7 => -[e8 e9].
by case: (s) (s') e1 e2 e3 e4 e5 e6 e8 e9 => ? ? ? ? ? ? ? ? [? ? ? ? ? ? ? ?] /= -> -> -> -> -> -> -> ->.
Qed.
Print Assumptions C07_zero_thickness.

(** Witness: the quarter-wave layer in two parts, and with a layer of index 2 and no
    thickness added. *)
Example C07_witness :
  (forall t1 t2, (t1 + t2)%coqR = (PI / 4)%coqR ->
     stack_s_matrix ([:: ex_layer 1] ++ [:: ex_layer 2, ex_layer 2 & [:: ex_layer 1]])
       ([:: PI] ++ [:: t1, t2 & [:: PI]]) = Val ex_smat) /\
  (stack_s_matrix ([:: ex_layer 1] ++ ex_layer 2 :: [:: ex_layer 2; ex_layer 1])
       ([:: PI] ++ 0%coqR :: [:: (PI / 4)%coqR; PI]) = Val ex_smat).
Proof.
have H t1 t2 : (t1 + t2)%coqR = (PI / 4)%coqR ->
     stack_s_matrix ([:: ex_layer 1] ++ [:: ex_layer 2, ex_layer 2 & [:: ex_layer 1]])
       ([:: PI] ++ [:: t1, t2 & [:: PI]]) = Val ex_smat.
  move=> e; apply/C07_split_layer => //; last by rewrite e; exact: ex_stackE.
  by apply: (@ex_finite_fields [:: 2]%coqR); rewrite /=; lra.
split; first exact: H.
by apply: H; lra.
Qed.

(** ** C08 *)
(** The interior amplitudes are the one solution with the given incident amplitudes. *)
Theorem C08_interior_amplitudes n m (wl : R) (ls : seq (layer_solve_result n)) ts ss
    (a_0 b_N : 'M[C]_(n + n, m)) xs :
  stack_s_matrices_interior ls ts = Val ss ->
  stack_amplitudes_interior ss a_0 b_N = Val xs ->
  same_wavelength wl ls -> finite_fields ls ->
  forall ys, ys = xs <->
    stack_solution (zip ls ts) ys /\
    exists y0 ys', [/\ ys = y0 :: ys', y0.1 = a_0 & (last y0 ys').2 = b_N].
Proof. move=> H1 H2 hw hf; exact: (stack_amplitudesP H1 (okls ts hw hf) H2). Qed.
Print Assumptions C08_interior_amplitudes.

Example C08_witness :
  stack_s_matrices_interior ex_stack ex_thickness = Val ex_interior /\
  stack_amplitudes_interior ex_interior (RtoC 2)%:M 0 = Val ex_amplitudes /\
  same_wavelength ex_wl ex_stack /\ finite_fields ex_stack.
Proof. by split; [exact: ex_interiorE|split; [exact: ex_amplitudesE|exact: ex_hyps]]. Qed.

(** ** C09 *)
(** Two stacks with a source plane in between: no wave comes in from outside, the amplitudes
    next to the source are the given ones, and the fields are continuous elsewhere. *)
Theorem C09_interior_amplitudes_with_source n m (wl : R) (ls1 ls2 : seq (layer_solve_result n))
    ts1 ts2 ss1 ss2 (b_source a_source : 'M[C]_(n + n, m)) xs :
  stack_s_matrices_interior ls1 ts1 = Val ss1 -> stack_s_matrices_interior ls2 ts2 = Val ss2 ->
  stack_amplitudes_interior_with_source ss1 ss2 b_source a_source = Val xs ->
  same_wavelength wl (ls1 ++ ls2) -> finite_fields (ls1 ++ ls2) ->
  exists x0 xs1 x1 xs2,
    [/\ xs = (x0 :: xs1) ++ (x1 :: xs2),
        stack_solution (zip ls1 ts1) (x0 :: xs1) /\ stack_solution (zip ls2 ts2) (x1 :: xs2),
        x0.1 = 0 /\ (last x0 xs1).2 = b_source &
        x1.1 = a_source /\ (last x1 xs2).2 = 0].
Proof.
move=> H1 H2 H hw hf.
rewrite /stack_amplitudes_interior_with_source in H; binv H ys1 h1; binv H ys2 h2; case: H => <-.
have ok1 : allp (okl wl) (zip ls1 ts1).
  by apply: okls => l hl; [apply: hw|apply: hf]; apply: List.in_or_app; left.
have ok2 : allp (okl wl) (zip ls2 ts2).
  by apply: okls => l hl; [apply: hw|apply: hf]; apply: List.in_or_app; right.
have [g1 [x0 [xs1 [e1 e2 e3]]]] := proj1 (stack_amplitudesP H1 ok1 h1 ys1) erefl.
have [g2 [x1 [xs2 [e1' e2' e3']]]] := proj1 (stack_amplitudesP H2 ok2 h2 ys2) erefl.
exists x0, xs1, x1, xs2; rewrite -e1 -e1'.
by split; [reflexivity|split; [exact: g1|exact: g2]|split|split].
Qed.
Print Assumptions C09_interior_amplitudes_with_source.

Example C09_witness : exists xs,
  stack_s_matrices_interior ex_stack ex_thickness = Val ex_interior /\
  stack_amplitudes_interior_with_source ex_interior ex_interior (RtoC 3)%:M (RtoC 2)%:M = Val xs /\
  same_wavelength ex_wl (ex_stack ++ ex_stack) /\ finite_fields (ex_stack ++ ex_stack).
Proof.
have [ys h] := ex_amplitudes_b; exists (ys ++ ex_amplitudes).
split; first exact: ex_interiorE.
have [h1 h2] := ex_hyps.
rewrite /stack_amplitudes_interior_with_source h ex_amplitudesE; split; first by [].
by split=> l h'; case: (@List.in_app_or _ ex_stack ex_stack l h') => hl; first [exact: h1|exact: h2].
Qed.

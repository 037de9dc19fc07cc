(** C63: turning a stack upside down exchanges its two sides. *)
From Coq Require Import Reals ZArith Lra FunctionalExtensionality.
From mathcomp Require Import all_ssreflect all_algebra.
From Verif Require Import CField Err LinAlg Tac M_utils M_basis M_fft M_fmm_matrices M_fmm M_scattering M_fields S_stack S_maxwell S_fields S_fft S_shift S_flip.
From Verif Require Import L_scattering L_stack L_maxwell L_fft L_fields L_modes P_scattering L_example.
Set Implicit Arguments. Unset Strict Implicit. Unset Printing Implicit Defensive.
Import GRing.Theory.
Local Open Scope ring_scope.

Section Flip.
Variables (n m : nat).
Implicit Types (l : layer_solve_result n) (k : layer n) (x : layer_amplitudes n m).

Lemma Et_flip l (f : fin_layer l) (a b : 'M[C]_(n + n, m)) : Et f b a = - Et f a b.
Proof. by rewrite /Et -mulmxN opprB. Qed.
Lemma Ht_flip l (a b : 'M[C]_(n + n, m)) : Ht l b a = Ht l a b.
Proof. by rewrite /Ht addrC. Qed.
Lemma fields_flip l (f : fin_layer l) (a b : 'M[C]_(n + n, m)) :
  fields_from_wave_amplitudes b a l = rmap (mirror_fields (fun X => - X)) (fields_from_wave_amplitudes a b l).
Proof.
rewrite !(fields_fromE f) /= /mirror_fields /ez_of /hz_of /= Et_flip Ht_flip.
congr (Val (Fields _ _ _ _ _ _)); rewrite ?linearN //= ?opprK // -scalerN -mulmxN; congr (_ *: (_ *m _)).
by rewrite !rowscaleE linearN /= !mulmxN opprK opprB addrC opprK.
Qed.

(** Exchanged amplitudes in a layer give the mirror image of the field. *)
Theorem C63_layer l t (a b : 'M[C]_(n + n, m)) : finite_fields [:: l] ->
  (forall z, reported_fields l t b a z = rmap (mirror_fields (fun X => - X)) (reported_fields l t a b (t - z)%coqR)) /\
  forall p (x y : 'I_p -> R) z,
    fields_at (l, t) (b, a) z x y = rmap (mirror_fields (@opp_xy 'I_p m)) (fields_at (l, t) (a, b) (t - z)%coqR x y).
Proof.
move=> hf; have [M /fin_layerP [f]] := hf l (or_introl erefl).
have R z : reported_fields l t b a z = rmap (mirror_fields (fun X => - X)) (reported_fields l t a b (t - z)%coqR).
  have e : (t - (t - z))%coqR = z by ring.
  by rewrite /reported_fields !colocateE e; exact: fields_flip.
split=> // p x y z; rewrite /fields_at /= R; case: reported_fields => //= F.
rewrite /fields_on_coordinates (fl_k f) /=; congr Val; rewrite /mirror_fields /fields6_map /=.
have e (X : 'M[C]_(n, m)) : (fun (pt : 'I_p) j => \sum_i (- X) i j * cexp (Ci * RtoC (fl_kx f 0 i * x pt + fl_ky f 0 i * y pt))) =
    opp_xy (fun (pt : 'I_p) j => \sum_i X i j * cexp (Ci * RtoC (fl_kx f 0 i * x pt + fl_ky f 0 i * y pt))).
  apply: functional_extensionality => pt; apply: functional_extensionality => j; rewrite /opp_xy -sumrN.
  by apply: eq_bigr => i _; rewrite mxE mulNr.
by rewrite !e.
Qed.

Lemma matched_flip k1 k2 x1 x2 : inhabited (fin_layer k1.1) -> inhabited (fin_layer k2.1) ->
  interface_matched k1 x1 k2 x2 -> interface_matched k2 (exchanged x2) k1 (exchanged x1).
Proof.
move=> [f1] [f2]; rewrite (interfaceE f1 f2) (interfaceE f2 f1) /= => -[h1 h2]; split.
  by rewrite Et_flip -h1 [RHS]Et_flip.
by rewrite Ht_flip -h2 [RHS]Ht_flip.
Qed.
Lemma solutionP d x (ks : seq (layer n)) xs : stack_solution ks xs <->
  size xs = size ks /\ forall i, (i.+1 < size ks)%N -> interface_matched (nth d ks i) (nth x xs i) (nth d ks i.+1) (nth x xs i.+1).
Proof.
elim: ks xs => [|k ks IH] [|y xs]; [by split|by split; [case|move=> [e _]; discriminate e]|by split; [case|move=> [e _]; discriminate e]|].
have {IH} := IH xs; case: ks xs => [|k' ks] [|y' xs] IH.
- by split.
- by split; [case|move=> [e _]; discriminate e].
- by split; [case|move=> [e _]; discriminate e].
have P i : (nth d [:: k, k' & ks] i.+1 = nth d (k' :: ks) i) * (nth x [:: y, y' & xs] i.+1 = nth x (y' :: xs) i) by split; reflexivity.
split.
  move=> [h H]; have [e H'] := proj1 IH H; split; first exact: (congr1 S e).
  move=> [|i] hi; first exact: h.
  rewrite !P; exact: (H' i hi).
move=> [[e] H]; split; first exact: (H 0%N isT).
apply: (proj2 IH); split; first exact: (congr1 S e).
by move=> i hi; have := H i.+1 hi; rewrite !P.
Qed.
Lemma solution_flip (ks : seq (layer n)) xs : (forall k, List.In k ks -> inhabited (fin_layer k.1)) ->
  stack_solution ks xs -> stack_solution (rev ks) (rev (map (@exchanged n m) xs)).
Proof.
case: ks => [|k0 ks'] hf; first by case: xs.
set ks := k0 :: ks' in hf *; pose x0 : layer_amplitudes n m := (0, 0).
move=> /(solutionP k0 x0) [e H]; apply/(solutionP k0 (exchanged x0)).
have A j : (j < size ks)%N -> nth k0 (rev ks) j = nth k0 ks (size ks - j.+1) by move=> hj; rewrite nth_rev.
have B j : (j < size ks)%N -> nth (exchanged x0) (rev (map (@exchanged n m) xs)) j = exchanged (nth x0 xs (size ks - j.+1)).
  move=> hj; rewrite nth_rev ?size_map ?e // (nth_map x0) // e.
  by case: (size ks) hj => // q _; rewrite subSS ltnS leq_subr.
split; first by rewrite !size_rev size_map.
move=> i; rewrite size_rev => hi.
have hi' : (i < size ks)%N by exact: ltnW.
rewrite (A _ hi) (A _ hi') (B _ hi) (B _ hi').
have F j : (j < size ks)%N -> inhabited (fin_layer (nth k0 ks j).1).
  move=> hj; apply: hf; elim: (ks) j hj => [|k' s IH] [|j] //= hj; [by left|by right; exact: IH].
have -> : (size ks - i.+1 = (size ks - i.+2).+1)%N by rewrite -subSn // subSS.
have hj : ((size ks - i.+2).+1 < size ks)%N by rewrite -subSn // subSS ltn_subrL.
exact: (matched_flip (F _ (ltnW hj)) (F _ hj) (H _ hj)).
Qed.
Lemma finite_zip (ls : seq (layer_solve_result n)) (ts : seq R) : finite_fields ls ->
  forall k, List.In k (zip ls ts) -> inhabited (fin_layer k.1).
Proof.
elim: ls ts => [|l ls IH] [|t ts] //= hf k [<-|hk].
  by have [M /fin_layerP] := hf l (or_introl erefl).
by apply: IH hk => j hj; apply: hf; right.
Qed.
Lemma in_rev T (s : seq T) a : List.In a (rev s) -> List.In a s.
Proof.
elim: s => [|b s IH] //; rewrite rev_cons -cats1 => h.
by case: (List.in_app_or _ _ _ h) => [/IH h'|[->|[]]]; [right|left].
Qed.
Lemma finite_rev (ls : seq (layer_solve_result n)) : finite_fields ls -> finite_fields (rev ls).
Proof. by move=> h l hl; apply: h; exact: in_rev. Qed.
Lemma wavelength_rev wl (ls : seq (layer_solve_result n)) : same_wavelength wl ls -> same_wavelength wl (rev ls).
Proof. by move=> h l hl; apply: h; exact: in_rev. Qed.
Lemma exchangedK : involutive (@exchanged n m).
Proof. by case. Qed.

(** A field in a stack, mirrored, is a field in the reversed stack, and the other way around. *)
Theorem C63_stack (ls : seq (layer_solve_result n)) (ts : seq R) xs : size ls = size ts -> finite_fields ls ->
  stack_solution (zip ls ts) xs <-> stack_solution (zip (rev ls) (rev ts)) (rev (map (@exchanged n m) xs)).
Proof.
move=> sz hf; rewrite -rev_zip //; split; first exact: solution_flip (finite_zip hf).
move/solution_flip; rewrite revK map_rev revK (mapK exchangedK); apply.
by move=> k hk; apply: (finite_zip hf); exact: in_rev hk.
Qed.

(** The amplitudes the library computes inside the reversed stack, for the exchanged incident
    waves. *)
Theorem C63_interior wl (ls : seq (layer_solve_result n)) (ts : seq R) ss ss' (a_0 b_N : 'M[C]_(n + n, m)) xs xs' :
  same_wavelength wl ls -> finite_fields ls ->
  stack_s_matrices_interior ls ts = Val ss -> stack_amplitudes_interior ss a_0 b_N = Val xs ->
  stack_s_matrices_interior (rev ls) (rev ts) = Val ss' -> stack_amplitudes_interior ss' b_N a_0 = Val xs' ->
  xs' = rev (map (@exchanged n m) xs).
Proof.
move=> hw hf h1 h2 h1' h2'; apply/esym/(C08_interior_amplitudes h1' h2' (wavelength_rev hw) (finite_rev hf)).
have [S [y0 [ys [ey ea eb]]]] := proj1 (C08_interior_amplitudes h1 h2 hw hf xs) erefl.
have sz : size ls = size ts by move: h1; rewrite /stack_s_matrices_interior /stack_s_matrices; case: eqP.
split; first exact/(C63_stack _ sz hf).
rewrite ey; case/lastP: ys ey eb => [|ys y] ey eb.
  by exists (exchanged y0), [::].
exists (exchanged y), (rev (map (@exchanged n m) (y0 :: ys))).
rewrite -rcons_cons map_rcons rev_rcons; split=> //; first by rewrite -eb last_rcons.
by rewrite /= rev_cons last_rcons.
Qed.
End Flip.
Print Assumptions C63_layer.
Print Assumptions C63_stack.
Print Assumptions C63_interior.

(** The scattering matrix of the reversed stack. *)
Theorem C63_scattering n wl (ls : seq (layer_solve_result n)) (ts : seq R) s s' :
  same_wavelength wl ls -> finite_fields ls ->
  stack_s_matrix ls ts = Val s -> stack_s_matrix (rev ls) (rev ts) = Val s' ->
  [/\ s11 s' = s22 s, s12 s' = s21 s, s21 s' = s12 s & s22 s' = s11 s].
Proof.
move=> hw hf hs hs'.
have [sz ends _ _] := C01_stack_s_matrix_is_field_continuity hs hw hf.
have [_ ends' _ _] := C01_stack_s_matrix_is_field_continuity hs' (wavelength_rev hw) (finite_rev hf).
have key m (a0 b0 aN bN : 'M[C]_(n + n, m)) : scatters s a0 b0 aN bN -> scatters s' bN aN b0 a0.
  move=> /ends [x0 [xs [S e0 eN]]]; apply/ends'.
  case/lastP: xs S eN => [|xs x] S eN.
    exists (exchanged x0), [::]; split; [exact/(C63_stack [:: x0] sz hf)| |].
    - by move: eN => /= ->.
    - by rewrite /= e0.
  exists (exchanged x), (rev (map (@exchanged n m) (x0 :: xs))); split.
  - by have := proj1 (C63_stack _ sz hf) S; rewrite -rcons_cons map_rcons rev_rcons.
  - by move: eN; rewrite last_rcons => ->.
  - by rewrite /= rev_cons last_rcons e0.
have [] := key _ 1%:M (s21 s) (s11 s) 0; first by split; rewrite ?mulmx0 ?addr0 ?mulmx1.
have [] := key _ 0 (s22 s) (s12 s) 1%:M; first by split; rewrite ?mulmx0 ?add0r ?mulmx1.
by rewrite !mulmx0 !mulmx1 !addr0 !add0r.
Qed.
Print Assumptions C63_scattering.

(** Air over glass: the computed scattering matrices from either side; and air, glass, air: the
    amplitudes exist for any incident waves (its hypotheses are [ex_hyps]). *)
Example C63_witness :
  [/\ same_wavelength ex_wl [:: ex_layer 1; ex_layer 2], finite_fields [:: ex_layer 1; ex_layer 2],
      stack_s_matrix [:: ex_layer 1; ex_layer 2] [:: PI; (PI / 4)%coqR] = Val ex_pair,
      stack_s_matrix (rev [:: ex_layer 1; ex_layer 2]) (rev [:: PI; (PI / 4)%coqR]) = Val (reverse_s_matrix ex_pair) &
      s11 ex_pair <> s22 ex_pair].
Proof.
split.
- exact: (@ex_same_wavelength [:: 1; 2]%coqR).
- by apply: (@ex_finite_fields [:: 1; 2]%coqR); do ?split; lra.
- by rewrite /stack_s_matrix /stack_s_matrices /= pair_extend ex_pairE.
- by rewrite /stack_s_matrix /stack_s_matrices /= pair_extend ex_pair_rev.
- move=> /(congr1 (fun M : 'M[C]_(1 + 1) => M 0 0)); rewrite !mxE eqxx => /(congr1 fst) /=.
  by lra.
Qed.
Lemma ex_amplitudes_any (a b : 'M[C]_(1 + 1)) : exists ys, stack_amplitudes_interior ex_interior a b = Val ys.
Proof.
have E (before after : scattering_matrix 1) x : amplitudes_interior before after ((RtoC 2)%:M : 'M[C]_(1 + 1)) 0 = Val x ->
    exists y, amplitudes_interior before after a b = Val y.
  by rewrite /amplitudes_interior /solve; case: ifP => //= _ _; eexists.
have := ex_amplitudesE; rewrite /stack_amplitudes_interior /= => H.
binv H x1 h1; binv H r1 g1; binv g1 x2 h2; binv g1 r2 g2; binv g2 x3 h3.
have [y1 ->] := E _ _ _ h1; have [y2 ->] := E _ _ _ h2; have [y3 ->] := E _ _ _ h3.
by eexists.
Qed.
Example C63_interior_witness (a b : 'M[C]_(1 + 1)) : exists ss xs xs',
  [/\ stack_s_matrices_interior ex_stack ex_thickness = Val ss,
      stack_amplitudes_interior ss a b = Val xs,
      stack_s_matrices_interior (rev ex_stack) (rev ex_thickness) = Val ss &
      stack_amplitudes_interior ss b a = Val xs'].
Proof.
have [ys hy] := ex_amplitudes_any a b; have [zs hz] := ex_amplitudes_any b a.
by exists ex_interior, ys, zs; split=> //; exact: ex_interiorE.
Qed.

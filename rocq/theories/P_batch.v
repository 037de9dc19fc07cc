(** C29, C47: validation of shapes and choice of the solver. *)
From Coq Require Import Reals ZArith.
From mathcomp Require Import all_ssreflect all_algebra.
From Verif Require Import Tac CField Err LinAlg M_utils M_basis M_nd M_fmm M_batch S_utils P_utils S_batch L_batch.
Set Implicit Arguments. Unset Strict Implicit. Unset Printing Implicit Defensive.

(** The constructor of a layer solve result succeeds exactly if its attributes are consistent,
    and raises a ValueError otherwise. *)
Theorem C29_layer_solve_result (s : solve_shapes) : (2 <= size (sh_eigenvectors s))%N -> (0 < sh_num_terms s)%N ->
  nonempty_axes s ->
  (post_init s = Val tt <-> consistent_result s) /\
  (post_init s = Val tt \/ post_init s = Exn ValueError).
Proof.
case: s => w k u v n ev evec zp izp zm izm tp tg; rewrite /nonempty_axes /consistent_result; cbn [sh_wavelength sh_in_plane_wavevector sh_u sh_v sh_num_terms sh_eigenvalues sh_eigenvectors sh_z_permittivity sh_inverse_z_permittivity sh_z_permeability sh_inverse_z_permeability sh_transverse_permeability sh_tangent].
case/size2_cat=> batch [m [l ->]] n0 hz.
have z1 : 0 \notin w by apply: hz; rewrite !inE eqxx ?orbT.
have z2 : 0 \notin k by apply: hz; rewrite !inE eqxx ?orbT.
have z3 : 0 \notin u by apply: hz; rewrite !inE eqxx ?orbT.
have z4 : 0 \notin v by apply: hz; rewrite !inE eqxx ?orbT.
have z5 : 0 \notin batch ++ [:: m; l] by apply: hz; rewrite !inE eqxx ?orbT.
have z6 : 0 \notin zp by apply: hz; rewrite !inE eqxx ?orbT.
have z7 : 0 \notin izp by apply: hz; rewrite !inE eqxx ?orbT.
have z8 : 0 \notin zm by apply: hz; rewrite !inE eqxx ?orbT.
have z9 : 0 \notin izm by apply: hz; rewrite !inE eqxx ?orbT.
have z10 : 0 \notin tp by apply: hz; rewrite !inE eqxx ?orbT.
have zb : 0 \notin batch by move: z5; rewrite mem_cat negb_or => /andP [].
have zb2 : 0 \notin batch ++ [:: 2] by rewrite mem_cat negb_or zb.
have zbn : 0 \notin batch ++ [:: n; n] by rewrite mem_cat negb_or zb !inE !negb_or !(eq_sym 0) -!lt0n n0.
rewrite /post_init; cbn [sh_wavelength sh_in_plane_wavevector sh_u sh_v sh_num_terms sh_eigenvalues sh_eigenvectors sh_z_permittivity sh_inverse_z_permittivity sh_z_permeability sh_inverse_z_permeability sh_transverse_permeability sh_tangent].
rewrite butlast2 butlast1_2 last_cat2 -!cats1.
set k12 := check (if tg is Some _ then _ else _) _ _.
have [p12 q12] : ((exists x, k12 = Val x) <-> (forall t, tg = Some t -> size t = size batch + 2)) /\ (k12 = Exn ValueError \/ exists x, k12 = Val x).
  rewrite /k12; case: tg {hz k12} => [t|]; last by split; [split=> // _; exists tt|right; exists tt].
  rewrite size_cat; case: eqP => e; split; cbn [check].
  - by split=> [_ t' [<-]|_] //; exists tt.
  - by right; exists tt.
  - by split=> [[]|/(_ _ erefl)] //.
  - by left.
have [p11 q11] := rejectP z10 z5 q12.
have [p10 q10] := rejectP z8 zbn q11.
have [p9 q9] := rejectP z9 zbn q10.
have [p8 q8] := rejectP z6 zbn q9.
have [p7 q7] := rejectP z7 zbn q8.
have [p6 q6] := checkP (ev == batch ++ [:: m]) q7.
have [p5 q5] := checkP (n * 2 == l) q6.
have [p4 q4] := rejectP z4 zb2 q5.
have [p3 q3] := rejectP z3 zb2 q4.
have [p2 q2] := rejectP z2 zb2 q3.
have [p1 q1] := rejectP z1 zb q2.
move: q1 p1; set A := reject _ _ => q1 p1.
have eA : A = Val tt <-> exists x, A = Val x by split=> [->|[[]]] //; exists tt.
split; last by case: q1 => [|[[]]]; [right|left].
split.
- move=> /eA /p1 [c1] /p2 [c2] /p3 [c3] /p4 [c4] /p5 [/eqP c5] /p6 [/eqP c6] /p7 [c7] /p8 [c8] /p9 [c9] /p10 [c10] /p11 [c11] /p12 c12.
  have el : 2 * n = l by rewrite mulnC.
  exists batch, m; rewrite el c6; split; first by split.
  split; first exact: (conj c1 (conj c2 (conj c3 c4))).
  by split; first exact: (conj c8 (conj c7 (conj c10 (conj c9 c11)))).
- case=> b [m' [[e1 e2] [[c1 [c2 [c3 c4]]] [[c8 [c7 [c10 [c9 c11]]]] c12]]]].
  have [eb em el] : [/\ b = batch, m' = m & l = 2 * n].
    move: e1; rewrite -[[:: m; l]]/([:: m] ++ [:: l]) -[[:: m'; _]]/([:: m'] ++ [:: 2 * n]) !catA !cats1.
    by move=> h; have [h1 h3] := rcons_inj h; have [h4 h5] := rcons_inj h1; rewrite h3 h4 h5.
  move: c1 c2 c3 c4 c7 c8 c9 c10 c11 c12 e2; rewrite eb em -el => c1 c2 c3 c4 c7 c8 c9 c10 c11 c12 e2.
  apply/eA/p1; split=> //; apply/p2; split=> //; apply/p3; split=> //; apply/p4; split=> //.
  apply/p5; split; first by rewrite el mulnC.
  apply/p6; split; first by rewrite e2.
  by do 5?[apply/p7; split=> //|apply/p8; split=> //|apply/p9; split=> //|apply/p10; split=> //|apply/p11; split=> //]; apply/p12.
Qed.
(** Accepted batch axes agree with each other wherever the eigenvectors are not of size 1. *)
Theorem C29_mutual (s : solve_shapes) (i : nat) : (2 <= size (sh_eigenvectors s))%N -> (0 < sh_num_terms s)%N ->
  nonempty_axes s -> post_init s = Val tt -> axis_size (sh_eigenvectors s) i.+2 <> 1%N ->
  (axis_size (sh_wavelength s) i = 1%N \/ axis_size (sh_wavelength s) i = axis_size (sh_eigenvectors s) i.+2) /\
  (forall t, t \in [:: sh_in_plane_wavevector s; sh_u s; sh_v s] ->
   axis_size t i.+1 = 1%N \/ axis_size t i.+1 = axis_size (sh_eigenvectors s) i.+2).
Proof.
move=> h2 h0 hz /(C29_layer_solve_result h2 h0 hz).1 [batch [m [[-> _] [[cw [ck [cu cv]]] _]]]].
have ax1 (b : seq nat) x : axis_size (b ++ [:: x]) i.+1 = axis_size b i by rewrite /axis_size rev_cat.
have -> : axis_size (batch ++ [:: m; 2 * sh_num_terms s]) i.+2 = axis_size batch i by rewrite /axis_size rev_cat.
move=> h1; have use t b j : consistent t b -> axis_size b j <> 1 -> axis_size t j = 1 \/ axis_size t j = axis_size b j.
  by case=> _ /(_ t b j); rewrite !inE !eqxx orbT => /(_ isT isT) [|[]] //; [left|right].
split; first exact: use cw h1.
by move=> t; rewrite !inE => /or3P [] /eqP ->; rewrite -(ax1 _ 2) in h1 |- *; apply: use.
Qed.
(** Where they are of size 1, the attributes are compared with them but not with each other: two
    wavelengths and three in-plane wavevectors are accepted. *)
Theorem C29_mutual_refuted : exists s, [/\ nonempty_axes s, post_init s = Val tt,
  sh_wavelength s = [:: 2%N], sh_in_plane_wavevector s = [:: 3%N; 2%N] & ~ broadcastable [:: [:: 2%N]; [:: 3%N]]].
Proof.
exists (SolveShapes [:: 2] [:: 3; 2] [:: 1; 2] [:: 1; 2] 5 [:: 1; 10] [:: 1; 10; 10] [:: 1; 5; 5] [:: 1; 5; 5] [:: 1; 5; 5] [:: 1; 5; 5] [:: 1; 10; 10] None).
split=> //; first by move=> t; rewrite !inE /= => h; do 9?[case/orP: h => [/eqP -> //|h]]; move/eqP: h => ->.
by move=> /(_ [:: 2] [:: 3] 0); rewrite !inE !eqxx orbT => /(_ isT isT) [|[]].
Qed.
(** Beside the theorems: a result with two wavelengths, three wavevectors and one lattice. *)
Example ex_C29 : let s := SolveShapes [:: 2; 1] [:: 1; 3; 2] [:: 1; 1; 2] [:: 1; 1; 2] 5 [:: 2; 3; 10] [:: 2; 3; 10; 10]
  [:: 1; 1; 5; 5] [:: 1; 1; 5; 5] [:: 1; 1; 5; 5] [:: 1; 1; 5; 5] [:: 1; 1; 10; 10] (Some [:: 1; 1; 20; 20]) in
  nonempty_axes s /\ post_init s = Val tt.
Proof. by split=> //; move=> t; rewrite !inE /= => h; do 9?[case/orP: h => [/eqP -> //|h]]; move/eqP: h => ->. Qed.

(** Amplitudes are accepted exactly if the first has shape (..., num_terms, num_amplitudes) and
    all are batch-compatible; otherwise a ValueError is raised. *)
Theorem C29_amplitudes (a : seq nat) (rest : seq (seq nat)) (num_terms : nat) :
  (forall s, s \in a :: rest -> 0%N \notin s) ->
  (validate_amplitudes_shape (a :: rest) num_terms = Val tt <->
    (exists batch k, a = batch ++ [:: num_terms; k]) /\ broadcastable (a :: rest)) /\
  (validate_amplitudes_shape (a :: rest) num_terms = Val tt \/
   validate_amplitudes_shape (a :: rest) num_terms = Exn ValueError).
Proof.
move=> hz; have [hT hF] := @C27_broadcastable (a :: rest) isT hz.
rewrite /validate_amplitudes_shape [head _ _]/=.
case: ltnP => h2.
  by split; [split=> // -[[b [k e]] _]; move: h2; rewrite e size_cat /= addn2|right].
have [b [m [k e]]] := size2_cat h2; rewrite orFb.
have -> : nth 0 a (size a - 2) = m by rewrite e size_cat addnK nth_cat ltnn subnn.
case: eqP => [em|nm]; cbn [negb].
  case eb: (batch_compatible_shapes (a :: rest)) => [ok|]; last by [].
  cbn [bind]; split; last by case: ok {eb}; cbn [check]; [left|right].
  split.
  + by case: ok eb => // /hT eb _; split=> //; exists b, k; rewrite -em.
  + by case=> _ /hT; rewrite eb => -[->].
split; last by right.
split=> // -[[b' [k' e']] _]; case: nm; move: e'; rewrite e.
rewrite -[[:: m; k]]/([:: m] ++ [:: k]) -[[:: num_terms; _]]/([:: num_terms] ++ [:: k']) !catA !cats1.
by move=> h; have [h1 _] := rcons_inj h; have [_ ->] := rcons_inj h1.
Qed.
(** The trailing dimensions of the other amplitudes are not checked: backward amplitudes with a
    single term, or without a dimension for the terms, are accepted along with five forward terms. *)
Theorem C29_amplitudes_refuted :
  validate_amplitudes_shape [:: [:: 5; 1]; [:: 1; 1]] 5 = Val tt /\
  validate_amplitudes_shape [:: [:: 5; 1]; [:: 1]] 5 = Val tt.
Proof. by []. Qed.
Example ex_C29_amplitudes : validate_amplitudes_shape [:: [:: 3; 1; 10; 4]; [:: 2; 10; 4]] 10 = Val tt /\
  validate_amplitudes_shape [:: [:: 3; 1; 10; 4]; [:: 2; 9; 4]] 10 = Exn ValueError.
Proof. by []. Qed.

(** ** Choice of the solver *)
Lemma validateP (w kb : seq nat) kt (ub vb pb : seq nat) nx ny (rest : seq (seq nat)) :
  (forall s, s \in [:: w; kb; ub; vb; pb] -> 0%N \notin s) ->
  ((exists d, validate_shapes w (kb ++ [:: kt]) (ub ++ [:: 2]) (vb ++ [:: 2]) ((pb ++ [:: nx; ny]) :: rest) = Val d) <->
   [/\ kt = 2, (forall s, s \in rest -> s = pb ++ [:: nx; ny]) & broadcastable [:: w; kb; ub; vb; pb]]) /\
  ((exists d, validate_shapes w (kb ++ [:: kt]) (ub ++ [:: 2]) (vb ++ [:: 2]) ((pb ++ [:: nx; ny]) :: rest) = Val d) \/
   validate_shapes w (kb ++ [:: kt]) (ub ++ [:: 2]) (vb ++ [:: 2]) ((pb ++ [:: nx; ny]) :: rest) = Exn ValueError).
Proof.
move=> hz; have [hT hF] := @C27_broadcastable [:: w; kb; ub; vb; pb] isT hz.
rewrite /validate_shapes [head _ _]/= last_cat [last _ _]/= !butlast1 butlast2.
case: eqP => [ek|nk]; cbn [check]; last by split; [split=> [[]|[]]|right].
cbn [all]; rewrite eqxx andTb; case: allP => [ha|na]; cbn [check]; last first.
  split; last by right.
  by split=> [[]|[_ hr _]] //; case: na => s /hr ->.
case eb: (batch_compatible_shapes [:: w; kb; ub; vb; pb]) => [ok|]; last by [].
cbn [bind]; case: ok eb => eb; cbn [check]; split.
- split=> [_|_]; last by eexists.
  by split=> // [s /ha /eqP|]; [|apply/hT].
- by left; eexists.
- by split=> [[]|[_ _ /hT]] //; rewrite eb.
- by right.
Qed.

Lemma trailing2_cat (s : seq nat) a b : trailing2 (s ++ [:: a; b]) = [:: a; b].
Proof. by rewrite /trailing2 size_cat addnK drop_size_cat. Qed.

(** The uniform solver is used exactly for arrays of trailing shape (1, 1), the other solver for
    all others, and inputs that do not broadcast are rejected with a ValueError. *)
Theorem C47_isotropic (w kb : seq nat) kt (ub vb pb : seq nat) nx ny :
  (forall s, s \in [:: w; kb; ub; vb; pb] -> 0%N \notin s) ->
  let d := dispatch_isotropic w (kb ++ [:: kt]) (ub ++ [:: 2]) (vb ++ [:: 2]) (pb ++ [:: nx; ny]) in
  let valid := kt = 2%N /\ broadcastable [:: w; kb; ub; vb; pb] in
  [/\ d = Val Uniform <-> valid /\ (nx = 1 /\ ny = 1)%N, d = Val Patterned <-> valid /\ ~ (nx = 1 /\ ny = 1)%N
    & d = Exn ValueError <-> ~ valid].
Proof.
move=> hz d valid; rewrite /d /dispatch_isotropic trailing2_cat.
have [hv] := validateP kt nx ny [::] hz.
have hvv : (exists d, validate_shapes w (kb ++ [:: kt]) (ub ++ [:: 2]) (vb ++ [:: 2]) [:: pb ++ [:: nx; ny]] = Val d) <-> valid.
  by split=> [/hv [h _ hb]|[h hb]] //; apply/hv.
case: (validate_shapes w) hvv {hv} => [num|e] hvv h; cbn [bind].
- have V : valid by apply/hvv; exists num.
  case: eqP => [[-> ->]|ne]; split; split=> //.
  + by case=> _ [].
  + by case=> _ [a b]; case: ne; rewrite a b.
  + by move=> _; split=> // -[a b]; apply: ne; rewrite a b.
- have nV : ~ valid by move/hvv => -[].
  have -> : e = ValueError by case: h => [[]|[]].
  by case: eqP => _; split; split=> // -[].
Qed.

(** For tensors: all ten components must have the same shape, as must the source of the vector
    field when one is given. *)
Theorem C47_anisotropic (w kb : seq nat) kt (ub vb pb : seq nat) nx ny (rest : seq (seq nat)) (source : option (seq nat)) :
  (forall s, s \in [:: w; kb; ub; vb; pb] -> 0%N \notin s) -> size rest = 9 ->
  let d := dispatch_anisotropic w (kb ++ [:: kt]) (ub ++ [:: 2]) (vb ++ [:: 2]) ((pb ++ [:: nx; ny]) :: rest) source in
  let valid := [/\ kt = 2%N, (forall s, s \in rest -> s = pb ++ [:: nx; ny]) & broadcastable [:: w; kb; ub; vb; pb]] in
  [/\ d = Val Uniform <-> valid /\ (nx = 1 /\ ny = 1)%N,
      d = Val Patterned <-> [/\ valid, ~ (nx = 1 /\ ny = 1)%N & forall s, source = Some s -> s = pb ++ [:: nx; ny]]
    & (exists p, d = Val p) \/ d = Exn ValueError].
Proof.
move=> hz h9 d valid; rewrite /d /dispatch_anisotropic [nth _ _ 0]/= [nth _ (_ :: _) 3]/= trailing2_cat.
case: eqP => [[ex ey]|ne].
  have [hv hx] := validateP kt nx ny rest hz.
  cbn [all]; rewrite trailing2_cat ex ey eqxx andTb; case: allP => [ha|na]; cbn [check]; last first.
    split=> //; last by right.
    - by split=> // -[[_ hr _] _]; case: na => s /hr ->; rewrite trailing2_cat ex ey.
    - by split=> // -[_ []].
  move: hv hx; rewrite ex ey; case: (validate_shapes w) => [num|e] hv hx; cbn [bind]; split.
  - by split=> // _; split=> //; rewrite /valid ex ey; apply/hv; exists num.
  - by split=> // -[_ []].
  - by left; exists Uniform.
  - by split=> // -[]; rewrite /valid ex ey => /hv [].
  - by split=> // -[_ []].
  - by right; case: hx => [[]|[->]].
have src : forall s, (if source is Some s then Val s else broadcast_shapes (pb ++ [:: nx; ny]) (nth [::] rest 2)) = Val s ->
    (forall t, t \in rest -> t = pb ++ [:: nx; ny]) -> (s = pb ++ [:: nx; ny] <-> forall s, source = Some s -> s = pb ++ [:: nx; ny]).
  case: source {d} => [s s' [<-] _|s]; first by split=> [-> _ [<-]|/(_ _ erefl)].
  move=> hb hr; split=> // _; move: hb; rewrite (hr (nth [::] rest 2)) ?mem_nth ?h9 //.
  rewrite /broadcast_shapes; case: (all _ _) => // -[<-]; rewrite maxnn; set q := pb ++ _.
  apply: (@eq_from_nth _ 0); rewrite size_rev size_map size_iota // => i hi.
  rewrite nth_rev ?size_map ?size_iota // (nth_map 0) ?size_iota; last by natlia.
  rewrite nth_iota; last by natlia.
  by rewrite /ax /bdim if_same add0n nth_rev; [rewrite -subSn // subSS subKn 1?ltnW //; apply: set_nth_default|natlia].
case es: (if source is Some s then Val s else _) => [s|e]; cbn [bind]; last first.
  split; [by split=> // -[_ [a b]]; case: ne; rewrite a b| |].
  - split=> // -[[_ hr _] _ hs]; move: es; case: source hs {src d} => // _.
    rewrite (hr (nth [::] rest 2)) ?mem_nth ?h9 // /broadcast_shapes.
    by case: allP => // -[] i; rewrite eqxx !orbT.
  - by right; move: es; case: source {d src} => //; rewrite /broadcast_shapes; case: (all _ _) => // -[->].
have [hv hx] := validateP kt nx ny (rcons rest s) hz.
rewrite -[rcons (_ :: _) s]/((pb ++ [:: nx; ny]) :: rcons rest s).
have hvv : (exists d, validate_shapes w (kb ++ [:: kt]) (ub ++ [:: 2]) (vb ++ [:: 2]) ((pb ++ [:: nx; ny]) :: rcons rest s) = Val d) <->
  valid /\ (forall s, source = Some s -> s = pb ++ [:: nx; ny]).
  split.
  - case/hv=> hk hr hb; have hr' t : t \in rest -> t = pb ++ [:: nx; ny] by move=> ht; apply: hr; rewrite mem_rcons inE ht orbT.
    by split=> //; apply/(src s es hr')/hr; rewrite mem_rcons inE eqxx.
  - case=> -[hk hr hb] /(src s es hr) e; apply/hv; split=> // t; rewrite mem_rcons inE => /orP [/eqP ->|/hr].
    + exact: e.
    + by [].
case: (validate_shapes w) hvv hx {hv} => [num|e] hvv hx; cbn [bind]; split.
- by split=> // -[_ [a b]]; case: ne; rewrite a b.
- split=> // _; have [] : valid /\ (forall s, source = Some s -> s = pb ++ [:: nx; ny]) by apply/hvv; exists num.
  by move=> V S; split=> // -[a b]; apply: ne; rewrite a b.
- by left; exists Patterned.
- by split=> // -[_ [a b]]; case: ne; rewrite a b.
- by split=> // -[V _ S]; have [] : exists d, Exn e = Val d :> res nat by apply/hvv.
- by right; case: hx => [[]|[->]].
Qed.
Example ex_C47 : let w := [:: 2; 1] in let k := [:: 3; 2] in
  dispatch_isotropic w k [:: 2] [:: 2] [:: 1; 1] = Val Uniform /\
  dispatch_isotropic w k [:: 2] [:: 2] [:: 3; 20; 1] = Val Patterned /\
  dispatch_isotropic w k [:: 2] [:: 2] [:: 4; 1; 1] = Exn ValueError /\
  dispatch_anisotropic w k [:: 2] [:: 2] (nseq 10 [:: 1; 1]) None = Val Uniform /\
  dispatch_anisotropic w k [:: 2] [:: 2] (nseq 10 [:: 20; 20]) None = Val Patterned /\
  dispatch_anisotropic w k [:: 2] [:: 2] ([:: 1; 1] :: nseq 9 [:: 20; 20]) None = Exn ValueError.
Proof. by do !split. Qed.

Print Assumptions C29_layer_solve_result.
Print Assumptions C29_mutual.
Print Assumptions C29_mutual_refuted.
Print Assumptions C29_amplitudes.
Print Assumptions C29_amplitudes_refuted.
Print Assumptions C47_isotropic.
Print Assumptions C47_anisotropic.

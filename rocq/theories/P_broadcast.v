(** C24, C51: batches. *)
From Coq Require Import Reals ZArith.
From mathcomp Require Import all_ssreflect all_algebra.
From Verif Require Import Tac CField Err LinAlg M_utils M_basis M_nd M_fmm M_batch S_utils P_utils S_batch L_batch P_batch L_broadcast.
Set Implicit Arguments. Unset Strict Implicit. Unset Printing Implicit Defensive.

Lemma selectsE s idx j : selects s idx j -> j = bindex s idx.
Proof.
case=> h1 h2; apply: idx_ext => [|i]; first by rewrite size_bindex.
case: (ltnP i (size s)) => h; first by rewrite h2 // nth_bindex.
rewrite nth_default; last by rewrite size_rev h1.
by rewrite nth_default // size_rev size_bindex.
Qed.
Lemma ax_pad p s i : ax (nseq p 1 ++ s) i = ax s i.
Proof.
rewrite /ax rev_cat nth_cat size_rev; case: ltnP => // h.
by rewrite [RHS]nth_default ?size_rev // -[nth _ _ _]/(nth 1 (rev (nseq p 1)) _) -/(ax _ _) ax_nseq1.
Qed.
Lemma bcto_pad p s t : bcto s t -> p + size s <= size t -> bcto (nseq p 1 ++ s) t.
Proof. by case=> _ h hs; split=> [|i]; rewrite ?size_cat ?size_nseq // ax_pad. Qed.
Lemma nonempty_bcto s t : bcto s t -> 0 \notin t -> 0 \notin s.
Proof.
case=> _ h ht; apply/negP => hs; have [i hi e] : exists2 i, i < size s & ax s i = 0.
  move: hs; rewrite -mem_rev => /(nthP 1) [i hi e]; exists i => //; by rewrite size_rev in hi.
case: (h i); rewrite e // => e'; move/negP: ht; apply; rewrite -mem_rev e'.
rewrite /ax; apply: mem_nth; rewrite size_rev ltnNge; apply/negP => ho.
by move: e'; rewrite ax_out.
Qed.
Lemma consistent_bcto s t : bcto s t -> size s = size t -> consistent s t.
Proof.
case=> _ h hs; split=> // x y i; rewrite !inE => /orP [/eqP ->|/eqP ->] /orP [/eqP ->|/eqP ->].
- by right; right.
- by case: (h i) => e; [left|right; right].
- by case: (h i) => e; [right; left|right; right].
- by right; right.
Qed.
Lemma broadcast_to_ok T (x : nd T) sh : bcto (nshape x) sh ->
  exists2 z, broadcast_to x sh = Val z & nshape z = sh /\ forall idx, nget z idx = bget x idx.
Proof.
move=> h; have e : broadcast_shapes (nshape x) sh = Val sh.
  apply: broadcast_eq => //; [exact: bcto_refl|by symmetry; apply/maxn_idPr; case: h|].
  by move=> i; rewrite /bdim; case: h => _ /(_ i) [->|->] //; case: eqP.
by rewrite /broadcast_to e; cbn [bind]; rewrite eqxx; eexists.
Qed.
Lemma max_list_le s d : (forall x, x \in s -> x <= d) -> max_list s <= d.
Proof.
elim: s => // x s ih h; rewrite /max_list /= geq_max h ?inE ?eqxx //=.
by apply: ih => y hy; apply: h; rewrite inE hy orbT.
Qed.

Section Batched.
Variables (n : nat) (wl k u v : nd R) (eps : nd C) (e : n.-tuple (Z * Z)) (kb pb B : seq nat).
Hypotheses (n0 : 0 < n) (ek : nshape k = kb ++ [:: 2]) (ep : nshape eps = pb ++ [:: 1; 1]).
Hypotheses (hu : one_lattice u) (hv : one_lattice v).
Hypotheses (hB : joint_batch [:: nshape wl; kb; nseq (ndim u).-1 1; nseq (ndim v).-1 1; pb] B) (zB : 0 \notin B).
Let ek' : nshape k = rcons kb 2. Proof. by rewrite -cats1. Qed.
Let ep' : nshape eps = rcons (rcons pb 1) 1. Proof. by rewrite -!cats1 -catA. Qed.
Let d := size B.
Let wb := nshape wl.
Let hb s : s \in [:: wb; kb; nseq (ndim u).-1 1; nseq (ndim v).-1 1; pb] -> bcto s B.
Proof. by case: hB => h _ _ /h. Qed.
Let cw : bcto wb B. Proof. by apply: hb; rewrite !inE eqxx. Qed.
Let ck : bcto kb B. Proof. by apply: hb; rewrite !inE eqxx ?orbT. Qed.
Let cp : bcto pb B. Proof. by apply: hb; rewrite !inE eqxx ?orbT. Qed.
Let cu : bcto (nseq (ndim u).-1 1) B. Proof. by apply: hb; rewrite !inE eqxx ?orbT. Qed.
Let cv : bcto (nseq (ndim v).-1 1) B. Proof. by apply: hb; rewrite !inE eqxx ?orbT. Qed.
Let WB := nseq (d - size wb) 1 ++ wb.
Let KB := nseq (d - size kb) 1 ++ kb.
Let EB := nseq (d - size pb) 1 ++ pb.
Let CW : bcto WB B. Proof. by apply: bcto_pad => //; rewrite subnK //; case: cw. Qed.
Let CK : bcto KB B. Proof. by apply: bcto_pad => //; rewrite subnK //; case: ck. Qed.
Let CE : bcto EB B. Proof. by apply: bcto_pad => //; rewrite subnK //; case: cp. Qed.
Let sW : size WB = d. Proof. by rewrite size_cat size_nseq subnK //; case: cw. Qed.
Let sK : size KB = d. Proof. by rewrite size_cat size_nseq subnK //; case: ck. Qed.
Let sE : size EB = d. Proof. by rewrite size_cat size_nseq subnK //; case: cp. Qed.
Let axes i : (ax WB i = 1 \/ ax WB i = ax B i) /\ (ax KB i = 1 \/ ax KB i = ax B i) /\ (ax EB i = 1 \/ ax EB i = ax B i) /\
  (ax B i = 1 \/ ax WB i = ax B i \/ ax KB i = ax B i \/ ax EB i = ax B i).
Proof.
rewrite !ax_pad; case: cw => _ /(_ i) h1; case: ck => _ /(_ i) h2; case: cp => _ /(_ i) h3; do !split=> //.
case: hB => _ _ /(_ i) [s]; rewrite !inE => h es; rewrite -[ax B i]/(axis_size B i) -es.
case/orP: h => [/eqP ->|]; first by right; left.
case/orP=> [/eqP ->|]; first by right; right; left.
case/orP=> [/eqP ->|]; first by left; exact: ax_nseq1.
case/orP=> [/eqP ->|/eqP ->]; first by left; exact: ax_nseq1.
by right; right; right.
Qed.
Lemma validated : validate_shapes wb (nshape k) (nshape u) (nshape v) [:: nshape eps] = Val d.
Proof.
rewrite /validate_shapes [head _ _]/= ek last_cat [last _ _]/= eqxx; cbn [check all]; rewrite eqxx; cbn [check andb].
rewrite -hu -hv ep !butlast1 butlast2.
have zz s : s \in [:: wb; kb; nseq (ndim u).-1 1; nseq (ndim v).-1 1; pb] -> 0 \notin s by move=> /hb h; exact: nonempty_bcto h zB.
have [hT _] := @C27_broadcastable [:: wb; kb; nseq (ndim u).-1 1; nseq (ndim v).-1 1; pb] isT zz.
have -> : batch_compatible_shapes [:: wb; kb; nseq (ndim u).-1 1; nseq (ndim v).-1 1; pb] = Val true.
  apply/hT => s t i hs ht; have [_ /(_ i) h1] := hb hs; have [_ /(_ i) h2] := hb ht.
  by case: h1 => h1; [left|case: h2 => h2; [right; left|right; right; rewrite -[axis_size s i]/(ax s i) h1]].
cbn [bind check]; congr Val; rewrite !size_cat !addnK.
apply/eqP; rewrite eqn_leq; apply/andP; split.
  by apply: max_list_le => x; rewrite !inE => h; do 4?[case/orP: h => [/eqP ->|h]]; rewrite ?(eqP h); [case: cw|case: ck|case: cu|case: cv|case: cp].
case: hB => _ [s hs es] _; rewrite /d -es; apply: max_listP; exact: (map_f size hs).
Qed.
Let bWK : exists2 s, broadcast_shapes WB KB = Val s & broadcast_shapes s EB = Val B.
Proof.
have [s h cs] := broadcast_ok CW CK; exists s => //.
have [e1 e2 _ _] := broadcast_shapesV h.
apply: broadcast_eq => //; first by rewrite e1 sW sK sE !maxnn.
move=> i; rewrite e2 /bdim; have [h1 [h2 [h3 h4]]] := axes i.
by case: eqP => h5; case: eqP h5 => h6 h5; case: h1 => h1; case: h2 => h2; case: h3 => h3; rewrite ?h1 ?h2 ?h3 in h4 h5 h6 |- * => //; case: h4 => [|[|[]]] h4; rewrite ?h4 //; exfalso; congruence.
Qed.

Let bC AB BB : broadcast_shapes (rcons EB 1) (rcons WB 1) = Val AB -> broadcast_shapes AB (rcons KB n) = Val BB ->
  broadcast_shapes BB (rcons KB n) = Val (rcons B n).
Proof.
move=> h1 h2; have [a1 a2 _ _] := broadcast_shapesV h1; have [b1 b2 _ _] := broadcast_shapesV h2.
have c1 : bcto (rcons KB n) (rcons B n) by apply: bcto_rcons => //; right.
have c2 : bcto BB (rcons B n).
  have c3 : bcto AB (rcons B n).
    have r1 : bcto (rcons EB 1) (rcons B n) by apply: bcto_rcons => //; left.
    have r2 : bcto (rcons WB 1) (rcons B n) by apply: bcto_rcons => //; left.
    by have [sh] := broadcast_ok r1 r2; rewrite h1 => -[<-].
  by have [sh] := broadcast_ok c3 c1; rewrite h2 => -[<-].
apply: broadcast_eq => //; first by rewrite b1 a1 !size_rcons sE sW sK !maxnn.
case=> [|i]; first by rewrite b2 a2 !ax_rcons0 /bdim; case: eqP => //; case: eqP.
rewrite b2 a2 !ax_rconsS /bdim; have [q1 [q2 [q3 q4]]] := axes i.
by case: q1 => q1; case: q2 => q2; case: q3 => q3; rewrite ?q1 ?q2 ?q3 ?eqxx in q4 |- *; do ?case: eqP => //; case: q4 => [|[|[]]] // <-.
Qed.
Let epsb : nd (res C) := fin (component 0 (component 0 (atleast_nd eps d.+2))).
Let seps : nshape epsb = EB.
Proof.
have h : nshape (component 0 (atleast_nd eps d.+2)) = rcons EB 1.
  by rewrite (component_atleast_shape 0 d.+1 ep') size_rcons subSS nseq_rcons_cat.
exact: (component_shape 0 h).
Qed.
Let geps b : bget epsb b = Val (nget eps (bindex pb b ++ [:: 0; 0])).
Proof.
have h : nshape (component 0 (atleast_nd eps d.+2)) = rcons EB 1.
  by rewrite (component_atleast_shape 0 d.+1 ep') size_rcons subSS nseq_rcons_cat.
rewrite /epsb /fin -[bget _ _]/(Val (bget (component 0 (component 0 (atleast_nd eps d.+2))) b)) (bget_component 0 b h).
have := bget_component_atleast 0 d.+1 (rcons b 0) ep'; rewrite bindex_rcons eqxx /bget h bindex_rcons eqxx => ->.
by rewrite -!cats1 -catA.
Qed.
Let wlb : nd (res R) := nmap angular_frequency (atleast_nd wl d).
Let gwl b : bget wlb b = angular_frequency (nget wl (bindex wb b)).
Proof. by rewrite /wlb bget_nmap bget_atleast. Qed.

Lemma batched_solve : exists r, [/\ eigensolve_uniform_isotropic_media_b wl k u v eps e = Val r, batch_shape r = B,
  (exists W K, [/\ bcto W B, bcto K B, size K = d & shapes_of r = SolveShapes W (rcons K 2) (rcons (nseq d 1) 2) (rcons (nseq d 1) 2) n
     (B ++ [:: 2 * n]) (B ++ [:: 2 * n; 2 * n]) (B ++ [:: n; n]) (B ++ [:: n; n]) (B ++ [:: n; n]) (B ++ [:: n; n])
     (B ++ [:: 2 * n; 2 * n]) None]) /\
  [/\ b_u r = atleast_nd u d.+1, b_v r = atleast_nd v d.+1, b_expansion r = e & post_init (shapes_of r) = Val tt] &
  forall b, valid_index B b -> forall r1,
    eigensolve_uniform_isotropic_media (nget wl (bindex wb b))
      (nget k (bindex kb b ++ [:: 0]), nget k (bindex kb b ++ [:: 1]))
      (Lattice (the_vector u) (the_vector v)) (nget eps (bindex pb b ++ [:: 0; 0])) e = Val r1 ->
    element_of r b r1].
Proof.
have [s hs1 hs2] := bWK.
have [kt [hkt skt gkt]] := wavevectors_one e hu hv ek' (proj1 ck) (proj1 cu) (proj1 cv).
rewrite /eigensolve_uniform_isotropic_media_b -/wb validated; cbn [bind]; cbv zeta.
have st : nshape (atleast_nd eps d.+2) = EB ++ [:: 1; 1].
  by rewrite [nshape _]/= /atleast_nd_shape ep catA size_cat addn2 !subSS.
have skk : nshape (atleast_nd k d.+1) = rcons KB 2.
  by rewrite [nshape _]/= /atleast_nd_shape ek' size_rcons subSS nseq_rcons_cat.
have suu : nshape (atleast_nd u d.+1) = rcons (nseq d 1) 2.
  rewrite [nshape _]/= /atleast_nd_shape -hu cats1 size_rcons subSS nseq_rcons_cat -nseqD.
  by rewrite size_nseq subnK //; case: cu; rewrite size_nseq.
have svv : nshape (atleast_nd v d.+1) = rcons (nseq d 1) 2.
  rewrite [nshape _]/= /atleast_nd_shape -hv cats1 size_rcons subSS nseq_rcons_cat -nseqD.
  by rewrite size_nseq subnK //; case: cv; rewrite size_nseq.
rewrite /ndim st size_cat addnK drop_size_cat // eqxx; cbn [check].
rewrite skk -cats1 butlast1 butlast2 -[nshape (atleast_nd wl _)]/WB hs1; cbn [bind]; rewrite hs2; cbn [bind].
rewrite hkt; cbn [bind].
have n2 : 2 * n != 1 by apply/eqP; natlia.
have [|evec hevec [sevec gevec]] := @broadcast_to_ok _ (ndiag (ones [:: 2 * n])) (B ++ [:: 2 * n; 2 * n]).
  rewrite -[[:: 2 * n; 2 * n]]/([:: 2 * n] ++ [:: 2 * n]) catA !cats1.
  by apply: (@bcto_rcons [:: 2 * n]); [apply: bcto1; right|right].
rewrite hevec; cbn [bind].
rewrite -/epsb -/wlb.
set sq := nmap (lift1 _).
have [AB hA _] : exists2 AB, broadcast_shapes (rcons EB 1) (rcons WB 1) = Val AB & bcto AB (rcons B n).
  by apply: broadcast_ok; apply: bcto_rcons => //; left.
have [|a ha sa] := @nmap2_ok _ _ _ (lift2 (fun (e : C) (w : R) => (e * RtoC w)%R)) (newaxis epsb) (sq (newaxis wlb)) AB.
  by rewrite -[nshape (newaxis _)]/(rcons (nshape epsb) 1) seps.
rewrite ha; cbn [bind].
have [BB hBB _] : exists2 BB, broadcast_shapes AB (rcons KB n) = Val BB & bcto BB (rcons B n).
  apply: broadcast_ok; last by apply: bcto_rcons => //; right.
  have r1 : bcto (rcons EB 1) (rcons B n) by apply: bcto_rcons => //; left.
  have r2 : bcto (rcons WB 1) (rcons B n) by apply: bcto_rcons => //; left.
  by have [sh] := broadcast_ok r1 r2; rewrite hA => -[<-].
have sc c : nshape (sq (component c kt)) = rcons KB n by exact: (component_shape c skt).
have [|bb hbb sbb] := @nmap2_ok _ _ _ (lift2 (fun (e : C) (w : R) => (e - RtoC w)%R)) a (sq (component 0 kt)) BB; first by rewrite sa sc.
rewrite hbb; cbn [bind].
have [|c hc scc] := @nmap2_ok _ _ _ (lift2 (fun (e : C) (w : R) => (e - RtoC w)%R)) bb (sq (component 1 kt)) (rcons B n).
  by rewrite sbb sc; exact: bC hA hBB.
rewrite hc; cbn [bind].
set q := tile2 _.
have sq' : nshape q = rcons B (2 * n).
  by rewrite /q /tile2 /trail /ndim; cbn [nshape nmap]; rewrite scc take_rcons1 last_rcons.
have -> : butlast 1 (nshape q) = B by rewrite sq' -cats1 butlast1.
have ones1 t : bcto (rcons EB 1) (rcons B t) by apply: bcto_rcons => //; left.
have [|iz hiz [siz giz]] := @broadcast_to_ok _ (newaxis (nmap (fun e => x <- e;; recipC x) epsb)) (rcons B n).
  by rewrite -[nshape _]/(rcons (nshape epsb) 1) seps.
have [|zz hzz [szz gzz]] := @broadcast_to_ok _ (newaxis epsb) (rcons B n).
  by rewrite -[nshape _]/(rcons (nshape epsb) 1) seps.
rewrite hiz hzz; cbn [bind].
have sdiag x : nshape x = rcons B n -> nshape (ndiag x) = B ++ [:: n; n].
  by move=> ex; rewrite [nshape _]/= /trail ex last_rcons -!cats1 -catA.
set r := BatchedResult _ _ _ _ _ _ _ _ _ _ _ _ _.
have nz t x : bcto t B -> 0 < x -> 0 \notin rcons t x.
  by move=> ct x0; rewrite mem_rcons inE negb_or eq_sym -lt0n x0 (nonempty_bcto ct zB).
have o1 : bcto (nseq d 1) B by split=> [|i]; rewrite ?size_nseq // ax_nseq1; left.
have szp : nshape (b_z_permittivity_matrix r) = B ++ [:: n; n] by exact: sdiag.
have sizp : nshape (b_inverse_z_permittivity_matrix r) = B ++ [:: n; n] by exact: sdiag.
have szm : nshape (b_z_permeability_matrix r) = B ++ [:: n; n].
  have h : butlast 1 (nshape (ndiag zz)) = rcons B n by rewrite (sdiag _ szz) butlast1_2 cats1.
  exact: (sdiag (ones _) h).
have stp : nshape (b_transverse_permeability_matrix r) = B ++ [:: 2 * n; 2 * n].
  rewrite -[LHS]/(rcons (nshape q) (last 1 (nshape q))) sq' last_rcons -!cats1 -catA //.
have e1 : shapes_of r = SolveShapes WB (rcons KB 2) (rcons (nseq d 1) 2) (rcons (nseq d 1) 2) n (B ++ [:: 2 * n])
   (B ++ [:: 2 * n; 2 * n]) (B ++ [:: n; n]) (B ++ [:: n; n]) (B ++ [:: n; n]) (B ++ [:: n; n]) (B ++ [:: 2 * n; 2 * n]) None.
  by rewrite /shapes_of szp sizp szm stp [nshape (b_eigenvectors r)]sevec
    [nshape (b_eigenvalues r)]sq' [nshape (b_in_plane_wavevector r)]skk [nshape (b_u r)]suu [nshape (b_v r)]svv cats1.
have pin : post_init (shapes_of r) = Val tt.
  have z2n : 0 < 2 * n by rewrite muln_gt0.
  have zz2 t x : bcto t B -> 0 < x -> 0 \notin t ++ [:: x; x].
    by move=> ct x0; rewrite mem_cat negb_or (nonempty_bcto ct zB) !inE negb_or eq_sym -lt0n x0.
  have bB := bcto_refl B.
  apply/(proj1 (@C29_layer_solve_result (shapes_of r) _ _ _)); rewrite e1.
  - by rewrite /= size_cat leq_addl.
  - by [].
  - move=> t; cbn [sh_wavelength sh_in_plane_wavevector sh_u sh_v sh_eigenvectors sh_z_permittivity sh_inverse_z_permittivity sh_z_permeability sh_inverse_z_permeability sh_transverse_permeability].
    rewrite !inE => h; do 9?[case/orP: h => [/eqP ->|h]]; rewrite ?(eqP h); first [by exact: nonempty_bcto CW zB | by apply: nz | by apply: zz2].
  - exists B, (2 * n); cbn [sh_wavelength sh_in_plane_wavevector sh_u sh_v sh_num_terms sh_eigenvalues sh_eigenvectors sh_z_permittivity sh_inverse_z_permittivity sh_z_permeability sh_inverse_z_permeability sh_transverse_permeability sh_tangent].
    have cc x : consistent (B ++ [:: x; x]) (B ++ [:: x; x]) by apply: consistent_bcto => //; exact: bcto_refl.
    have c2 t : bcto t B -> size t = d -> consistent (rcons t 2) (B ++ [:: 2]).
      by move=> ct es; rewrite cats1; apply: consistent_bcto; [apply: bcto_rcons => //; right|rewrite !size_rcons es].
    have c3 := c2 (nseq d 1) o1 (size_nseq d 1).
    split=> //; split; first by split; [exact: consistent_bcto|split; [exact: c2|]].
    by split=> //; do 4!split=> //.
rewrite pin; cbn [bind]; exists r; split=> //.
- by rewrite /batch_shape [b_eigenvectors _]/= sevec butlast2.
- by split=> //; exists WB, KB; split.
move=> b hv1 r1 hr1; have sb := valid_size hv1.
move: hr1; rewrite /eigensolve_uniform_isotropic_media /M_basis.transverse_wavevectors.
case hrec: reciprocal => [rv|] //; cbn [bind].
case hw: angular_frequency => [w|] //; cbn [bind].
case hep: recipC => [ie|] //; cbn [bind] => -[<-].
have last2 (i j : nat) : last 0 (b ++ [:: i; j]) = j by rewrite last_cat.
have nth2 (i j : nat) : nth 0 (b ++ [:: i; j]) (size (b ++ [:: i; j]) - 2) = i by rewrite size_cat addnK nth_cat ltnn subnn.
have take2 (i j : nat) : take (size (b ++ [:: i; j])).-1 (b ++ [:: i; j]) = rcons b i.
  by rewrite -[b ++ _]/(b ++ ([:: i] ++ [:: j])) catA !cats1 take_rcons1.
have dg (x : nd (res C)) (i j : nat) : nget (ndiag x) (b ++ [:: i; j]) = if i == j then nget x (rcons b i) else Val (0 : C)%R.
  by rewrite /ndiag; cbn [nget]; rewrite last2 nth2 take2.
have dgE m (x : C) (i j : 'I_m) : (diag (const_mx x) : 'M[C]_m) i j = if nat_of_ord i == j then x else 0%R.
  by rewrite /diag !mxE -[(i == j) in LHS]/(nat_of_ord i == nat_of_ord j); case: (nat_of_ord i == _).
split.
- split; last split.
  + by move=> jw /selectsE ->; rewrite -[RHS](bget_atleast wl d b).
  + move=> jk /selectsE ->; rewrite cats1 [nshape _]skk bindex_rcons; cbn [M_fmm.in_plane_wavevector fst].
    have := bget_component_atleast 0 d b ek'; rewrite /bget (component_atleast_shape 0 d ek') cats1 => <-.
    by [].
  + move=> jk /selectsE ->; rewrite cats1 [nshape _]skk bindex_rcons; cbn [M_fmm.in_plane_wavevector snd].
    have := bget_component_atleast 1 d b ek'; rewrite /bget (component_atleast_shape 1 d ek') cats1 => <-.
    by [].
- move=> i; rewrite cats1 [b_eigenvalues r]/= /q /tile2; cbn [nget].
  rewrite last_rcons take_rcons1 /trail [nshape _]scc last_rcons.
  have [j hj ej] : exists2 j : 'I_n, i %% n = j & forall x : 'rV[C]_n, row_mx x x 0%R i = x 0%R j.
    case: (split_ordP i) => j ->; exists j.
    - by rewrite /= modn_small.
    - by move=> x; rewrite row_mxEl.
    - by rewrite /= modnDl modn_small.
    - by move=> x; rewrite row_mxEr.
  rewrite hj [M_fmm.eigenvalues _]/= ej mxE mxE.
  rewrite -[LHS]/(lift1 (fun z => select_eigenvalue_sign (csqrt z)) (nget c (rcons b j))).
  have [_ -> _] := nmap2V hc; have [_ _ ->] := nmap2V hbb; have [_ _ ->] := nmap2V ha.
  rewrite bget_newaxis geps /sq !bget_nmap bget_newaxis gwl hw !gkt // hrec.
  by rewrite !mxE (tnth_nth (0, 0)%coqZ) !cats1.
- have ltn2 (i : 'I_(n + n)) : i < 2 * n by rewrite mul2n -addnn.
  move=> i j; rewrite [LHS]gevec mxE -[[:: nat_of_ord i; nat_of_ord j]]/([:: nat_of_ord i] ++ [:: nat_of_ord j]) catA !cats1.
  rewrite /bget -[nshape (ndiag _)]/(rcons [:: 2 * n] (2 * n)) bindex_rcons (negbTE n2) bindex1 // /ndiag; cbn [nget].
  by rewrite [nth _ _ _]/= [last _ _]/= -[(i == j) in RHS]/(nat_of_ord i == nat_of_ord j); case: (nat_of_ord i == _).
- move=> i j idx; split.
  + by rewrite /idx [LHS]dg dgE gzz bget_newaxis geps; case: eqP.
  + by rewrite /idx [LHS]dg dgE giz bget_newaxis bget_nmap geps; cbn [bind]; rewrite hep; case: eqP.
  + by rewrite /idx [LHS]dg dgE; case: eqP.
  + by rewrite /idx [LHS]dg dgE; case: eqP.
- by move=> i j; rewrite [LHS]dg dgE; case: eqP.
Qed.
End Batched.

(** A batched solve of a uniform layer returns, for each element of the joint batch of the
    wavelengths, in-plane wavevectors and permittivities, the result of the solve for that element. *)
Theorem C51_uniform_layers n (wl k u v : nd R) (eps : nd C) (e : n.-tuple (Z * Z)) (kb pb B : seq nat) :
  (0 < n)%N -> nshape k = kb ++ [:: 2] -> nshape eps = pb ++ [:: 1; 1] -> one_lattice u -> one_lattice v ->
  joint_batch [:: nshape wl; kb; nseq (ndim u).-1 1; nseq (ndim v).-1 1; pb] B -> 0 \notin B ->
  exists r, [/\ eigensolve_uniform_isotropic_media_b wl k u v eps e = Val r, batch_shape r = B &
    forall b jw jk jp, valid_index B b -> selects (nshape wl) b jw -> selects kb b jk -> selects pb b jp ->
    forall r1, eigensolve_uniform_isotropic_media (nget wl jw) (nget k (jk ++ [:: 0]), nget k (jk ++ [:: 1]))
        (Lattice (the_vector u) (the_vector v)) (nget eps (jp ++ [:: 0; 0])) e = Val r1 ->
      element_of r b r1].
Proof.
move=> n0 ek ep hu hv hB zB; have [r [h1 h2 _ h3]] := batched_solve e n0 ek ep hu hv hB zB.
exists r; split=> // b jw jk jp hb /selectsE -> /selectsE -> /selectsE -> r1 hr; exact: h3.
Qed.

(** The case of three wavelengths by two permittivities, with one in-plane wavevector. *)
Section Example51.
Let wl := Nd [:: 3; 1] (fun idx => INR (head 0 idx).+1).
Let k := Nd [:: 2] (fun idx => 0%coqR).
Let u := Nd [:: 2] (fun idx => if head 0 idx == 0 then 1%coqR else 0%coqR).
Let v := Nd [:: 2] (fun idx => if head 0 idx == 0 then 0%coqR else 1%coqR).
Let eps : nd C := Nd [:: 2; 1; 1] (fun idx => RtoC (INR (head 0 idx).+1)).
Let e : 1.-tuple (Z * Z) := [tuple (0, 0)%coqZ].
Example ex_C51 : exists r, [/\ eigensolve_uniform_isotropic_media_b wl k u v eps e = Val r, batch_shape r = [:: 3; 2] &
  exists2 r1, eigensolve_uniform_isotropic_media 3 (0, 0)%coqR (Lattice (1, 0)%coqR (0, 1)%coqR) (RtoC 2) e = Val r1 &
    element_of r [:: 2; 1] r1].
Proof.
have hB : joint_batch [:: nshape wl; [::]; nseq (ndim u).-1 1; nseq (ndim v).-1 1; [:: 2]] [:: 3; 2].
  split.
  - move=> s; rewrite !inE => h; have h' : s = [:: 3; 1] \/ s = [::] \/ s = [:: 2].
      by case/orP: h => [/eqP ->|h]; [left|right; case/orP: h => [/eqP ->|h]; [left|case/orP: h => [/eqP ->|h]; [left|case/orP: h => [/eqP ->|/eqP ->]; [left|right]]]].
    case: h' => [->|[->|->]]; split=> //; case=> [|[|[|i]]] //; first [by left|by right].
  - by exists [:: 3; 1]; rewrite // inE eqxx.
  - case=> [|[|i]]; [exists [:: 2]|exists [:: 3; 1]|exists [:: 2]] => //; rewrite ?inE ?eqxx ?orbT //.
    by rewrite /axis_size !nth_default.
have s1 : selects (nshape wl) [:: 2; 1] [:: 2; 0] by split=> // -[|[|]].
have s2 : selects [::] [:: 2; 1] [::] by [].
have s3 : selects [:: 2] [:: 2; 1] [:: 1] by split=> // -[|].
have w3 : nget wl [:: 2; 0] = 3%coqR by rewrite -[LHS]/(INR 3) INR_IZR_INZ.
have e2 : nget eps ([:: 1] ++ [:: 0; 0]) = RtoC 2 by rewrite -[LHS]/(RtoC (INR 2)) INR_IZR_INZ.
have [r [h1 h2 h3]] := @C51_uniform_layers 1 wl k u v eps e [::] [:: 2] [:: 3; 2] isT erefl erefl erefl erefl hB isT.
exists r; split; [exact: h1|exact: h2|].
have c1 : cross_product (1, 0)%coqR (0, 1)%coqR = 1%coqR by rewrite /cross_product /=; ring.
have rec (x : R) : x <> 0%coqR -> recipR x = Val (x^-1)%R by move=> h; rewrite /recipR; have -> : (x != 0)%R by apply/eqP.
have recc (x : C) : x <> 0%R -> recipC x = Val (x^-1)%R by move=> h; rewrite /recipC; have -> : (x != 0)%R by apply/eqP.
have hr : exists r1, eigensolve_uniform_isotropic_media 3 (0, 0)%coqR (Lattice (1, 0)%coqR (0, 1)%coqR) (RtoC 2) e = Val r1.
  rewrite /eigensolve_uniform_isotropic_media /transverse_wavevectors /reciprocal [lat_u _]/= [lat_v _]/= c1.
  rewrite (rec 1%coqR); last exact: R1_neq_R0.
  cbn [bind]; rewrite /angular_frequency (rec 3%coqR); last by Lra.lra.
  cbn [bind]; rewrite (recc (RtoC 2)); last by move=> h; have := f_equal re h; rewrite -[re 0%R]/(0%coqR) -[re _]/(2%coqR); Lra.lra.
  by cbn [bind]; eexists.
case: hr => r1 hr; exists r1; first exact: hr.
apply: (h3 [:: 2; 1] [:: 2; 0] [::] [:: 1] isT s1 s2 s3).
rewrite w3 e2; exact: hr.
Qed.
End Example51.

(** ** Batches of lattices *)
(** The reciprocal of a batch of one lattice is that of the lattice. *)
Theorem C24_one_lattice (u v : nd R) (d : nat) : one_lattice u -> one_lattice v ->
  ((ndim u).-1 <= d)%N -> ((ndim v).-1 <= d)%N ->
  exists ur vr, [/\ reciprocal_b (fin (atleast_nd u d.+1)) (fin (atleast_nd v d.+1)) = Val (ur, vr),
    nshape ur = nseq d 1%N ++ [:: 2%N], nshape vr = nseq d 1%N ++ [:: 2%N] &
    forall l, reciprocal (Lattice (the_vector u) (the_vector v)) = Val l ->
      [/\ nget ur (nseq d 0%N ++ [:: 0%N]) = Val (lat_u l).1, nget ur (nseq d 0%N ++ [:: 1%N]) = Val (lat_u l).2,
          nget vr (nseq d 0%N ++ [:: 0%N]) = Val (lat_v l).1 & nget vr (nseq d 0%N ++ [:: 1%N]) = Val (lat_v l).2]].
Proof.
move=> hu hv du dv.
have [ur [vr [h su sv g]]] : exists ur vr, _ := @reciprocal_one d u v hu hv (eq_ind_r (fun x => x <= d)%N du (size_nseq _ 1)) (eq_ind_r (fun x => x <= d)%N dv (size_nseq _ 1)).
exists ur, vr; rewrite !cats1; split=> // l hl; rewrite hl in g.
have gu c : (c < 2)%N -> nget ur (rcons (nseq d 0) c) = Val (vcomp (lat_u l) c).
  by move=> hc; have [e _] := g c [::] hc; rewrite -[RHS]e (bget_component c [::] su) bindex_ones.
have gv c : (c < 2)%N -> nget vr (rcons (nseq d 0) c) = Val (vcomp (lat_v l) c).
  by move=> hc; have [_ e] := g c [::] hc; rewrite -[RHS]e (bget_component c [::] sv) bindex_ones.
by rewrite -!cats1 !cats1 !gu ?gv.
Qed.
(** Three lattices or more along an axis are rejected by the division. *)
Theorem C24_many_lattices_rejected (u v : nd R) (b : nat) : (3 <= b)%N -> nshape u = [:: b; 2] -> nshape v = [:: b; 2] ->
  reciprocal_b (fin u) (fin v) = Exn ValueError.
Proof.
move=> hb eu ev.
have sc c (x : nd R) : nshape x = [:: b; 2] -> nshape (component c (fin x)) = [:: b] by move=> ex; apply: (@component_shape _ _ c [:: b] 2).
have bb : broadcast_shapes [:: b] [:: b] = Val [:: b] by rewrite /broadcast_shapes /= eqxx !orbT /= /bdim if_same.
rewrite /reciprocal_b /cross_product_b.
have [|a1 h1 s1] := @nmap2_ok _ _ _ (lift2 Rmult) (component 0 (fin u)) (component 1 (fin v)) [:: b]; first by rewrite !sc.
have [|a2 h2 s2] := @nmap2_ok _ _ _ (lift2 Rmult) (component 1 (fin u)) (component 0 (fin v)) [:: b]; first by rewrite !sc.
rewrite h1 h2; cbn [bind].
have [|a3 h3 s3] := @nmap2_ok _ _ _ (lift2 Rminus) a1 a2 [:: b]; first by rewrite s1 s2.
rewrite h3; cbn [bind].
have hst : stack2 (component 1 (fin v)) (nmap (lift1 Ropp) (component 0 (fin v))) = Val (Nd [:: b; 2] (fun idx =>
     nget (if last 0 idx == 0 then component 1 (fin v) else nmap (lift1 Ropp) (component 0 (fin v))) (take (size idx).-1 idx))).
  by rewrite /stack2 -[nshape (nmap _ _)]/(nshape (component 0 (fin v))) !sc // eqxx.
rewrite hst; cbn [bind]; rewrite /nmap2 s3 [nshape _]/= /broadcast_shapes /= /ax /=.
by case: b hb {eu ev sc bb s1 s2 s3 hst} => [|[|[|b]]].
Qed.
(** Two lattices are not, but the division pairs the components of a vector, and not the lattices,
    with the two cross products: the reciprocals of square lattices of period 1 and 2 are wrong. *)
Theorem C24_two_lattices_refuted : exists u v ur vr : nd (res R),
  [/\ nshape u = [:: 2; 2], nshape v = [:: 2; 2], reciprocal_b u v = Val (ur, vr) &
      [/\ nget u [:: 1; 0] = Val 2%coqR, nget u [:: 1; 1] = Val 0%coqR,
          nget v [:: 1; 0] = Val 0%coqR, nget v [:: 1; 1] = Val 2%coqR &
          nshape ur = [:: 2; 2] /\ nget ur [:: 1; 0] = Val 2%coqR /\ nget ur [:: 1; 1] = Val 0%coqR]].
Proof.
pose u : nd (res R) := Nd [:: 2; 2] (fun idx => Val (if nth 0 idx 1 == 0 then if nth 0 idx 0 == 0 then 1%coqR else 2%coqR else 0%coqR)).
pose v : nd (res R) := Nd [:: 2; 2] (fun idx => Val (if nth 0 idx 1 == 0 then 0%coqR else if nth 0 idx 0 == 0 then 1%coqR else 2%coqR)).
have rec (x : R) : x <> 0%coqR -> recipR x = Val (x^-1)%R by move=> h; rewrite /recipR; have -> : (x != 0)%R by apply/eqP.
exists u, v; do 2!eexists; split; [by []|by []|reflexivity|].
split; [by []|by []|by []|by []|split; first by []].
have q1 : (1 * 1 - 0 * 0 = 1)%coqR by ring.
have q2 : (2 * 2 - 0 * 0 = 4)%coqR by ring.
rewrite /= /bget /= /divR /lift1 /lift2 /=; cbn [bind rmap]; split.
- by rewrite q1 (rec 1%coqR R1_neq_R0); cbn [bind]; congr Val; rewrite -[(1^-1)%R]/(Rinv 1) Rinv_1 Rmult_1_r.
- rewrite q2 (rec 4%coqR); last by Lra.lra.
  by cbn [bind]; congr Val; rewrite Ropp_0 Rmult_0_l.
Qed.

Print Assumptions C51_uniform_layers.
Print Assumptions C24_one_lattice.
Print Assumptions C24_many_lattices_rejected.
Print Assumptions C24_two_lattices_refuted.

(** C52: scattering matrices of batches of stacks; C05 for batched solve results. *)
From Coq Require Import Reals ZArith Lra.
From mathcomp Require Import all_ssreflect all_algebra.
From Verif Require Import Tac CField Err LinAlg M_utils M_basis M_fmm_matrices M_nd M_fmm M_scattering M_batch M_bstack
  S_utils P_utils S_batch L_batch P_batch L_broadcast P_broadcast S_bstack L_scattering L_stack L_bstack.
Set Implicit Arguments. Unset Strict Implicit. Unset Printing Implicit Defensive.
Import GRing.Theory.

(** The scattering matrix of a batch of stacks: it exists, with the first and the last layer of
    the stack and their thicknesses, and each element of the batch is the scattering matrix of
    the stack for that element. *)
Theorem C52_stack n (layers : seq (batched_result n)) (thicknesses : seq (nd R)) (B : seq nat) (d : batched_result n) :
  (0 < n)%N -> (0 < size layers)%N -> size layers = size thicknesses ->
  List.Forall (fun l => batched_layer l B) layers -> List.Forall (fun t => batched_thickness t B) thicknesses ->
  exists s, [/\ stack_s_matrix_b layers thicknesses = Val s, batched_scattering s B,
    bs_start s = head d layers /\ bs_end s = last d layers &
    forall b layers1 thicknesses1, layers_element layers thicknesses b layers1 thicknesses1 ->
      s_matrix_element s b (stack_s_matrix layers1 thicknesses1)].
Proof.
move=> n0 h0 es hl ht; have [s0 [ss [h1 h2 h3 [h4 _ h5 _] h6]]] := stacks_b n0 h0 es hl ht.
rewrite /stack_s_matrix_b h1; cbn [bind]; exists (last s0 ss); split=> //.
- exact/shapedE.
- by rewrite h4 h5; case: (layers) h0.
move=> b ls1 ts1 he; apply/elementE.
have hk : (size layers).-1 < size layers by rewrite (ltn_predK h0).
have [le [te [_ + _ _ _]]] := h6 b ls1 ts1 he _ hk.
rewrite (ltn_predK h0) -[in nth _ _ _]h2 -last_nth.
case: he => /forall2_size e1 /forall2_size e2.
by rewrite e1 take_size -e1 es e2 take_size.
Qed.

Lemma append_layers_shaped n B (s : batched_s_matrix n) ls ts tl : 0 < n -> s_shaped s B ->
  List.Forall (fun l => batched_layer l B) ls -> List.Forall (fun t => batched_thickness t B) ts ->
  append_layers_b s (zip ls ts) = Val tl -> List.Forall (fun s => s_shaped s B) tl.
Proof.
move=> n0; elim: ls ts s tl => [|l ls IH] [|t ts] s tl hs; try (by move=> _ _ [<-]).
move=> /List.Forall_cons_iff [hl hls] /List.Forall_cons_iff [ht hts]; cbn [zip append_layers_b].
have [s' [-> h2 _ _]] := append_b n0 hs hl ht; cbn [bind] => H; bv H tl' htl; case: H => <-.
by constructor=> //; exact: IH htl.
Qed.
Lemma stacks_shaped n B (ls : seq (batched_result n)) ts ss : 0 < n ->
  List.Forall (fun l => batched_layer l B) ls -> List.Forall (fun t => batched_thickness t B) ts ->
  stack_s_matrices_b ls ts = Val ss -> List.Forall (fun s => s_shaped s B) ss.
Proof.
move=> n0; rewrite /stack_s_matrices_b /check; case: ls ts => [|l0 ls] [|t0 ts] //.
move=> /List.Forall_cons_iff [hl0 hls] /List.Forall_cons_iff [ht0 hts]; case: ifP => // _; cbn [zip].
have [s0 [-> h2 _ _]] := identity_b n0 hl0 ht0; cbn [bind].
case: ls ts hls hts => [|l1 ls] [|t1 ts]; cbn [zip]; try (by move=> _ _ [<-]; apply/List.Forall_cons_iff).
move=> /List.Forall_cons_iff [hl1 hls] /List.Forall_cons_iff [ht1 hts].
have [s1 [-> p2 [p3 p4 p5 p6] _]] := pair_b n0 hl0 hl1 ht0 ht1; cbn [bind].
have ss1 : s_shaped s1 B by split=> //; rewrite ?p3 ?p4 ?p5 ?p6.
move=> H; bv H tl htl; case: H => <-; do 2!constructor=> //; exact: append_layers_shaped htl.
Qed.

(** The list of scattering matrices before and after each layer. *)
Theorem C52_interior n (layers : seq (batched_result n)) (thicknesses : seq (nd R)) (B : seq nat) :
  (0 < n)%N -> (0 < size layers)%N -> size layers = size thicknesses ->
  List.Forall (fun l => batched_layer l B) layers -> List.Forall (fun t => batched_thickness t B) thicknesses ->
  exists ss, [/\ stack_s_matrices_interior_b layers thicknesses = Val ss, size ss = size layers,
    List.Forall (fun s => batched_scattering s.1 B /\ batched_scattering s.2 B) ss &
    forall b layers1 thicknesses1, layers_element layers thicknesses b layers1 thicknesses1 ->
    forall d k, (k < size layers)%N ->
      s_matrix_element (nth d ss k).1 b (stack_s_matrix (take k.+1 layers1) (take k.+1 thicknesses1)) /\
      s_matrix_element (nth d ss k).2 b
        (rmap (@reverse_s_matrix n) (stack_s_matrix (rev (drop k layers1)) (rev (drop k thicknesses1))))].
Proof.
move=> n0 h0 es hl ht; have [s0 [ss [h1 h2 _ _ h6]]] := stacks_b n0 h0 es hl ht.
have h0' : 0 < size (rev layers) by rewrite size_rev.
have es' : size (rev layers) = size (rev thicknesses) by rewrite !size_rev.
have FR T (P : T -> Prop) xs : List.Forall P xs -> List.Forall P (rev xs).
  elim: xs => [|x xs IH] // /List.Forall_cons_iff [a b]; rewrite rev_cons -cats1; apply/List.Forall_app; split; [exact: IH|].
  by apply/List.Forall_cons_iff.
have FR2 T U (P : T -> U -> Prop) xs ys : List.Forall2 P xs ys -> List.Forall2 P (rev xs) (rev ys).
  elim=> [|x y xs' ys' a _ IH]; first exact: List.Forall2_nil.
  rewrite !rev_cons -!cats1; apply: List.Forall2_app => //.
  by apply: List.Forall2_cons.
have [s0' [ss' [q1 q2 _ _ q6]]] := stacks_b n0 h0' es' (FR _ _ _ hl) (FR _ _ _ ht).
rewrite /stack_s_matrices_interior_b h1; cbn [bind]; rewrite q1; cbn [bind]; cbv zeta.
set aft := map _ _; have sa : size aft = size layers by rewrite size_map size_rev q2 size_rev.
eexists; split; [by reflexivity|by rewrite size_zip sa h2 minnn| |].
  have z T U (P : T -> Prop) (Q : U -> Prop) xs ys : List.Forall P xs -> List.Forall Q ys -> List.Forall (fun s => P s.1 /\ Q s.2) (zip xs ys).
    elim: xs ys => [|x xs IH] [|y ys]; try (by move=> *; exact: List.Forall_nil).
    by move=> /List.Forall_cons_iff [a a'] /List.Forall_cons_iff [c c']; constructor=> //; exact: IH.
  apply: (z _ _ (fun s => batched_scattering s B) (fun s => batched_scattering s B)); first (have q := stacks_shaped n0 hl ht h1; elim: q => [|x xs a _ IH]; constructor=> //; exact/shapedE).
  have q := FR _ _ _ (stacks_shaped n0 (FR _ _ _ hl) (FR _ _ _ ht) q1).
  rewrite /aft; elim: {sa aft} (rev _) q => [|x xs IH]; first by constructor.
  move=> /List.Forall_cons_iff [a a']; constructor; last exact: IH.
  by apply/shapedE; case: a => -[k1 k2 k3 k4] [k5 k6] [k7 k8]; split=> //; split.
move=> b ls1 ts1 he d k hk.
rewrite (_ : nth d _ k = (nth s0 (s0 :: ss) k, nth s0 aft k)); last first.
  by rewrite -nth_zip ?h2 ?sa //; apply: set_nth_default; rewrite size_zip sa h2 minnn.
cbn [fst snd]; split.
  by apply/elementE; have [le [te []]] := h6 b ls1 ts1 he k hk.
have [e1 e2] : size layers = size ls1 /\ size thicknesses = size ts1 by case: he => /forall2_size -> /forall2_size ->.
have he' : layers_element (rev layers) (rev thicknesses) b (rev ls1) (rev ts1) by case: he => a c; split; apply: FR2.
have hk' : size layers - k.+1 < size (rev layers) by rewrite size_rev; natlia.
have [le [te [_ + _ _ _]]] := q6 b _ _ he' _ hk'.
have -> : (size layers - k.+1).+1 = size layers - k by natlia.
have -> : take (size layers - k) (rev ls1) = rev (drop k ls1) by rewrite take_rev e1 subKn // -e1 ltnW.
have -> : take (size layers - k) (rev ts1) = rev (drop k ts1) by rewrite take_rev es e2 subKn // -e2 -es ltnW.
have -> : nth s0 aft k = reverse_s_matrix_b (nth s0' (s0' :: ss') (size layers - k.+1)).
  rewrite /aft (nth_map s0'); last by rewrite size_rev q2 size_rev.
  by rewrite nth_rev q2 size_rev.
move=> [g1 g2 g3 g4]; apply/elementE; split; cbn [bblocks reverse_s_matrix_b bs11 bs12 bs21 bs22 fst snd] in *.
- by rewrite g4; case: stack_s_matrix.
- by rewrite g3; case: stack_s_matrix.
- by rewrite g2; case: stack_s_matrix.
- by rewrite g1; case: stack_s_matrix.
Qed.

(** Layers added to a batch of stacks, and the product of two batches. *)
Theorem C52_append n (s : batched_s_matrix n) (layer : batched_result n) (thickness : nd R) (B : seq nat) :
  (0 < n)%N -> batched_scattering s B -> batched_layer layer B -> batched_thickness thickness B ->
  (exists s', [/\ append_layer_b s layer thickness = Val s', batched_scattering s' B,
     [/\ bs_start s' = bs_start s, bs_start_thickness s' = bs_start_thickness s, bs_end s' = layer &
         bs_end_thickness s' = thickness] &
     forall b s1 l1 t1, scattering_element s b s1 -> layer_element layer b l1 -> thickness_element thickness b t1 ->
       s_matrix_element s' b (append_layer s1 l1 t1)]) /\
  (exists s', [/\ prepend_layer_b s layer thickness = Val s', batched_scattering s' B,
     [/\ bs_start s' = layer, bs_start_thickness s' = thickness, bs_end s' = bs_end s &
         bs_end_thickness s' = bs_end_thickness s] &
     forall b s1 l1 t1, scattering_element s b s1 -> layer_element layer b l1 -> thickness_element thickness b t1 ->
       s_matrix_element s' b (prepend_layer s1 l1 t1)]).
Proof.
move=> n0 /shapedE hs hl ht; split.
- have [s' [h1 /shapedE h2 h3 h4]] := append_b' n0 hs hl ht; exists s'; split=> // b s1 l1 t1 a c /thickness_elementE <-.
  exact/elementE/h4.
- have [s' [h1 /shapedE h2 h3 h4]] := prepend_b n0 hs hl ht; exists s'; split=> // b s1 l1 t1 a c /thickness_elementE <-.
  exact/elementE/h4.
Qed.
Theorem C52_redheffer n (p q : batched_s_matrix n) (B : seq nat) :
  (0 < n)%N -> batched_scattering p B -> batched_scattering q B ->
  exists s, [/\ redheffer_star_product_b p q = Val s, batched_scattering s B,
    [/\ bs_start s = bs_start p, bs_start_thickness s = bs_start_thickness p, bs_end s = bs_end q &
        bs_end_thickness s = bs_end_thickness q] &
    forall b p1 q1, scattering_element p b p1 -> scattering_element q b q1 ->
      s_matrix_element s b (redheffer_star_product p1 q1)].
Proof.
move=> n0 /shapedE hp /shapedE hq; have [s' [h1 /shapedE h2 h3 h4]] := redheffer_b n0 hp hq; exists s'; split=> // b p1 q1 a c.
exact/elementE/h4.
Qed.
(** New thicknesses of the first or last layer. *)
Theorem C52_set_thickness n (s : batched_s_matrix n) (thickness : nd R) (B : seq nat) :
  (0 < n)%N -> batched_scattering s B -> batched_thickness thickness B ->
  (exists s', [/\ set_end_layer_thickness_b s thickness = Val s', batched_scattering s' B &
     forall b s1 t1, scattering_element s b s1 -> thickness_element thickness b t1 ->
       scattering_element s' b (set_end_layer_thickness s1 t1)]) /\
  (exists s', [/\ set_start_layer_thickness_b s thickness = Val s', batched_scattering s' B &
     forall b s1 t1, scattering_element s b s1 -> thickness_element thickness b t1 ->
       scattering_element s' b (set_start_layer_thickness s1 t1)]).
Proof.
move=> n0 /shapedE hs ht; split.
- by have [s' [h1 /shapedE h2 h3]] := set_end_b n0 hs ht; exists s'.
- by have [s' [h1 /shapedE h2 h3]] := set_start_b n0 hs ht; exists s'.
Qed.

(** The scan over layers stacked along the leading axis: the result has the batch shape of the
    layers, and each element is the scattering matrix of the stack for that element. *)
Theorem C05_scan_batched n (rs : seq (batched_result n)) (r : batched_result n) (thicknesses : nd R) (B : seq nat) :
  (0 < n)%N -> (0 < size rs)%N -> stacked rs r -> nonempty_axes (shapes_of r) -> consistent_result (shapes_of r) ->
  List.Forall (fun l => batched_layer l B /\ batch_shape l = B) rs -> nshape thicknesses = [:: size rs] ->
  exists s, [/\ stack_s_matrix_scan_b r thicknesses = Val s, batched_scattering s B,
    [/\ nshape (bs11 s) = B, nshape (bs12 s) = B, nshape (bs21 s) = B & nshape (bs22 s) = B] &
    forall b layers1, List.Forall2 (fun l l1 => layer_element l b l1) rs layers1 ->
      s_matrix_element s b (stack_s_matrix layers1 [seq nget thicknesses [:: k] | k <- iota 0 (size rs)])].
Proof.
move=> n0 rs0 st ne co hl ht.
have hlB : List.Forall (fun l => batched_layer l B) rs by elim: (rs) hl => // x xs IH /List.Forall_cons_iff [[a _] b]; apply/List.Forall_cons_iff; split; [|exact: IH].
pose r0 := head r rs.
have w0 : batched_layer (nth r0 rs 0) B := wl0 r0 rs0 hlB.
have bs0 : batch_shape (nth r0 rs 0) = B.
  have h : List.Forall (fun l => batch_shape l = B) rs.
    by elim: (rs) hl => // x xs IH /List.Forall_cons_iff [[_ a] b]; apply/List.Forall_cons_iff; split; [|exact: IH].
  exact: (nthF r0 (P := fun l => batch_shape l = B) h rs0).
have shr := shapes_r r0 rs0 st.
have ev := ev2 r0 rs0 hlB.
have ok : post_init (shapes_of r) = Val tt.
  apply/(C29_layer_solve_result _ _ ne).1 => //.
  by rewrite shr /=; apply: leq_trans ev _.
have evr : nshape (b_eigenvectors r) = (size rs :: B) ++ [:: n + n; n + n].
  have -> : nshape (b_eigenvectors r) = sh_eigenvectors (shapes_of r) by [].
  rewrite shr [LHS]/= /batch_shape; case: w0 bs0 => _ _ _ [_ [s es _]] _; rewrite /batch_shape es butlast2 => ->.
  by rewrite cat_cons.
have evl : nshape (b_eigenvalues r) = size rs :: (B ++ [:: n + n]).
  case: co => batch [m [[e1 e2] _]]; move: e1 e2; rewrite [sh_eigenvectors _]evr [sh_eigenvalues _]/= => e1 ->.
  have : size (size rs :: B) = size batch by have := congr1 size e1; rewrite !size_cat !addn2 => -[].
  by move: e1 => /eqP + es; rewrite eqseq_cat // => /andP [/eqP <- /eqP [<- _]].
have bsr : batch_shape r = size rs :: B by rewrite /batch_shape evr butlast2.
rewrite /stack_s_matrix_scan_b /ndim ht eqxx; cbn [check].
rewrite bsr; cbn [size ltn leq check head]; rewrite eqxx; cbn [check]; rewrite rs0; cbn [check].
rewrite (slice_ok r0 rs0 st ok hlB 0); cbn [bind].
rewrite evl; cbn [behead]; rewrite butlast1.
set s0 := BSMat _ _ _ _ _ _ _ _.
have bB := bcto_refl B.
have wl0 k : batched_layer (slice_result k r) B := slice_layer r0 rs0 st hlB k.
have wt k : batched_thickness (slice k thicknesses) B := slice_thickness B ht k.
have sh0 : s_shaped s0 B by rewrite /s0; split; cbn [bs_start bs_end bs_start_thickness bs_end_thickness]; [split; exact: bB|split; exact: wl0|split; exact: wt].
have ex0 : exact (bblocks s0) B by split.
rewrite (rest_ok r0 rs0 st ok hlB); cbn [bind]; rewrite (rest_leading r0 rs0 st); cbn [check].
have [tr [-> _ _ _]] := step_b r0 n0 rs0 st ok hlB ht 0 sh0 ex0; cbn [bind].
have [s' [h1 h2 h3 h4]] := scan_ok r0 n0 rs0 st ok hlB ht (m := (size rs).-1) (i := 0) erefl sh0 ex0.
exists s'; split=> //; first exact/shapedE.
move=> b ls1 hf; apply/elementE.
have sz := forall2_size hf.
case: ls1 hf sz => [|l1 ls1] hf sz; first by move: rs0; rewrite sz.
have el k : k < size rs -> layer_element (nth r0 rs k) b (nth l1 (l1 :: ls1) k) := forall2_nth r0 l1 hf (k := k).
have R0 : s_rel s0 b l1 (nget thicknesses [:: 0]) (Val (identity_s_matrix l1 (nget thicknesses [:: 0]))).
  split=> //.
  - by rewrite [bs_end _]/= (sliceE r0 st rs0); exact: (el 0).
  - by rewrite -[bs_end_thickness s0]/(slice 0 thicknesses) /bget /slice; cbn [nshape nget]; rewrite ht.
  - by move=> v [<-].
have es : size ls1 = (size rs).-1 by rewrite sz.
have [|le [te [_ + _ _ _]]] := h4 b l1 _ _ ls1 R0 es.
  by move=> k hk; apply: (el k.+1); rewrite -(ltn_predK rs0) ltnS.
cbn [bind]; rewrite -scan_stack /stack_s_matrix_scan size_map size_iota sz eqxx; cbn [check].
rewrite [size (l1 :: ls1)]/=; cbn [iota map zip].
by rewrite -[1]addn0 iotaDl -map_comp.
Qed.

(** ** Uniform layers *)
Lemma vector_atleast u m : one_lattice u -> (ndim u).-1 <= m -> the_vector (atleast_nd u m.+1) = the_vector u.
Proof.
move=> h hm; have nu : ndim u = (ndim u).-1.+1 by rewrite /ndim -{1}h size_cat size_nseq addn1.
rewrite /the_vector /ndim; have -> : (size (nshape (atleast_nd u m.+1))).-1 = m.
  by rewrite [nshape _]/= /atleast_nd_shape -/(ndim u) size_cat size_nseq -/(ndim u) subnK // nu ltnS.
have e c : nget (atleast_nd u m.+1) (nseq m 0 ++ [:: c]) = nget u (nseq (ndim u).-1 0 ++ [:: c]).
  rewrite /atleast_nd; cbn [nget]; congr (nget u _); rewrite {1}nu subSS -{2}(subnK hm) nseqD -catA drop_size_cat ?size_nseq //.
by rewrite !e.
Qed.
Lemma layer_trans n (r : batched_result n) A B : batched_layer r A -> bcto A B -> batched_layer r B.
Proof.
move=> [h1 h2 h3 [h4 h5] [h6 h7]] c.
have t T (x : nd T) l : shaped x l A -> shaped x l B by case=> s es h; exists s => //; exact: bcto_trans h c.
by split=> //; [exact: t|exact: t|split; exact: t|split; exact: t].
Qed.
Lemma valid_bindex A B b : bcto A B -> valid_index B b -> valid_index A (bindex A b).
Proof.
move=> [hs h] hv; rewrite /valid_index size_bindex eqxx /=.
apply/(all_nthP (0, 0)) => i; rewrite size_zip size_bindex minnn => hi.
rewrite nth_zip ?size_bindex //=.
have hj : size A - i.+1 < size A by natlia.
have e1 : nth 0 (bindex A b) i = nth 0 (rev (bindex A b)) (size A - i.+1).
  by rewrite nth_rev size_bindex // -subSn // subSS subKn // ltnW.
have e2 : nth 0 A i = ax A (size A - i.+1).
  by rewrite /ax nth_rev // -subSn // subSS subKn ?(ltnW hi) //; apply: set_nth_default.
rewrite e1 e2 nth_bindex; case: eqP => [->|ne] //.
case: (h (size A - i.+1)) => [//|->]; apply: valid_nth => //; exact: leq_trans hj hs.
Qed.
Section Uniform.
Variables (n : nat) (wl k u v : nd R) (eps : nd C) (e : n.-tuple (Z * Z)) (kb B : seq nat).
Hypotheses (n0 : 0 < n) (ek : nshape k = kb ++ [:: 2]) (hu : one_lattice u) (hv : one_lattice v).
Hypothesis hB : uniform_batch wl kb u v eps B.
Lemma uniform_layer : exists r, [/\ eigensolve_uniform_isotropic_media_b wl k u v eps e = Val r, batched_layer r B &
  forall b jw jk e1 r1, valid_index B b -> selects (nshape wl) b jw -> selects kb b jk -> array_element eps (b ++ [:: 0; 0]) e1 ->
    eigensolve_uniform_isotropic_media (nget wl jw) (nget k (jk ++ [:: 0]), nget k (jk ++ [:: 1]))
        (Lattice (the_vector u) (the_vector v)) e1 e = Val r1 ->
    layer_element r b r1].
Proof.
case: hB => pb [A [ep hA zA cA]].
have [r [h1 h2 [[W [K [cW cK sK sh]]] [ru rv re _]] h3]] := batched_solve e n0 ek ep hu hv hA zA.
exists r; split=> //.
- apply: layer_trans cA; move: sh; rewrite /shapes_of => -[s1 s2 s3 s4 s5 s6 s7 _ _ _ s11].
  have nn : 2 * n = n + n by rewrite mul2n addnn.
  split.
  + by exists W; rewrite ?cats0.
  + by exists K; rewrite // s2 cats1.
  + by rewrite /one_lattice /ndim s2 s3 s4 !size_rcons size_nseq sK cats1.
  + by split; exists A; [by rewrite s5 nn|exact: bcto_refl|by rewrite s6 nn|exact: bcto_refl].
  + by split; exists A; [by rewrite s7|exact: bcto_refl|by rewrite s11 nn|exact: bcto_refl].
move=> b jw jk e1 r1 hb /selectsE -> /selectsE -> /array_elementE ee hr.
have hbA := valid_bindex cA hb.
have cs s : s \in [:: nshape wl; kb; nseq (ndim u).-1 1; nseq (ndim v).-1 1; pb] -> bcto s A by case: hA => h _ _ /h.
have T s : bcto s A -> bindex s (bindex A b) = bindex s b := bindexT b.
have cw : bcto (nshape wl) A by apply: cs; rewrite !inE eqxx.
have ck : bcto kb A by apply: cs; rewrite !inE eqxx ?orbT.
have cp : bcto pb A by apply: cs; rewrite !inE eqxx ?orbT.
have ee1 : nget eps (bindex pb b ++ [:: 0; 0]) = e1 by move: ee; rewrite /bget ep bindex_cat2.
have := h3 (bindex A b) hbA r1; rewrite !T // ee1 => /(_ hr) [[g1 [g2 g3]] g4 g5 g6 g7].
have cu : (ndim u).-1 <= size A by have [] : bcto (nseq (ndim u).-1 1) A by [apply: cs; rewrite !inE eqxx ?orbT]; rewrite size_nseq.
have cv : (ndim v).-1 <= size A by have [] : bcto (nseq (ndim v).-1 1) A by [apply: cs; rewrite !inE eqxx ?orbT]; rewrite size_nseq.
have nn : 2 * n = n + n by rewrite mul2n addnn.
move: sh; rewrite /shapes_of => -[s1 s2 s3 s4 s5 s6 s7 _ _ _ s11].
have [l1 l2] : primitive_lattice_vectors r1 = Lattice (the_vector u) (the_vector v) /\ expansion r1 = e.
  move: hr; rewrite /eigensolve_uniform_isotropic_media.
  by move=> H; bv H a ha; bv H b' hb'; bv H c hc; case: H => <-.
split.
- split; apply/array_elementE.
  + by have := g1 _ (selects_bindex _ _); rewrite s1 T // -[in X in nget _ X]s1.
  + have := g2 _ (selects_bindex _ _); rewrite s2 -!cats1; rewrite !cats1 bindex_rcons -cats1 T // /bget s2 cats1 bindex_rcons; exact.
  + have := g3 _ (selects_bindex _ _); rewrite s2 -!cats1; rewrite !cats1 bindex_rcons -cats1 T // /bget s2 cats1 bindex_rcons; exact.
- by rewrite l1 l2 ru rv re !vector_atleast.
- split=> i; [|move=> j]; apply/array_elementE; rewrite /bget.
  + by rewrite s5 bindex_cat1 // nn.
  + by rewrite s6 bindex_cat2 // nn.
- split=> i j; apply/array_elementE; rewrite /bget.
  + by rewrite s7 bindex_cat2 //; case: (g6 i j).
  + by rewrite s11 bindex_cat2 // nn.
Qed.
End Uniform.

(** The scattering matrix of a stack of uniform layers, computed for all wavelengths, in-plane
    wavevectors, permittivities and thicknesses of a batch at once. *)
Theorem C52_uniform_stack n (wl k u v : nd R) (permittivities : seq (nd C)) (thicknesses : seq (nd R)) (e : n.-tuple (Z * Z))
    (kb B : seq nat) :
  (0 < n)%N -> nshape k = kb ++ [:: 2] -> one_lattice u -> one_lattice v ->
  (0 < size permittivities)%N -> size permittivities = size thicknesses ->
  List.Forall (fun eps => uniform_batch wl kb u v eps B) permittivities ->
  List.Forall (fun t => batched_thickness t B) thicknesses ->
  exists layers s, [/\ mapM (fun eps => eigensolve_uniform_isotropic_media_b wl k u v eps e) permittivities = Val layers,
    stack_s_matrix_b layers thicknesses = Val s, batched_scattering s B &
    forall b jw jk permittivities1 thicknesses1 layers1, valid_index B b -> selects (nshape wl) b jw -> selects kb b jk ->
      List.Forall2 (fun eps e1 => array_element eps (b ++ [:: 0; 0]) e1) permittivities permittivities1 ->
      List.Forall2 (fun t t1 => thickness_element t b t1) thicknesses thicknesses1 ->
      mapM (fun e1 => eigensolve_uniform_isotropic_media (nget wl jw) (nget k (jk ++ [:: 0]), nget k (jk ++ [:: 1]))
                        (Lattice (the_vector u) (the_vector v)) e1 e) permittivities1 = Val layers1 ->
      s_matrix_element s b (stack_s_matrix layers1 thicknesses1)].
Proof.
move=> n0 ek hu hv p0 es hp ht.
have [ls [h1 h2 h3 h4]] : exists ls, [/\ mapM (fun eps => eigensolve_uniform_isotropic_media_b wl k u v eps e) permittivities = Val ls,
   size ls = size permittivities, List.Forall (fun l => batched_layer l B) ls &
   forall b jw jk ps1 ls1, valid_index B b -> selects (nshape wl) b jw -> selects kb b jk ->
      List.Forall2 (fun eps e1 => array_element eps (b ++ [:: 0; 0]) e1) permittivities ps1 ->
      mapM (fun e1 => eigensolve_uniform_isotropic_media (nget wl jw) (nget k (jk ++ [:: 0]), nget k (jk ++ [:: 1]))
                        (Lattice (the_vector u) (the_vector v)) e1 e) ps1 = Val ls1 ->
      List.Forall2 (fun l l1 => layer_element l b l1) ls ls1].
  elim: (permittivities) hp => [|p ps IH].
    exists [::]; split=> // b jw jk ps1 ls1 _ _ _ h; inversion h; case=> <-; exact: List.Forall2_nil.
  case/List.Forall_cons_iff=> hp1 /IH [ls [h1 h2 h3 h4]]; have [r [g1 g2 g3]] := uniform_layer e n0 ek hu hv hp1.
  exists (r :: ls); split.
  - by rewrite /= g1; cbn [bind]; rewrite h1.
  - by rewrite /= h2.
  - by apply/List.Forall_cons_iff.
  move=> b jw jk [|q qs] ls1 vb sw sk hf; first by inversion hf.
  have [f1 f2] : array_element p (b ++ [:: 0; 0]) q /\ List.Forall2 (fun eps e1 => array_element eps (b ++ [:: 0; 0]) e1) ps qs by inversion hf.
  cbn [mapM] => H; bv H x hx; bv H xs hxs; case: H => <-.
  by apply: List.Forall2_cons; [exact: g3 hx|exact: h4 hxs].
have d : batched_result n by case: (ls) h2 => [h|x xs _]; [exfalso; move: p0; rewrite -h|exact: x].
have l0 : 0 < size ls by rewrite h2.
have el : size ls = size thicknesses by rewrite h2.
have [s [q1 q2 _ q3]] := C52_stack d n0 l0 el h3 ht.
exists ls, s; split=> // b jw jk ps1 ts1 ls1 vb sw sk hf hf' hm; apply: q3; split=> //; exact: h4 hm.
Qed.

(** ** Batched eigensolves and the scan *)
Lemma post_init_cases s : post_init s = Val tt \/ post_init s = Exn ValueError.
Proof.
rewrite /post_init /reject /incompatible; cbn [batch_compatible_shapes bind].
by do ![rewrite /check; case: ifP => _; last by right]; left.
Qed.
Lemma post_init_u s : post_init s = Val tt -> incompatible (sh_u s) (rcons (butlast 2 (sh_eigenvectors s)) 2) = Val false.
Proof.
rewrite /post_init /reject => H; bv H a ha; case: (checkV H) => _ {}H; bv H b hb; case: (checkV H) => _ {}H; bv H c hc.
by case: (checkV H) => /negbTE <-.
Qed.
Lemma incompatible0 s m t : incompatible (0 :: s) (m.+1 :: t) = Val true.
Proof.
rewrite /incompatible /batch_compatible_shapes; cbn [bind size]; rewrite eqSS; congr Val.
case: (size s =P size t) => [es|] //=; rewrite /max_shape /pad_shape /= es !maxn0 !maxnn subnn; cbn [nseq cat iota map zip all nth fst snd].
by rewrite maxn0 max0n /=.
Qed.
(** The layers of a stack solved in one batch, with one lattice: the lattice vectors in the solve
    result keep an axis of size 1, which the scan cannot iterate over. *)
Theorem C05_batched_eigensolve_refuted n (wl k u v : nd R) (eps : nd C) (e : n.-tuple (Z * Z)) (kb pb : seq nat) (N : nat) (B : seq nat)
    (thicknesses : nd R) :
  (0 < n)%N -> nshape k = kb ++ [:: 2] -> nshape eps = pb ++ [:: 1; 1] -> one_lattice u -> one_lattice v ->
  joint_batch [:: nshape wl; kb; nseq (ndim u).-1 1; nseq (ndim v).-1 1; pb] (N :: B) -> 0 \notin N :: B ->
  (2 <= N)%N -> nshape thicknesses = [:: N] ->
  exists2 r, eigensolve_uniform_isotropic_media_b wl k u v eps e = Val r &
    stack_s_matrix_scan_b r thicknesses = Exn ValueError.
Proof.
move=> n0 ek ep hu hv hB zB N2 ht.
have [r [h1 h2 [[W [K [cW cK sK sh]]] _] _]] := batched_solve e n0 ek ep hu hv hB zB.
exists r => //; rewrite /stack_s_matrix_scan_b /ndim ht eqxx; cbn [check]; rewrite h2; cbn [size ltn leq check head].
rewrite eqxx; cbn [check]; rewrite (ltnW N2); cbn [check].
rewrite {1}/result_map; set sl := BatchedResult _ _ _ _ _ _ _ _ _ _ _ _ _; case: (post_init_cases (shapes_of sl)) => -> //; cbn [bind].
set s0 := BSMat _ _ _ _ _ _ _ _; rewrite /result_map; set xs := BatchedResult _ _ _ _ _ _ _ _ _ _ _ _ _.
case: (post_init_cases (shapes_of xs)) => [h|-> //].
have := post_init_u h; rewrite [sh_u _]/= /xs; cbn [shapes_of sh_eigenvectors b_eigenvectors].
move=> contra; exfalso; move: contra; rewrite /rest; cbn [nshape]; case: sh => _ _ -> _ _ -> _ _ _ _ _.
cbn [size nseq rcons head behead cat predn]; rewrite -cat_cons butlast2 rcons_cons.
by case: N N2 {zB hB h1 h2 cW cK sK ht xs h s0 sl} => [|[|N]] // _; cbn [predn]; rewrite incompatible0.
Qed.

(** ** Arrays of thicknesses *)
(** One layer thickness per element of a batch, without a trailing axis: rejected, unless the
    batch has size 1 or the number of modes. *)
Theorem C52_thickness_axis n (l l' : batched_result n) (t t' : nd R) m : (0 < n)%N ->
  batched_layer l [::] -> batched_layer l' [::] -> nshape t = [::] -> nshape t' = [:: m] -> m <> 1 ->
  (m <> n + n -> stack_s_matrix_b [:: l; l'] [:: t; t'] = Exn ValueError).
Proof.
move=> n0 hl hl' st st' m1 mn.
have ht : batched_thickness t [::] by left.
rewrite /stack_s_matrix_b /stack_s_matrices_b; cbn [size]; rewrite eqxx; cbn [check zip].
have [s0 [-> _ _ _]] := identity_b n0 hl ht; cbn [bind].
have [i11 [i12 [hi _ _ _]]] := interface_b n0 hl hl'.
have [q [hq cq _]] := values_b hl; have [q' [hq' cq' _]] := values_b hl'.
have [f [hf _ _]] := phase_ok cq (thickness_bcto ht).
rewrite /pair_s_matrix_b hi; cbn [bind]; rewrite hq hq'; cbn [bind]; rewrite hf; cbn [bind].
have sq : nshape q' = [::] by case: cq' => + _; case: (nshape q').
have -> : phase_b q' t' = Exn ValueError; last by [].
have b1 : (n + n == 1) = false by apply/eqP; natlia.
have b2 : (m == 1) = false by apply/eqP.
have b3 : (n + n == m) = false by apply/eqP => /esym.
by rewrite /phase_b sq st' /broadcast_shapes /= /ax /= b1 b2 b3.
Qed.
(** If the batch has the size of the number of modes, each mode has its own thickness, and the
    result is one scattering matrix. *)
Theorem C52_thickness_modes_refuted n (l l' : batched_result n) (t t' : nd R) : (0 < n)%N ->
  batched_layer l [::] -> batched_layer l' [::] -> nshape t = [::] -> nshape t' = [:: n + n] ->
  exists2 s, stack_s_matrix_b [:: l; l'] [:: t; t'] = Val s &
    [/\ nshape (bs11 s) = [::], nshape (bs12 s) = [::], nshape (bs21 s) = [::] & nshape (bs22 s) = [::]].
Proof.
move=> n0 hl hl' st st'.
have ht : batched_thickness t [::] by left.
rewrite /stack_s_matrix_b /stack_s_matrices_b; cbn [size]; rewrite eqxx; cbn [check zip].
have [s0 [-> _ _ _]] := identity_b n0 hl ht; cbn [bind].
have [i11 [i12 [hi ci11 ci12 _]]] := interface_b n0 hl hl'.
have [q [hq cq _]] := values_b hl; have [q' [hq' cq' _]] := values_b hl'.
have [f [hf cf _]] := phase_ok cq (thickness_bcto ht).
rewrite /pair_s_matrix_b hi; cbn [bind]; rewrite hq hq'; cbn [bind]; rewrite hf; cbn [bind].
have [f' hf' cf'] : exists2 f', phase_b q' t' = Val f' & bcto (nshape f') [::].
  have sq : nshape q' = [::] by case: cq' => + _; case: (nshape q').
  rewrite /phase_b sq st' /broadcast_shapes /= /ax /= eqxx !orbT /= /bdim if_same /= eqxx; cbn [check].
  by eexists; [reflexivity|split=> // i; left; rewrite ax_out].
rewrite hf'; cbn [bind]; rewrite /bmul /bcol /bsolve /brow /badd /bsub /pmap2 /bmap2; cbv zeta.
set fd := atleast_nd _ _.
have cfd : bcto (nshape fd) [::] by apply: atleast_bcto => //; case: ci11.
set m12 := bmap _ i12; have cm12 : bcto (nshape m12) [::] by [].
nm n11 h1 d1 g1; nm y h2 d2 g2; nm n12 h3 d3 g3; nm n21 h4 d4 g4; nm v h5 d5 g5; nm w h6 d6 g6; nm n22 h7 d7 g7.
cbn [append_layers_b bind last]; eexists; first by reflexivity.
have nil s : bcto s [::] -> s = [::] by case=> + _; case: s.
by split; cbn [bs11 bs12 bs21 bs22]; apply: nil.
Qed.

(** ** A batch of stacks: three wavelengths, two permittivities of the second layer *)
Section Example52.
Let wl := Nd [:: 3; 1] (fun idx => INR (head 0 idx).+1).
Let k := Nd [:: 2] (fun idx => 0%coqR).
Let u := Nd [:: 2] (fun idx => if head 0 idx == 0 then 1%coqR else 0%coqR).
Let v := Nd [:: 2] (fun idx => if head 0 idx == 0 then 0%coqR else 1%coqR).
Let eps : nd C := Nd [:: 2; 1; 1] (fun idx => RtoC (INR (head 0 idx).+1)).
Let eps0 : nd C := Nd [:: 1; 1] (fun idx => RtoC 1).
Let t : nd R := Nd [:: 2; 1] (fun idx => INR (head 0 idx)).
Let t0 : nd R := Nd [::] (fun=> 0%coqR).
Let e : 1.-tuple (Z * Z) := [tuple (0, 0)%coqZ].
Lemma ex52_solve (w : R) (x : C) : w <> 0%coqR -> x <> 0%R ->
  exists r1, eigensolve_uniform_isotropic_media w (0, 0)%coqR (Lattice (1, 0)%coqR (0, 1)%coqR) x e = Val r1.
Proof.
move=> w0 x0.
have c1 : cross_product (1, 0)%coqR (0, 1)%coqR = 1%coqR by rewrite /cross_product /=; ring.
have rec (y : R) : y <> 0%coqR -> recipR y = Val (y^-1)%R by move=> h; rewrite /recipR; have -> : (y != 0)%R by apply/eqP.
have recc (y : C) : y <> 0%R -> recipC y = Val (y^-1)%R by move=> h; rewrite /recipC; have -> : (y != 0)%R by apply/eqP.
rewrite /eigensolve_uniform_isotropic_media /M_basis.transverse_wavevectors /reciprocal [lat_u _]/= [lat_v _]/= c1.
rewrite (rec 1%coqR); last exact: R1_neq_R0.
cbn [bind]; rewrite /angular_frequency (rec w) //; cbn [bind]; rewrite (recc x) //.
by cbn [bind]; eexists.
Qed.
Lemma ex52_batch : List.Forall (fun eps => uniform_batch wl [::] u v eps [:: 3; 2]) [:: eps0; eps].
Proof.
have J (pb B : seq nat) : (pb = [::] /\ B = [:: 3; 1]) \/ (pb = [:: 2] /\ B = [:: 3; 2]) ->
    joint_batch [:: nshape wl; [::]; nseq (ndim u).-1 1; nseq (ndim v).-1 1; pb] B.
  move=> h; split.
  - move=> s; rewrite !inE => hs; have hs' : s = [:: 3; 1] \/ s = [::] \/ s = pb.
      by case/orP: hs => [/eqP ->|hs]; [left|right; case/orP: hs => [/eqP ->|hs]; [left|case/orP: hs => [/eqP ->|hs]; [left|case/orP: hs => [/eqP ->|/eqP ->]; [left|right]]]].
    by case: h hs' => [[-> ->]|[-> ->]] [->|[->|->]]; split=> //; case=> [|[|[|i]]] //; first [by left|by right].
  - by exists [:: 3; 1]; [rewrite inE eqxx|case: h => -[_ ->]].
  - case: h => -[-> ->]; case=> [|[|i]].
    + by exists [:: 3; 1]; rewrite ?inE ?eqxx ?orbT.
    + by exists [:: 3; 1]; rewrite ?inE ?eqxx ?orbT.
    + by exists [:: 3; 1]; rewrite ?inE ?eqxx ?orbT.
    + by exists [:: 2]; rewrite ?inE ?eqxx ?orbT.
    + by exists [:: 3; 1]; rewrite ?inE ?eqxx ?orbT.
    + by exists [:: 2]; rewrite ?inE ?eqxx ?orbT // /axis_size !nth_default.
apply/List.Forall_cons_iff; split; last apply/List.Forall_cons_iff; last split; last by [].
- exists [::], [:: 3; 1]; split=> //; first by apply: J; left.
  by split=> //; case=> [|[|[|i]]] //; first [by left|by right].
- exists [:: 2], [:: 3; 2]; split=> //; first by apply: J; right.
  by split=> // i; right.
Qed.
(** The element for the third wavelength, 3, the second permittivity, 2, and the second
    thickness, 1. *)
Example ex_C52 : exists layers s,
  [/\ mapM (fun eps => eigensolve_uniform_isotropic_media_b wl k u v eps e) [:: eps0; eps] = Val layers,
      stack_s_matrix_b layers [:: t0; t] = Val s &
      exists2 layers1, mapM (fun x => eigensolve_uniform_isotropic_media 3 (0, 0)%coqR (Lattice (1, 0)%coqR (0, 1)%coqR) x e)
          [:: RtoC 1; RtoC 2] = Val layers1 &
        s_matrix_element s [:: 2; 1] (stack_s_matrix layers1 [:: 0; 1]%coqR)].
Proof.
have ht : List.Forall (fun t => batched_thickness t [:: 3; 2]) [:: t0; t].
  apply/List.Forall_cons_iff; split; first by left.
  apply/List.Forall_cons_iff; split=> //; right; exists [:: 2] => //; split=> // -[|[|i]] //; first [by left|by right].
have [ls [s [h1 h2 _ h3]]] := @C52_uniform_stack 1 wl k u v [:: eps0; eps] [:: t0; t] e [::] [:: 3; 2] isT erefl erefl erefl isT erefl ex52_batch ht.
exists ls, s; split; [exact: h1|exact: h2|].
have c3 : 3%coqR <> 0%coqR by Lra.lra.
have nz (x : R) : x <> 0%coqR -> RtoC x <> 0%R by move=> h h'; have := f_equal re h'; rewrite -[re 0%R]/(0%coqR) -[re _]/x.
have [l1 e1] := ex52_solve c3 (nz 1%coqR R1_neq_R0).
have c2 : 2%coqR <> 0%coqR by Lra.lra.
have [l2 e2] := ex52_solve c3 (nz 2%coqR c2).
exists [:: l1; l2]; first by cbn [mapM]; rewrite e1; cbn [bind]; rewrite e2.
apply: (h3 [:: 2; 1] [:: 2; 0] [::] [:: RtoC 1; RtoC 2] _ _ isT).
- by split; [|case=> [|[|]]].
- by split.
- apply: List.Forall2_cons; last apply: List.Forall2_cons; last by apply: List.Forall2_nil.
  + by move=> j _.
  + move=> j /selectsE ->; rewrite -[LHS]/(RtoC (INR 2)) INR_IZR_INZ; by [].
- apply: List.Forall2_cons; last apply: List.Forall2_cons; last by apply: List.Forall2_nil.
  + by move=> j _.
  + by move=> j /selectsE ->.
- have w3 : nget wl [:: 2; 0] = 3%coqR by rewrite -[LHS]/(INR 3) INR_IZR_INZ.
  by cbn [mapM]; rewrite w3 -[nget k _]/(0%coqR) -[nget k _]/(0%coqR) -[the_vector u]/(1, 0)%coqR -[the_vector v]/(0, 1)%coqR e1; cbn [bind]; rewrite e2.
Qed.
End Example52.

(** Two layers, solved one by one and stacked: the scan returns their scattering matrix. *)
Section Example05.
Let wl : nd R := Nd [::] (fun=> 3%coqR).
Let k := Nd [:: 2] (fun idx => 0%coqR).
Let u := Nd [:: 2] (fun idx => if head 0 idx == 0 then 1%coqR else 0%coqR).
Let v := Nd [:: 2] (fun idx => if head 0 idx == 0 then 0%coqR else 1%coqR).
Let eps (x : R) : nd C := Nd [:: 1; 1] (fun idx => RtoC x).
Let e : 1.-tuple (Z * Z) := [tuple (0, 0)%coqZ].
Let st T (x y : nd T) : nd T := Nd (2 :: nshape x) (fun idx => nget (if head 0 idx == 0 then x else y) (behead idx)).
Let joint : joint_batch [:: nshape wl; [::]; nseq (ndim u).-1 1; nseq (ndim v).-1 1; [::]] [::].
Proof.
split.
- by move=> s; rewrite !inE !orbb => /eqP ->; split=> // i; left; rewrite /axis_size nth_default.
- by exists [::]; rewrite ?inE.
- by move=> i; exists [::]; rewrite ?inE.
Qed.
Lemma stack2_of T (x y : nd T) : nshape x = nshape y -> stack_of [:: x; y] (st x y).
Proof. by move=> h [|[|k']] z // _ -> /=; split=> //; rewrite h. Qed.
Lemma bc s s' : s = s' -> consistent s s'.
Proof. by move=> <-; split=> // a b i; rewrite !inE !orbb => /eqP -> /eqP ->; right; right. Qed.
Lemma ex05_consistent : consistent_result (SolveShapes [:: 2] [:: 2; 2] [:: 2; 2] [:: 2; 2] 1 [:: 2; 2] [:: 2; 2; 2]
  [:: 2; 1; 1] [:: 2; 1; 1] [:: 2; 1; 1] [:: 2; 1; 1] [:: 2; 2; 2] None).
Proof.
have c x : consistent x x := bc (erefl x); exists [:: 2], 2.
split; [by split|split; [by split; [|split; [|split]]|split; [by split; [|split; [|split; [|split]]]|by []]]].
Qed.
Example ex_C05_scan (t : nd R) : nshape t = [:: 2] -> exists r1 r2 r s,
  [/\ eigensolve_uniform_isotropic_media_b wl k u v (eps 1) e = Val r1,
      eigensolve_uniform_isotropic_media_b wl k u v (eps 2) e = Val r2,
      stacked [:: r1; r2] r, stack_s_matrix_scan_b r t = Val s &
      exists2 layers1, mapM (fun x => eigensolve_uniform_isotropic_media 3 (0, 0)%coqR (Lattice (1, 0)%coqR (0, 1)%coqR) x e)
          [:: RtoC 1; RtoC 2] = Val layers1 &
        s_matrix_element s [::] (stack_s_matrix layers1 [:: nget t [:: 0]; nget t [:: 1]])].
Proof.
move=> ht.
have hu : uniform_batch wl [::] u v (eps 1) [::] by exists [::], [::]; split=> //; split=> // i; right.
have hu' : uniform_batch wl [::] u v (eps 2) [::] by exists [::], [::]; split=> //; split=> // i; right.
have [r1 [a1 a2 a3]] := @uniform_layer 1 wl k u v (eps 1) e [::] [::] isT erefl erefl erefl hu.
have [r2 [b1 b2 b3]] := @uniform_layer 1 wl k u v (eps 2) e [::] [::] isT erefl erefl erefl hu'.
have [r1' [c1 c2 [[W [K [cW cK sK sh]]] [_ _ re _]] _]] := @batched_solve 1 wl k u v (eps 1) e [::] [::] [::] isT erefl erefl erefl erefl joint isT.
have [r2' [d1 d2 [[W' [K' [cW' cK' sK' sh']]] [_ _ re' _]] _]] := @batched_solve 1 wl k u v (eps 2) e [::] [::] [::] isT erefl erefl erefl erefl joint isT.
have e1 : r1' = r1 by apply: Val_inj; rewrite -c1 -a1.
have e2 : r2' = r2 by apply: Val_inj; rewrite -d1 -b1.
subst r1' r2'.
have nil s : bcto s [::] -> s = [::] by case=> + _; case: s.
rewrite (nil _ cW) (nil _ cK) in sh; rewrite (nil _ cW') (nil _ cK') in sh'.
pose r := BatchedResult (st (b_wavelength r1) (b_wavelength r2)) (st (b_in_plane_wavevector r1) (b_in_plane_wavevector r2))
  (st (b_u r1) (b_u r2)) (st (b_v r1) (b_v r2)) (b_expansion r1) (st (b_eigenvalues r1) (b_eigenvalues r2))
  (st (b_eigenvectors r1) (b_eigenvectors r2)) (st (b_z_permittivity_matrix r1) (b_z_permittivity_matrix r2))
  (st (b_inverse_z_permittivity_matrix r1) (b_inverse_z_permittivity_matrix r2))
  (st (b_z_permeability_matrix r1) (b_z_permeability_matrix r2))
  (st (b_inverse_z_permeability_matrix r1) (b_inverse_z_permeability_matrix r2))
  (st (b_transverse_permeability_matrix r1) (b_transverse_permeability_matrix r2)) None.
have nt s0 (x : batched_result 1) : shapes_of x = s0 -> sh_tangent s0 = None -> b_tangent x = None.
  by move=> <-; cbn [sh_tangent shapes_of]; case: (b_tangent x).
have t1 : b_tangent r1 = None by exact: (nt _ _ sh).
have t2 : b_tangent r2 = None by exact: (nt _ _ sh').
have sr : shapes_of r = cons_shapes 2 (shapes_of r1) by rewrite /shapes_of t1.
have hs : stacked [:: r1; r2] r.
  move: sh sh'; rewrite /shapes_of => -[x1 x2 x3 x4 x5 x6 x7 x8 x9 x10 x11 _] [y1 y2 y3 y4 y5 y6 y7 y8 y9 y10 y11 _].
  split.
  - split; [|  |split|split|split]; apply: stack2_of.
    by rewrite x1 y1. by rewrite x2 y2. by rewrite x3 y3. by rewrite x4 y4. by rewrite x5 y5. by rewrite x6 y6.
    by rewrite x7 y7. by rewrite x8 y8. by rewrite x9 y9. by rewrite x10 y10. by rewrite x11 y11.
  - by move=> x [<-|[<-|[]]].
  - move=> x [<-|[<-|[]]]; [reflexivity|exact: (etrans re' (esym re))].
have ne : nonempty_axes (shapes_of r) by rewrite sr sh; move=> s; rewrite !inE; do 9?[case/orP=> [/eqP -> //|]]; move=> /eqP ->.
have co : consistent_result (shapes_of r).
  by rewrite sr sh; exact: ex05_consistent.
have bl : List.Forall (fun l => batched_layer l [::] /\ batch_shape l = [::]) [:: r1; r2].
  apply/List.Forall_cons_iff; split; first (split; [exact: a2|exact: c2]).
  apply/List.Forall_cons_iff; split; [split; [exact: b2|exact: d2]|exact: List.Forall_nil].
have [s [s1 _ _ s4]] := @C05_scan_batched 1 [:: r1; r2] r t [::] isT isT hs ne co bl ht.
exists r1, r2, r, s; split; [exact: a1|exact: b1|exact: hs|exact: s1|].
have c3 : 3%coqR <> 0%coqR by Lra.lra.
have nz (x : R) : x <> 0%coqR -> RtoC x <> 0%R by move=> h h'; have := f_equal CField.re h'; rewrite -[CField.re 0%R]/(0%coqR) -[CField.re _]/x.
have [l1 q1] := ex52_solve c3 (nz 1%coqR R1_neq_R0).
have c2' : 2%coqR <> 0%coqR by Lra.lra.
have [l2 q2] := ex52_solve c3 (nz 2%coqR c2').
exists [:: l1; l2]; first by cbn [mapM]; rewrite q1; cbn [bind]; rewrite q2.
apply: s4; apply: List.Forall2_cons; last apply: List.Forall2_cons; last by apply: List.Forall2_nil.
- by apply: (a3 [::] [::] [::] _ l1 isT _ _ _ q1); split.
- by apply: (b3 [::] [::] [::] _ l2 isT _ _ _ q2); split.
Qed.
(** Both layers in one eigensolve. *)
Example ex_C05_batched (t : nd R) : nshape t = [:: 2] ->
  exists2 r, eigensolve_uniform_isotropic_media_b wl k u v (Nd [:: 2; 1; 1] (fun idx => RtoC (INR (head 0 idx).+1))) e = Val r &
    stack_s_matrix_scan_b r t = Exn ValueError.
Proof.
move=> ht; apply: (@C05_batched_eigensolve_refuted 1 wl k u v _ e [::] [:: 2] 2 [::] t) => //.
split.
- move=> s; rewrite !inE !orbA !orbb => /orP [/eqP ->|/eqP ->]; split=> // -[|i] //; first [by left|by right].
- by exists [:: 2].
- by case=> [|i]; exists [:: 2].
Qed.
End Example05.

Print Assumptions C52_stack.
Print Assumptions C52_interior.
Print Assumptions C52_append.
Print Assumptions C52_redheffer.
Print Assumptions C52_set_thickness.
Print Assumptions C52_uniform_stack.
Print Assumptions C52_thickness_axis.
Print Assumptions C52_thickness_modes_refuted.
Print Assumptions C05_scan_batched.
Print Assumptions C05_batched_eigensolve_refuted.

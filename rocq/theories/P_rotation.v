(** C38, C45: the vector formulation for anisotropic media, and the uniform script-k matrix. *)
From Coq Require Import Reals ZArith Lra Lia.
From mathcomp Require Import all_ssreflect all_algebra all_fingroup.
From Verif Require Import CField Err LinAlg M_utils M_basis M_fft M_fmm_matrices S_maxwell S_fft L_scattering L_maxwell L_fft L_example P_fft L_fmm P_fmm.
Set Implicit Arguments. Unset Strict Implicit. Unset Printing Implicit Defensive.
Import GRing.Theory.
Local Open Scope ring_scope.

(** ** Specification *)

(** Multiplication of a truncated pair of Fourier series by a 2x2 matrix field, every entry by
    Laurent's rule: entry [(i, j)] of each block is the Fourier coefficient of index
    [expn i - expn j]. *)
Definition laurent2 nx ny n (expn : n.-tuple (Z * Z)) (g : grid22 nx ny) (M : 'M[C]_(n + n)) : Prop :=
  exists a b c d,
  [/\ fourier_convolution_matrix (g00 g) expn = Val a, fourier_convolution_matrix (g01 g) expn = Val b,
      fourier_convolution_matrix (g10 g) expn = Val c, fourier_convolution_matrix (g11 g) expn = Val d &
      M = block_mx a b c d].
(** The same, except that the second component is multiplied by the second diagonal entry with
    the inverse rule. *)
Definition laurent_inverse2 nx ny n (expn : n.-tuple (Z * Z)) (g : grid22 nx ny) (M : 'M[C]_(n + n)) : Prop :=
  exists a b c d e,
  [/\ fourier_convolution_matrix (g00 g) expn = Val a, fourier_convolution_matrix (g01 g) expn = Val b,
      fourier_convolution_matrix (g10 g) expn = Val c,
      fourier_convolution_matrix (map_mx (fun z : C => z^-1) (g11 g)) expn = Val d /\ d *m e = 1%:M &
      M = block_mx a b c e].
(** The frame [U], a 2x2 matrix at every point whose columns are the tangent and the normal,
    turns the tensor [A] into [B]; [V] turns back. *)
Definition in_frame nx ny (U A B V : grid22 nx ny) : Prop := forall i j,
  at22 U i j *m at22 V i j = 1%:M /\ at22 A i j = at22 U i j *m at22 B i j *m at22 V i j.

(** ** Proofs *)
Lemma rotatedP nx ny n (t00 t01 t10 t11 : 'M[C]_(nx, ny)) A (expn : n.-tuple (Z * Z)) (p : 'I_nx -> 'I_ny -> R) rot T :
  (forall i j, t00 i j * t11 i j - t10 i j * t01 i j = RtoC (p i j)) ->
  (forall i j, (/ 10 ^ 8 < p i j)%coqR) ->
  rotation_matrices t00 t01 t10 t11 expn = Val rot -> rotated_fourier_matrix A rot expn = Val T ->
  exists B V X Y Z, [/\ in_frame (Grid22 t00 t01 t10 t11) A B V,
    laurent2 expn (Grid22 t00 t01 t10 t11) X, laurent_inverse2 expn B Y, laurent2 expn V Z & T = X *m Y *m Z].
Proof.
move=> hp lp H K.
have p0 : (0 < / 10 ^ 8)%coqR by apply: Rinv_0_lt_compat; apply: pow_lt; lra.
have den i j : (if isclose0 (Cmod (t00 i j * t11 i j - t10 i j * t01 i j)) then 1%coqR else Cmod (t00 i j * t11 i j - t10 i j * t01 i j)) = p i j.
  have q := lp i j; have -> : Cmod (t00 i j * t11 i j - t10 i j * t01 i j) = p i j.
    by rewrite hp -[Cmod _]/(Complex.Cmod (Complex.RtoC (p i j))) Complex.Cmod_R Rabs_pos_eq; lra.
  by rewrite /isclose0; case: Rle_dec => // g; exfalso; move: g; rewrite Rabs_pos_eq; lra.
move: H; rewrite /rotation_matrices => H.
binv H f00 h00; binv H f01 h01; binv H f10 h10; binv H f11 h11.
binv H i00 k00; binv H i01 k01; binv H i10 k10; binv H i11 k11; case: H => e; subst rot.
move: K; rewrite /rotated_fourier_matrix; cbn [fst snd] => K.
binv K B hB; binv K a ha; binv K b hb; binv K c hc; binv K r11 hr; binv K u hu; binv K d hd; case: K => <-.
set U := Grid22 t00 t01 t10 t11; pose V := Grid22 (\matrix_(i, j) (t11 i j / RtoC (p i j))) (\matrix_(i, j) (- t01 i j / RtoC (p i j)))
  (\matrix_(i, j) (- t10 i j / RtoC (p i j))) (\matrix_(i, j) (t00 i j / RtoC (p i j))).
have UV i j : at22 U i j *m at22 V i j = 1%:M.
  have q : RtoC (p i j) != 0 by apply/eqP=> /(congr1 re) /=; rewrite /re /=; have := lp i j; rewrite ?R0E; lra.
  rewrite /at22 mx22M /= !mxE.
  move: (hp i j) q; move: (RtoC _) (t00 i j) (t01 i j) (t10 i j) (t11 i j) => D x y z w hD D0.
  have -> : x * (w / D) + y * (- z / D) = 1 by rewrite -(divff D0) -hD; Cring.
  have -> : x * (- y / D) + y * (x / D) = 0 by Cring.
  have -> : z * (w / D) + w * (- z / D) = 0 by Cring.
  have -> : z * (- y / D) + w * (x / D) = 1 by rewrite -(divff D0) -hD; Cring.
  by apply/matrixP=> k l; rewrite !mxE; case: k => [[|[|//]] ?]; case: l => [[|[|//]] ?].
have [hU eB] : (forall i j, at22 U i j \in unitmx) /\ forall i j, at22 B i j = invmx (at22 U i j) *m (at22 A i j *m at22 U i j).
  move: hB; rewrite /solve22 -/U; case: ifP => // /forallP g [<-]; split=> i j; first exact: (forallP (g i)).
  by rewrite /at22 /= !mxE -/(at22 _ _ _); apply/matrixP=> k l; rewrite !mxE; case: k => [[|[|//]] ?]; case: l => [[|[|//]] ?];
    apply: eq_bigr=> o _; congr (_ * _); congr (_ _ _); apply: val_inj.
exists B, V, (block_mx f00 f01 f10 f11), (block_mx a b c d), (block_mx i00 i01 i10 i11); split=> //.
- by move=> i j; split=> //; rewrite eB mulKVmx // -mulmxA UV mulmx1.
- by exists f00, f01, f10, f11.
- have [_ er] := recipMV hr; have [uu ed] := invV hd.
  by exists a, b, c, u, d; split=> //; split; [rewrite -er|rewrite ed mulmxV].
- exists i00, i01, i10, i11; split=> //=.
  + by rewrite -k00; congr (fourier_convolution_matrix _ _); apply/matrixP=> i j; rewrite !mxE den.
  + by rewrite -k01; congr (fourier_convolution_matrix _ _); apply/matrixP=> i j; rewrite !mxE den.
  + by rewrite -k10; congr (fourier_convolution_matrix _ _); apply/matrixP=> i j; rewrite !mxE den.
  + by rewrite -k11; congr (fourier_convolution_matrix _ _); apply/matrixP=> i j; rewrite !mxE den.
Qed.

(** The permittivity relates [(-Ey, Ex)] to [(-Dy, Dx)].  The tangent vector [(tx, ty)] is there
    [-(ty, -tx)] and the normal one is [(conj tx, conj ty)]: the columns of the frame.  With a
    tangent field that is nowhere small, the matrix turns the field into the frame, multiplies it
    by the tensor seen in the frame, with the inverse rule for the normal component and the Laurent
    rule for the rest, and turns it back. *)
Theorem C38_anisotropic_permittivity nx ny n (exx exy eyx eyy tx ty : 'M[C]_(nx, ny)) (expn : n.-tuple (Z * Z)) T :
  (forall i j, / 10 ^ 8 < field2 (tx i j) (ty i j))%coqR ->
  transverse_permittivity_vector_anisotropic exx exy eyx eyy tx ty expn = Val T ->
  let frame := Grid22 ty (conjm tx) (- tx) (conjm ty) in
  exists tensor back X Y Z,
  [/\ in_frame frame (Grid22 eyy (- eyx) (- exy) exx) tensor back,
      laurent2 expn frame X, laurent_inverse2 expn tensor Y, laurent2 expn back Z & T = X *m Y *m Z].
Proof.
move=> h; rewrite /transverse_permittivity_vector_anisotropic => H; binv H rot hr.
apply: (rotatedP (p := fun i j => field2 (tx i j) (ty i j)) _ h hr H) => i j.
by rewrite field2E !mxE mulNr opprK addrC.
Qed.
Print Assumptions C38_anisotropic_permittivity.

Theorem C38_anisotropic_permeability nx ny n (mxx mxy myx myy tx ty : 'M[C]_(nx, ny)) (expn : n.-tuple (Z * Z)) T :
  (forall i j, / 10 ^ 8 < field2 (tx i j) (ty i j))%coqR ->
  transverse_permeability_vector_anisotropic mxx mxy myx myy tx ty expn = Val T ->
  let frame := Grid22 tx (- conjm ty) ty (conjm tx) in
  exists tensor back X Y Z,
  [/\ in_frame frame (Grid22 mxx mxy myx myy) tensor back,
      laurent2 expn frame X, laurent_inverse2 expn tensor Y, laurent2 expn back Z & T = X *m Y *m Z].
Proof.
move=> h; rewrite /transverse_permeability_vector_anisotropic => H; binv H rot hr.
apply: (rotatedP (p := fun i j => field2 (tx i j) (ty i j)) _ h hr H) => i j.
by rewrite field2E !mxE mulrN opprK.
Qed.
Print Assumptions C38_anisotropic_permeability.

(** ** Constant tangent fields *)
Lemma frame_unique nx ny (U A B V : grid22 nx ny) i j : in_frame U A B V ->
  at22 A i j *m at22 U i j = at22 U i j *m at22 B i j.
Proof. by case/(_ i j)=> uv ->; have vu := mulmx1C uv; rewrite -!mulmxA vu mulmx1. Qed.
Lemma mx22_inj a b c d a' b' c' d' : mx22 a b c d = mx22 a' b' c' d' -> [/\ a = a', b = b', c = c' & d = d'].
Proof.
by move=> e; split; [have := congr1 (fun M : 'M_2 => M 0 0) e|have := congr1 (fun M : 'M_2 => M 0 1) e|
  have := congr1 (fun M : 'M_2 => M 1 0) e|have := congr1 (fun M : 'M_2 => M 1 1) e]; rewrite !mxE.
Qed.

Definition scalars n (M : 'M[C]_2) : 'M[C]_(n + n) := block_mx (M 0 0)%:M (M 0 1)%:M (M 1 0)%:M (M 1 1)%:M.
Lemma scalarsM n M N : scalars n (M *m N) = scalars n M *m scalars n N.
Proof.
by rewrite /scalars mulmx_block -!scalar_mxM -!raddfD; congr (block_mx _ _ _ _); congr (_%:M);
  rewrite mxE !big_ord_recl big_ord0 addr0; congr (_ + _); congr (_ * _); congr (fun_of_matrix _ _ _); apply: val_inj.
Qed.
Lemma scalars1 n : scalars n 1%:M = 1%:M.
Proof. by rewrite /scalars !mxE /= !mulr0n !mulr1n !raddf0 -scalar_mx_block. Qed.
Definition const22 nx ny (M : 'M[C]_2) : grid22 nx ny := Grid22 (const_mx (M 0 0)) (const_mx (M 0 1)) (const_mx (M 1 0)) (const_mx (M 1 1)).
Lemma mx22E (M : 'M[C]_2) : mx22 (M 0 0) (M 0 1) (M 1 0) (M 1 1) = M.
Proof.
by apply/matrixP=> k l; rewrite !mxE; case: k => [[|[|//]] ?]; case: l => [[|[|//]] ?]; congr (M _ _); apply: val_inj.
Qed.
Lemma at_const nx ny M i j : at22 (const22 nx ny M) i j = M.
Proof. by rewrite /at22 /= !mxE mx22E. Qed.
Lemma grid_ext nx ny (g : grid22 nx ny) M : (forall i j, at22 g i j = M) -> g = const22 nx ny M.
Proof.
case: g => a b c d h; rewrite /const22; congr Grid22; apply/matrixP=> i j; have := h i j; rewrite /at22 /= => <-; by rewrite !mxE.
Qed.
Lemma laurent_const nx ny n (expn : n.-tuple (Z * Z)) M X : distinct expn ->
  laurent2 expn (const22 nx ny M) X -> X = scalars n M.
Proof.
move=> hd [a [b [c [d [ha hb hc hdd ->]]]]]; have [n0 hr] := convV ha.
by move: ha hb hc hdd; rewrite !convE //= !conv_const // => -[<-] [<-] [<-] [<-].
Qed.
Lemma in_frame_const nx ny (U : 'M[C]_2) (A B V : grid22 nx ny) : in_frame (const22 nx ny U) A B V -> (0 < nx)%N -> (0 < ny)%N ->
  U \in unitmx /\ V = const22 nx ny (invmx U).
Proof.
move=> h px py; have [q _] := h (Ordinal px) (Ordinal py); rewrite at_const in q.
have [u _] := mulmx1_unit q; split=> //; apply: grid_ext => i j.
by have [e _] := h i j; rewrite at_const in e; rewrite -[at22 V i j](mulKmx u) e mulmx1.
Qed.
Lemma mx_ext p q (A B : 'M[C]_(p, q)) : (forall v : 'cV_q, A *m v = B *m v) -> A = B.
Proof. by move=> h; apply/matrixP=> i j; have := congr1 (fun M : 'cV_p => M i 0) (h (delta_mx j 0)); rewrite -!colE !mxE. Qed.
Lemma conjm_const nx ny (c : C) : conjm (const_mx c : 'M_(nx, ny)) = const_mx (Cconj c).
Proof. by apply/matrixP=> i j; rewrite !mxE. Qed.
Lemma opp_const nx ny (c : C) : - (const_mx c : 'M_(nx, ny)) = const_mx (- c).
Proof. by apply/matrixP=> i j; rewrite !mxE. Qed.

(** For an isotropic permittivity and a tangent field that is the same everywhere, the
    anisotropic and the isotropic vector formulations give the same matrix. *)
Theorem C45_anisotropic_vector nx ny n (eps : 'M[C]_(nx, ny)) (tx ty : C) (expn : n.-tuple (Z * Z)) T T' :
  (/ 10 ^ 8 < field2 tx ty)%coqR -> distinct expn ->
  transverse_permittivity_vector_anisotropic eps 0 0 eps (const_mx tx) (const_mx ty) expn = Val T ->
  transverse_permittivity_vector eps (const_mx tx) (const_mx ty) expn = Val T' ->
  T = T'.
Proof.
move=> h hd hT hT'.
have [e [ie [ei [he hei u b1 b2]]]] := C38_blend h hd hT'.
have [n0 hr] := convV he; have [px py] := resolves_pos n0 hr.
have h' (i : 'I_nx) (j : 'I_ny) : (/ 10 ^ 8 < field2 ((const_mx tx : 'M_(nx, ny)) i j) ((const_mx ty : 'M_(nx, ny)) i j))%coqR by rewrite !mxE.
have [B [V [X [Y [Z [f hX hY hZ ->]]]]]] := C38_anisotropic_permittivity h' hT.
pose U := mx22 ty (Cconj tx) (- tx) (Cconj ty).
have eU : Grid22 (const_mx ty) (conjm (const_mx tx)) (- const_mx tx) (conjm (const_mx ty)) = const22 nx ny U.
  by rewrite /const22 /U !mxE /= !conjm_const opp_const.
rewrite eU in f hX; have [uU eV] := in_frame_const f px py; subst V.
have -> := laurent_const hd hX; have -> := laurent_const hd hZ.
have eB i j : at22 B i j = (eps i j)%:M.
  have := frame_unique i j f; rewrite at_const /at22 /= !mxE oppr0.
  have -> : mx22 (eps i j) 0 0 (eps i j) = (eps i j)%:M.
    by apply/matrixP=> k l; rewrite !mxE; case: k => [[|[|//]] ?]; case: l => [[|[|//]] ?].
  by rewrite mul_scalar_mx => q; rewrite -[mx22 _ _ _ _](mulKmx uU) -q -scalemxAr mulVmx // scalemx1.
have [c00 c01 c10 c11] : [/\ g00 B = eps, g01 B = 0, g10 B = 0 & g11 B = eps].
  by split; apply/matrixP=> i j; [have := congr1 (fun M : 'M_2 => M 0 0) (eB i j)|have := congr1 (fun M : 'M_2 => M 0 1) (eB i j)|
    have := congr1 (fun M : 'M_2 => M 1 0) (eB i j)|have := congr1 (fun M : 'M_2 => M 1 1) (eB i j)]; rewrite !mxE.
case: hY => a [b [c [d [d' []]]]]; rewrite c00 c01 c10 c11 he hei !convE // conv0 // => -[<-] [<-] [<-] [[<-] ue] ->.
have -> : d' = ie by rewrite -[d']mul1mx -(mulmx1C u) -mulmxA ue mulmx1.
have -> : T' = T' *m scalars n U *m scalars n (invmx U) by rewrite -mulmxA -scalarsM mulmxV // scalars1 mulmx1.
congr (_ *m _); apply: mx_ext => w; rewrite -!mulmxA -[w]vsubmxK; move: (usubmx w) (dsubmx w) => v1 v2.
have k x1 x2 : scalars n U *m col_mx x1 x2 = - kron2 (- ty) tx x1 + kron2 (Cconj tx) (Cconj ty) x2.
  by rewrite /kron2 mul_block_col opp_col_mx add_col_mx !mul_scalar_mx !mxE /= -!scaleNr opprK.
by rewrite mul_block_col !mul0mx addr0 add0r !k mulmxDr mulmxN b1 b2.
Qed.
Print Assumptions C45_anisotropic_vector.

(** Uniform tensors: the vector formulations give the tensor, whatever the direction of the
    tangent field (provided it is the same everywhere). *)
Lemma uniform_tensor nx ny n (expn : n.-tuple (Z * Z)) U A B V X Y Z : distinct expn -> (0 < n)%N -> (0 < nx)%N -> (0 < ny)%N ->
  in_frame (const22 nx ny U) (const22 nx ny A) B V ->
  laurent2 expn (const22 nx ny U) X -> laurent_inverse2 expn B Y -> laurent2 expn V Z -> X *m Y *m Z = scalars n A.
Proof.
move=> hd pn px py f hX hY hZ; have [uU eV] := in_frame_const f px py; subst V.
rewrite (laurent_const hd hX) (laurent_const hd hZ).
have eB : B = const22 nx ny (invmx U *m A *m U).
  by apply: grid_ext => i j; have := frame_unique i j f; rewrite !at_const => q; rewrite -mulmxA q mulKmx.
have -> : Y = scalars n (invmx U *m A *m U).
  move: hY; rewrite eB; move: (invmx U *m A *m U) => M [a [b [c [d [e [ha hb hc [hdd ue] ->]]]]]].
  have [n0 hr] := convV ha; move: ha hb hc hdd; rewrite map_const_mx !convE //= !conv_const // => -[<-] [<-] [<-] [hde]; subst d.
  have m0 : M 1 1 != 0.
    apply/eqP=> z; move: ue; rewrite z invr0 raddf0 mul0mx => /matrixP /(_ (Ordinal pn) (Ordinal pn)); rewrite !mxE eqxx => /eqP.
    by rewrite eq_sym oner_eq0.
  rewrite /scalars; congr (block_mx _ _ _ _).
  by rewrite -[e]mul1mx -(divff m0) scalar_mxM -mulmxA ue mulmx1.
by rewrite -!scalarsM !mulmxA mulmxV // mul1mx -mulmxA mulmxV // mulmx1.
Qed.
Theorem C45_uniform_permittivity nx ny n (exx exy eyx eyy tx ty : C) (expn : n.-tuple (Z * Z)) T :
  (/ 10 ^ 8 < field2 tx ty)%coqR -> distinct expn -> (0 < n)%N -> (0 < nx)%N -> (0 < ny)%N ->
  transverse_permittivity_vector_anisotropic (const_mx exx : 'M_(nx, ny)) (const_mx exy) (const_mx eyx) (const_mx eyy)
    (const_mx tx) (const_mx ty) expn = Val T ->
  T = block_mx eyy%:M (- eyx)%:M (- exy)%:M exx%:M.
Proof.
move=> h hd pn px py hT.
have h' (i : 'I_nx) (j : 'I_ny) : (/ 10 ^ 8 < field2 ((const_mx tx : 'M_(nx, ny)) i j) ((const_mx ty : 'M_(nx, ny)) i j))%coqR by rewrite !mxE.
have [B [V [X [Y [Z [f hX hY hZ ->]]]]]] := C38_anisotropic_permittivity h' hT.
have eU : Grid22 (const_mx ty) (conjm (const_mx tx)) (- const_mx tx) (conjm (const_mx ty)) = const22 nx ny (mx22 ty (Cconj tx) (- tx) (Cconj ty)).
  by rewrite /const22 !mxE /= !conjm_const opp_const.
have eA : Grid22 (const_mx eyy) (- const_mx eyx) (- const_mx exy) (const_mx exx) = const22 nx ny (mx22 eyy (- eyx) (- exy) exx).
  by rewrite /const22 !mxE /= !opp_const.
rewrite eU in f hX; rewrite eA in f.
by rewrite (uniform_tensor hd pn px py f hX hY hZ) /scalars !mxE.
Qed.
Print Assumptions C45_uniform_permittivity.
Theorem C45_uniform_permeability nx ny n (mxx mxy myx myy tx ty : C) (expn : n.-tuple (Z * Z)) T :
  (/ 10 ^ 8 < field2 tx ty)%coqR -> distinct expn -> (0 < n)%N -> (0 < nx)%N -> (0 < ny)%N ->
  transverse_permeability_vector_anisotropic (const_mx mxx : 'M_(nx, ny)) (const_mx mxy) (const_mx myx) (const_mx myy)
    (const_mx tx) (const_mx ty) expn = Val T ->
  T = block_mx mxx%:M mxy%:M myx%:M myy%:M.
Proof.
move=> h hd pn px py hT.
have h' (i : 'I_nx) (j : 'I_ny) : (/ 10 ^ 8 < field2 ((const_mx tx : 'M_(nx, ny)) i j) ((const_mx ty : 'M_(nx, ny)) i j))%coqR by rewrite !mxE.
have [B [V [X [Y [Z [f hX hY hZ ->]]]]]] := C38_anisotropic_permeability h' hT.
have eU : Grid22 (const_mx tx) (- conjm (const_mx ty)) (const_mx ty) (conjm (const_mx tx)) = const22 nx ny (mx22 tx (- Cconj ty) ty (Cconj tx)).
  by rewrite /const22 !mxE /= !conjm_const opp_const.
have eA : Grid22 (const_mx mxx) (const_mx mxy) (const_mx myx) (const_mx myy) = const22 nx ny (mx22 mxx mxy myx myy).
  by rewrite /const22 !mxE.
rewrite eU in f hX; rewrite eA in f.
by rewrite (uniform_tensor hd pn px py f hX hY hZ) /scalars !mxE.
Qed.
Print Assumptions C45_uniform_permeability.

(** Where the tangent field vanishes the anisotropic vector formulation divides by zero: unlike
    the isotropic one (C45_zero_tangent_field) it does not fall back on the FFT formulation. *)
Theorem C45_anisotropic_zero_field_refuted nx ny n (exx exy eyx eyy tx ty : 'M[C]_(nx, ny)) (expn : n.-tuple (Z * Z)) i j :
  n <> 0%N -> resolves nx ny expn -> tx i j = 0 -> ty i j = 0 ->
  transverse_permittivity_vector_anisotropic exx exy eyx eyy tx ty expn = Exn NonFinite /\
  transverse_permeability_vector_anisotropic exx exy eyx eyy tx ty expn = Exn NonFinite.
Proof.
move=> n0 hr zx zy.
have k (g A : grid22 nx ny) : at22 g i j = 0 -> solve22 g A = Exn NonFinite.
  move=> z; rewrite /solve22; case: forallP => // /(_ i) /forallP /(_ j); rewrite z unitmxE det0 //.
  by rewrite unitr0.
have q : mx22 0 0 0 0 = 0 by apply/matrixP=> a b; rewrite !mxE; do 2!case: ifP.
split; rewrite /transverse_permittivity_vector_anisotropic /transverse_permeability_vector_anisotropic
   /rotation_matrices !convE //; cbn [bind]; rewrite /rotated_fourier_matrix; cbn [fst snd];
  by rewrite k // /at22 /= !mxE zx zy rmorph0 oppr0.
Qed.
Print Assumptions C45_anisotropic_zero_field_refuted.

(** ** The script-k matrix of a uniform layer *)
Theorem C45_script_k_uniform n (eps : C) (k : 'rV[R]_n * 'rV[R]_n) :
  eps != 0 ->
  script_k_matrix_uniform eps k = script_k_matrix_patterned (eps%:M) k.
Proof.
move=> e0; rewrite /script_k_matrix_uniform /script_k_matrix_patterned /recipC (negbTE e0) /=.
rewrite !solve_scalar //= .
congr (Val (block_mx _ _ _ _)); apply/matrixP=> i j; rewrite !mxE; case: eqP => _; rewrite ?mulr0n ?mulr1n; Cring.
Qed.
Print Assumptions C45_script_k_uniform.

(** ** Non-vacuity *)

(** With a tangent field that is nowhere small, the computation succeeds for every isotropic
    permittivity for which the inverse rule makes sense. *)
Lemma anisotropic_total nx ny n (eps tx ty : 'M[C]_(nx, ny)) (expn : n.-tuple (Z * Z)) :
  n <> 0%N -> resolves nx ny expn ->
  (forall i j, / 10 ^ 8 < field2 (tx i j) (ty i j))%coqR -> (forall i j, eps i j != 0) ->
  convm expn (map_mx (fun z : C => z^-1) eps) \in unitmx ->
  exists T, transverse_permittivity_vector_anisotropic eps 0 0 eps tx ty expn = Val T.
Proof.
move=> n0 hr h e0 u.
have p0 : (0 < / 10 ^ 8)%coqR by apply: Rinv_0_lt_compat; apply: pow_lt; lra.
rewrite /transverse_permittivity_vector_anisotropic /rotation_matrices !convE // /bind.
rewrite /rotated_fourier_matrix; cbn [fst snd].
set U := Grid22 ty _ _ _; set A := Grid22 eps _ _ _.
have hU i j : at22 U i j \in unitmx.
  have q : RtoC (field2 (tx i j) (ty i j)) != 0 by apply: RtoC_neq0; have := h i j; lra.
  rewrite unitmxE; have -> : \det (at22 U i j) = RtoC (field2 (tx i j) (ty i j)); last by rewrite unitfE.
  rewrite (expand_det_row _ 0) !big_ord_recl big_ord0 /cofactor !det_mx11 !mxE /= field2E.
  by rewrite expr0 expr1 mul1r mulN1r opprK addr0 [Cconj _ * _]mulrC addrC.
have hA i j : invmx (at22 U i j) *m (at22 A i j *m at22 U i j) = (eps i j)%:M.
  have -> : at22 A i j = (eps i j)%:M.
    by rewrite /at22 /= !mxE oppr0; apply/matrixP=> k l; rewrite !mxE; case: k => [[|[|//]] ?]; case: l => [[|[|//]] ?].
  by rewrite mul_scalar_mx -scalemxAr mulVmx // scalemx1.
rewrite /solve22; have -> : [forall i, forall j, at22 U i j \in unitmx] = true by apply/forallP=> i; apply/forallP.
cbn [bind g00 g01 g10 g11]; rewrite !convE //; cbn [bind].
have -> : \matrix_(i, j) (invmx (at22 U i j) *m (at22 A i j *m at22 U i j)) 1 1 = eps.
  by apply/matrixP=> i j; rewrite mxE hA mxE eqxx.
have -> : recipM eps = Val (map_mx (fun z : C => z^-1) eps).
  by rewrite /recipM; case: forallP => // -[] i; apply/forallP.
cbn [bind]; rewrite convE //; cbn [bind]; rewrite /inv u; cbn [bind]; by eexists.
Qed.

Example ex_C45_anisotropic : exists T T',
  [/\ transverse_permittivity_vector_anisotropic ex_grating 0 0 ex_grating (const_mx 1) (const_mx Ci) ex_expn = Val T,
      transverse_permittivity_vector ex_grating (const_mx 1) (const_mx Ci) ex_expn = Val T' &
      (/ 10 ^ 8 < field2 (1%R : C) Ci)%coqR].
Proof.
have n0 : 1%N <> 0%N by [].
have hr := @ex_resolves 2 1 isT isT.
have nz a b : ex_grating a b != 0.
  by rewrite mxE; case: ifP => _; [exact: oner_neq0|apply: RtoC_neq0; lra].
have u : convm ex_expn (map_mx (fun z : C => z^-1) ex_grating) \in unitmx.
  rewrite ex_mean scalar_unit // !mxE /= invr1 -[1]/(RtoC 1) -!fmorphV -rmorphD -rmorphM; apply: RtoC_neq0.
  by rewrite /= !RinvE ?RaddE ?RmulE; lra.
have [T hT] := @anisotropic_total 2 1 1 ex_grating (const_mx 1) (const_mx Ci) ex_expn n0 hr
  (fun i j => ltac:(rewrite !mxE; exact: C38_witness)) nz u.
have {}hT : transverse_permittivity_vector_anisotropic ex_grating 0 0 ex_grating (const_mx 1) (const_mx Ci) ex_expn = Val T by [].
exists T; rewrite /transverse_permittivity_vector !convE //; cbn [bind].
have -> : recipM ex_grating = Val (map_mx (fun z : C => z^-1) ex_grating).
  by rewrite /recipM; case: forallP => // -[] i; apply/forallP.
cbn [bind]; rewrite !convE //; cbn [bind]; rewrite /inv u; cbn [bind].
by eexists; split=> //; exact: C38_witness.
Qed.

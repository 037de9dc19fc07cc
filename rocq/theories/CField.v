(** Foundation: the standard library's real numbers [R] and Coquelicot's complex
    numbers [C] (pairs of reals) as mathcomp fields, so that mathcomp matrices can
    be used over them; complex exponential, square root and conjugation.

    Nothing here models fmmax code: it is the number system that stands for
    floating point values. *)
From Coq Require Import Reals ZArith ClassicalEpsilon Lra.
From mathcomp Require Import all_ssreflect all_algebra.
From Coquelicot Require Complex.
Set Implicit Arguments. Unset Strict Implicit. Unset Printing Implicit Defensive.
Import GRing.Theory.
Delimit Scope R_scope with coqR.
Delimit Scope Z_scope with coqZ.
Delimit Scope ring_scope with R.

Section ClassicalTypes.
Variable T : Type.
Definition ceqb (x y : T) : bool :=
  if excluded_middle_informative (x = y) then true else false.
Lemma ceqbP : Equality.axiom ceqb.
Proof. by move=> x y; rewrite /ceqb; case: excluded_middle_informative => h; constructor. Qed.

Definition cfind (P : pred T) (n : nat) : option T :=
  match excluded_middle_informative (exists x, P x) with
  | left h => Some (proj1_sig (constructive_indefinite_description _ h))
  | right _ => None
  end.
Lemma cchoice_mixin : choiceMixin T.
Proof.
apply: (@Choice.Mixin T cfind).
- move=> P n x; rewrite /cfind; case: excluded_middle_informative => // h [<-].
  by case: constructive_indefinite_description.
- move=> P [x Px]; exists 0; rewrite /cfind; case: excluded_middle_informative => //.
  by case; exists x.
- move=> P Q PQ n; rewrite /cfind.
  by have -> : P = Q by apply: FunctionalExtensionality.functional_extensionality.
Qed.
End ClassicalTypes.

(** ** The field of real numbers *)
Definition R_eqMixin := EqMixin (@ceqbP R).
Canonical R_eqType := EqType R R_eqMixin.
Definition R_choiceMixin := @cchoice_mixin R.
Canonical R_choiceType := ChoiceType R R_choiceMixin.
Lemma R_addA : associative Rplus. Proof. by move=> x y z; rewrite Rplus_assoc. Qed.
Definition R_zmodMixin := ZmodMixin R_addA Rplus_comm Rplus_0_l Rplus_opp_l.
Canonical R_zmodType := ZmodType R R_zmodMixin.
Lemma R_mulA : associative Rmult. Proof. by move=> x y z; rewrite Rmult_assoc. Qed.
Lemma R_mulDl : left_distributive Rmult Rplus.
Proof. by move=> x y z; rewrite Rmult_plus_distr_r. Qed.
Lemma R_1n0 : R1 != R0 :> R. Proof. by apply/eqP; exact: R1_neq_R0. Qed.
Definition R_ringMixin := ComRingMixin R_mulA Rmult_comm Rmult_1_l R_mulDl R_1n0.
Canonical R_ringType := RingType R R_ringMixin.
Canonical R_comRingType := ComRingType R Rmult_comm.
Lemma R_mulVx (x : R) : x != 0%R -> (Rinv x * x = 1)%R.
Proof. by move=> nz; apply: Rinv_l; apply/eqP. Qed.
Lemma R_invx0 : Rinv 0%R = 0%R. Proof. exact: Rinv_0. Qed.
Definition R_unitMixin := FieldUnitMixin R_mulVx R_invx0.
Canonical R_unitRingType := UnitRingType R R_unitMixin.
Canonical R_comUnitRing := [comUnitRingType of R].
Lemma R_fieldMixin : GRing.Field.mixin_of R_unitRingType. Proof. done. Qed.
Definition R_idomainMixin := FieldIdomainMixin R_fieldMixin.
Canonical R_idomainType := IdomainType R R_idomainMixin.
Canonical R_fieldType := FieldType R R_fieldMixin.

Lemma RaddE (x y : R) : (x + y)%R = Rplus x y. Proof. by []. Qed.
Lemma RmulE (x y : R) : (x * y)%R = Rmult x y. Proof. by []. Qed.
Lemma RoppE (x : R) : (- x)%R = Ropp x. Proof. by []. Qed.
Lemma RinvE (x : R) : (x^-1)%R = Rinv x. Proof. by []. Qed.
Lemma R0E : (0%R : R) = R0. Proof. by []. Qed.
Lemma R1E : (1%R : R) = R1. Proof. by []. Qed.
Lemma RnatE (n : nat) : (n%:R : R)%R = INR n.
Proof. by elim: n => // n IH; rewrite S_INR mulrS IH RaddE Rplus_comm. Qed.
Lemma RexpE (x : R) (n : nat) : (x ^+ n)%R = pow x n.
Proof. by elim: n => // n IH; rewrite exprS IH. Qed.
Ltac toR := match goal with |- @eq _ ?a ?b => change (@eq R a b) end;
  rewrite ?expr2 ?(RaddE, RmulE, RoppE, R0E, R1E, RinvE).

(** ** The field of complex numbers *)
Notation C := Complex.C.
Notation RtoC := Complex.RtoC.
Notation Cconj := Complex.Cconj.
Notation Cmod := Complex.Cmod.
Notation Ci := Complex.Ci.
Definition re (z : C) : R := fst z.
Definition im (z : C) : R := snd z.
Lemma C_ext (x y : C) : re x = re y -> im x = im y -> x = y.
Proof. by case: x y => [a b] [c d] /= -> ->. Qed.

Definition C_eqMixin := EqMixin (@ceqbP C).
Canonical C_eqType := EqType C C_eqMixin.
Definition C_choiceMixin := @cchoice_mixin C.
Canonical C_choiceType := ChoiceType C C_choiceMixin.
Import Complex.
Lemma C_addA : associative Cplus. Proof. move=> x y z; ring. Qed.
Lemma C_addC : commutative Cplus. Proof. move=> x y; ring. Qed.
Lemma C_add0 : left_id (RtoC 0) Cplus. Proof. move=> x; ring. Qed.
Lemma C_addN : left_inverse (RtoC 0) Copp Cplus. Proof. move=> x; ring. Qed.
Definition C_zmodMixin := ZmodMixin C_addA C_addC C_add0 C_addN.
Canonical C_zmodType := ZmodType C C_zmodMixin.
Lemma C_mulA : associative Cmult. Proof. move=> x y z; ring. Qed.
Lemma C_mulC : commutative Cmult. Proof. move=> x y; ring. Qed.
Lemma C_mul1 : left_id (RtoC 1) Cmult. Proof. move=> x; ring. Qed.
Lemma C_mulDl : left_distributive Cmult Cplus. Proof. move=> x y z; ring. Qed.
Lemma C_1n0 : RtoC 1 != RtoC 0 :> C.
Proof. by apply/eqP => -[]; exact: R1_neq_R0. Qed.
Definition C_ringMixin := ComRingMixin C_mulA C_mulC C_mul1 C_mulDl C_1n0.
Canonical C_ringType := RingType C C_ringMixin.
Canonical C_comRingType := ComRingType C C_mulC.
Lemma C_mulVx (x : C) : x != 0%R -> (Cinv x * x = 1)%R.
Proof. by move=> nz; apply: Cinv_l; apply/eqP. Qed.
Lemma C_invx0 : Cinv 0%R = 0%R.
Proof. by rewrite /Cinv /=; apply: C_ext => /=; rewrite /Rdiv ?Ropp_0 !Rmult_0_l. Qed.
Definition C_unitMixin := FieldUnitMixin C_mulVx C_invx0.
Canonical C_unitRingType := UnitRingType C C_unitMixin.
Canonical C_comUnitRing := [comUnitRingType of C].
Lemma C_fieldMixin : GRing.Field.mixin_of C_unitRingType. Proof. done. Qed.
Definition C_idomainMixin := FieldIdomainMixin C_fieldMixin.
Canonical C_idomainType := IdomainType C C_idomainMixin.
Canonical C_fieldType := FieldType C C_fieldMixin.

Lemma CaddE (x y : C) : (x + y)%R = Cplus x y. Proof. by []. Qed.
Lemma CmulE (x y : C) : (x * y)%R = Cmult x y. Proof. by []. Qed.
Lemma CoppE (x : C) : (- x)%R = Copp x. Proof. by []. Qed.
Lemma C0E : (0%R : C) = RtoC 0. Proof. by []. Qed.
Lemma C1E : (1%R : C) = RtoC 1. Proof. by []. Qed.
Lemma CinvE (x : C) : (x^-1)%R = Cinv x. Proof. by []. Qed.

(** [toC] rewrites a goal between complex numbers to Coquelicot's operations, on
    which [ring] and [field] work. *)
Ltac toC := match goal with |- @eq _ ?a ?b => change (@eq C a b) end;
  rewrite ?expr2 ?(CaddE, CmulE, CoppE, C0E, C1E, CinvE).
Add Field C_coq_field : C_field_theory.
Ltac Cring := toC; ring.

Lemma reD (x y : C) : re (x + y)%R = Rplus (re x) (re y). Proof. by []. Qed.
Lemma imD (x y : C) : im (x + y)%R = Rplus (im x) (im y). Proof. by []. Qed.
Lemma reN (x : C) : re (- x)%R = Ropp (re x). Proof. by []. Qed.
Lemma imN (x : C) : im (- x)%R = Ropp (im x). Proof. by []. Qed.
Lemma reM (x y : C) : re (x * y)%R = Rminus (re x * re y) (im x * im y). Proof. by []. Qed.
Lemma imM (x y : C) : im (x * y)%R = Rplus (re x * im y) (im x * re y). Proof. by []. Qed.
Lemma re0 : re 0%R = R0. Proof. by []. Qed.
Lemma im0 : im 0%R = R0. Proof. by []. Qed.
Lemma re1 : re 1%R = R1. Proof. by []. Qed.
Lemma im1 : im 1%R = R0. Proof. by []. Qed.
Lemma reRC (x : R) : re (RtoC x) = x. Proof. by []. Qed.
Lemma imRC (x : R) : im (RtoC x) = R0. Proof. by []. Qed.
Lemma reI : re Ci = R0. Proof. by []. Qed.
Lemma imI : im Ci = R1. Proof. by []. Qed.
Lemma reJ (x : C) : re (Cconj x) = re x. Proof. by []. Qed.
Lemma imJ (x : C) : im (Cconj x) = Ropp (im x). Proof. by []. Qed.
Definition reimE := (reD, imD, reN, imN, reM, imM, re0, im0, re1, im1, reRC, imRC, reI, imI, reJ, imJ).

(** A complex equation reduced to its real and imaginary parts. *)
Ltac Creim := apply: C_ext; rewrite ?expr2 ?reimE; simpl.

Lemma re_is_additive : additive re.
Proof. by move=> x y; rewrite reD reN. Qed.
Canonical re_additive := Additive re_is_additive.
Lemma im_is_additive : additive im.
Proof. by move=> x y; rewrite imD imN. Qed.
Canonical im_additive := Additive im_is_additive.

Lemma RtoC_is_rmorphism : rmorphism RtoC.
Proof.
split; first by move=> x y; Creim; toR; ring.
by split=> // x y; Creim; toR; ring.
Qed.
Canonical RtoC_additive := Additive RtoC_is_rmorphism.
Canonical RtoC_rmorphism := RMorphism RtoC_is_rmorphism.

Lemma Cconj_is_rmorphism : rmorphism Cconj.
Proof.
split; first by move=> x y; Creim; ring.
by split=> [x y|]; Creim; ring.
Qed.
Canonical Cconj_additive := Additive Cconj_is_rmorphism.
Canonical Cconj_rmorphism := RMorphism Cconj_is_rmorphism.

Lemma CconjK : involutive Cconj. Proof. by move=> x; Creim; ring. Qed.
Lemma Cconj_RC (x : R) : Cconj (RtoC x) = RtoC x. Proof. by Creim; ring. Qed.
Lemma Cconj_i : Cconj Ci = (- Ci)%R. Proof. by Creim; ring. Qed.
Lemma Ci2 : (Ci * Ci = -1)%R. Proof. by Creim; ring. Qed.
Lemma Ci_neq0 : Ci != 0%R. Proof. by apply/eqP => -[] /R1_neq_R0. Qed.
Lemma RtoC_inj : injective RtoC. Proof. by move=> x y []. Qed.
Lemma RtoC_eq0 (x : R) : (RtoC x == 0%R) = (x == 0%R :> R).
Proof. by apply/eqP/eqP => [[]|->]. Qed.
Lemma RtoC_neq0 (x : R) : x <> R0 -> RtoC x != 0%R.
Proof. by move=> nz; rewrite RtoC_eq0; apply/eqP. Qed.

Lemma C2_neq0 : (2%:R : C)%R != 0%R.
Proof. apply/eqP => -[] h _; move: h; rewrite /= => h. lra. Qed.

(** Real-valuedness *)
Definition is_real (z : C) : Prop := Cconj z = z.
Lemma is_realP (z : C) : is_real z <-> im z = R0.
Proof.
split=> [/(congr1 im)|h]; first by rewrite imJ => h; lra.
by apply: C_ext; rewrite ?imJ ?reJ // h; lra.
Qed.
Lemma is_real_RC x : is_real (RtoC x). Proof. exact: Cconj_RC. Qed.

(** Squared modulus *)
Definition abs2 (z : C) : R := Rplus (re z * re z) (im z * im z).
Lemma abs2E (z : C) : RtoC (abs2 z) = (z * Cconj z)%R.
Proof. by rewrite /abs2; Creim; ring. Qed.
Lemma abs2_ge0 z : Rle 0 (abs2 z). Proof. rewrite /abs2; nra. Qed.
Lemma abs2_eq0 z : abs2 z = R0 -> z = 0%R.
Proof. by rewrite /abs2 => h; apply: C_ext => /=; nra. Qed.
Lemma abs2_gt0 z : z != 0%R -> Rlt 0 (abs2 z).
Proof.
move=> /eqP nz; case: (abs2_ge0 z) => // e; exfalso; apply: nz; apply: abs2_eq0; by rewrite -e.
Qed.
Lemma abs2M x y : abs2 (x * y)%R = Rmult (abs2 x) (abs2 y).
Proof. by rewrite /abs2 !reimE; ring. Qed.
Lemma CmodE z : Cmod z = sqrt (abs2 z).
Proof. by rewrite /Cmod /abs2 /re /im /= !Rmult_1_r. Qed.
Lemma Cmod2 z : Rmult (Cmod z) (Cmod z) = abs2 z.
Proof. by rewrite CmodE; apply: sqrt_sqrt; exact: abs2_ge0. Qed.

(** ** Complex exponential [cexp (a + ib) = exp a (cos b + i sin b)] (jnp.exp) *)
Definition cexp (z : C) : C := (Rmult (exp (re z)) (cos (im z)), Rmult (exp (re z)) (sin (im z))).

Lemma cexp0 : cexp 0%R = 1%R.
Proof. by rewrite /cexp /= exp_0 cos_0 sin_0; Creim; ring. Qed.
Lemma cexpD x y : cexp (x + y)%R = (cexp x * cexp y)%R.
Proof. by rewrite /cexp !reimE exp_plus cos_plus sin_plus; Creim; ring. Qed.
Lemma cexpN_mul x : (cexp (- x) * cexp x = 1)%R.
Proof. by rewrite -cexpD addNr cexp0. Qed.
Lemma cexp_neq0 x : cexp x != 0%R.
Proof.
apply/eqP => h; move: (cexpN_mul x); rewrite h mulr0 => /esym/eqP.
by rewrite (negbTE (@GRing.oner_neq0 C_ringType)).
Qed.
Lemma cexpN x : cexp (- x)%R = ((cexp x)^-1)%R.
Proof. by apply: (mulIf (cexp_neq0 x)); rewrite cexpN_mul mulVf // cexp_neq0. Qed.
Lemma cexpB x y : cexp (x - y)%R = (cexp x / cexp y)%R.
Proof. by rewrite cexpD cexpN. Qed.
Lemma cexp_conj x : Cconj (cexp x) = cexp (Cconj x).
Proof. by rewrite /cexp !reimE cos_neg sin_neg; Creim; ring. Qed.
Lemma abs2_cexp x : abs2 (cexp x) = exp (Rplus (re x) (re x)).
Proof.
rewrite /abs2 /cexp /= exp_plus.
have h := sin2_cos2 (im x); rewrite /Rsqr in h.
transitivity (Rmult (Rmult (exp (re x)) (exp (re x)))
  (Rplus (Rmult (sin (im x)) (sin (im x))) (Rmult (cos (im x)) (cos (im x))))); last by rewrite h; ring.
by ring.
Qed.
Lemma cexpMn x n : cexp (x *+ n)%R = (cexp x ^+ n)%R.
Proof. by elim: n => [|n IH]; rewrite ?mulr0n ?cexp0 // mulrS exprS cexpD IH. Qed.
Lemma cexp_RC x : cexp (RtoC x) = RtoC (exp x).
Proof. by rewrite /cexp !reimE cos_0 sin_0; Creim; ring. Qed.

(** Principal complex square root (jnp.sqrt on complex arguments): nonnegative
    real part, and nonnegative imaginary part on the negative real axis. *)
Definition csqrt (z : C) : C :=
  let m := Cmod z in
  (sqrt (Rdiv (Rplus m (re z)) 2),
   if Rlt_dec (im z) 0 then Ropp (sqrt (Rdiv (Rminus m (re z)) 2))
   else sqrt (Rdiv (Rminus m (re z)) 2)).

Lemma csqrt_sqr z : (csqrt z * csqrt z = z)%R.
Proof.
have m0 : Rle 0 (Cmod z) by rewrite CmodE; exact: sqrt_pos.
have m2 := Cmod2 z; rewrite /abs2 in m2.
have h1 : Rle (re z) (Cmod z) by nra.
have h2 : Rle (- re z)%coqR (Cmod z) by nra.
have a0 : Rle 0 ((Cmod z + re z) / 2)%coqR by lra.
have b0 : Rle 0 ((Cmod z - re z) / 2)%coqR by lra.
have sa := sqrt_sqrt _ a0; have sb := sqrt_sqrt _ b0.
have sab : Rmult (sqrt ((Cmod z + re z) / 2)%coqR) (sqrt ((Cmod z - re z) / 2)%coqR) =
   (Rabs (im z) / 2)%coqR.
  rewrite -sqrt_mult //.
  have -> : (((Cmod z + re z) / 2 * ((Cmod z - re z) / 2)) = Rsqr (im z / 2))%coqR.
    by rewrite /Rsqr; nra.
  by rewrite sqrt_Rsqr_abs Rabs_mult (Rabs_pos_eq (/2)%coqR); lra.
rewrite /csqrt; case: Rlt_dec => hi; apply: C_ext; rewrite !reimE /=.
- by move: sa sb; set A := sqrt _; set B := sqrt _ => *; nra.
- by move: sab; rewrite Rabs_left //; set A := sqrt _; set B := sqrt _ => *; nra.
- by move: sa sb; set A := sqrt _; set B := sqrt _ => *; nra.
- move: sab; rewrite Rabs_pos_eq; last by lra.
  by set A := sqrt _; set B := sqrt _ => *; nra.
Qed.
Lemma csqrt_re_ge0 z : Rle 0 (re (csqrt z)).
Proof. exact: sqrt_pos. Qed.

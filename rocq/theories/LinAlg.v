(** Linear algebra primitives of jax.numpy used by the code, on one batch element. *)
From Coq Require Import Reals.
From mathcomp Require Import all_ssreflect all_algebra.
From Verif Require Import CField Err.
Set Implicit Arguments. Unset Strict Implicit. Unset Printing Implicit Defensive.
Import GRing.Theory.
Local Open Scope ring_scope.

(** jnp.linalg.solve(A, B): a singular [A] gives non-finite values.
    scattering.py 595-601 ([solve]) is the same up to floating point precision. *)
Definition solve n p (A : 'M[C]_n) (B : 'M[C]_(n, p)) : res 'M[C]_(n, p) :=
  if A \in unitmx then Val (invmx A *m B) else Exn NonFinite.

(** jnp.linalg.inv *)
Definition inv n (A : 'M[C]_n) : res 'M[C]_n :=
  if A \in unitmx then Val (invmx A) else Exn NonFinite.

(** [1 / v], elementwise on a vector. *)
Definition recip n (v : 'rV[C]_n) : res 'rV[C]_n :=
  if [forall i, v 0 i != 0] then Val (map_mx (fun x : C => x^-1) v) else Exn NonFinite.

(** [1 / x] on a scalar. *)
Definition recipC (x : C) : res C := if x != 0 then Val x^-1 else Exn NonFinite.
Definition recipR (x : R) : res R := if x != 0 then Val x^-1 else Exn NonFinite.

(** utils.py 27-32 [diag]: the matrix with [v] on its diagonal. mathcomp's [diag_mx]
    is the same function; it is used directly. *)
Notation diag := diag_mx.

(** [v[..., newaxis] * M]: row [i] of [M] scaled by [v_i]. *)
Definition rowscale n p (v : 'rV[C]_n) (M : 'M[C]_(n, p)) : 'M[C]_(n, p) :=
  \matrix_(i, j) (v 0 i * M i j).
(** [M * v[..., newaxis, :]]: column [j] of [M] scaled by [v_j]. *)
Definition colscale n p (M : 'M[C]_(n, p)) (v : 'rV[C]_p) : 'M[C]_(n, p) :=
  \matrix_(i, j) (M i j * v 0 j).

(** Complex conjugate and adjoint (utils.py 40-43 [matrix_adjoint]). *)
Definition conjm n p (M : 'M[C]_(n, p)) : 'M[C]_(n, p) := map_mx Cconj M.
Definition adjm n p (M : 'M[C]_(n, p)) : 'M[C]_(p, n) := (map_mx Cconj M)^T.

(** Embedding of real vectors. *)
Notation vC := (map_mx RtoC).

Section Lemmas.
Variables (n p : nat).

Lemma solveV (A : 'M[C]_n) (B X : 'M[C]_(n, p)) :
  solve A B = Val X -> A \in unitmx /\ A *m X = B.
Proof. by rewrite /solve; case: ifP => // u [<-]; rewrite mulKVmx. Qed.
Lemma solveVE (A : 'M[C]_n) (B X : 'M[C]_(n, p)) :
  solve A B = Val X -> A \in unitmx /\ X = invmx A *m B.
Proof. by rewrite /solve; case: ifP => // u [<-]. Qed.
Lemma invV (A X : 'M[C]_n) : inv A = Val X -> A \in unitmx /\ X = invmx A.
Proof. by rewrite /inv; case: ifP => // u [<-]. Qed.
Lemma recipV (v w : 'rV[C]_n) :
  recip v = Val w -> (forall i, v 0 i != 0) /\ (forall i, w 0 i = (v 0 i)^-1).
Proof.
by rewrite /recip; case: ifP => // /forallP h [<-]; split=> // i; rewrite mxE.
Qed.
Lemma recipCV (x y : C) : recipC x = Val y -> x != 0 /\ y = x^-1.
Proof. by rewrite /recipC; case: ifP => // h [<-]. Qed.
Lemma recipRV (x y : R) : recipR x = Val y -> x != 0 /\ y = x^-1.
Proof. by rewrite /recipR; case: ifP => // h [<-]. Qed.

Lemma rowscaleE (v : 'rV[C]_n) (M : 'M[C]_(n, p)) : rowscale v M = diag v *m M.
Proof. by rewrite mul_diag_mx; apply/matrixP=> i j; rewrite !mxE. Qed.
Lemma colscaleE (M : 'M[C]_(n, p)) (v : 'rV[C]_p) : colscale M v = M *m diag v.
Proof. by rewrite mul_mx_diag; apply/matrixP=> i j; rewrite !mxE. Qed.

Lemma diagM (v w : 'rV[C]_n) : diag v *m diag w = diag (\row_j (v 0 j * w 0 j)).
Proof. by rewrite mulmx_diag. Qed.
End Lemmas.

Lemma diag_unit n (v : 'rV[C]_n) : (diag v \in unitmx) = [forall i, v 0 i != 0].
Proof.
rewrite unitmxE det_diag unitfE.
apply/idP/forallP=> [h i|h]; last by apply/prodf_neq0 => i _.
by move/prodf_neq0: h => /(_ i isT).
Qed.

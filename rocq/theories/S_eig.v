(** Specification for the differentiable eigendecomposition: cotangents, the first-order change of
    eigenvalues and eigenvectors, and smooth families of eigendecompositions. *)
From Coq Require Import Reals.
From mathcomp Require Import all_ssreflect all_algebra.
From Verif Require Import CField LinAlg S_maxwell.
Set Implicit Arguments. Unset Strict Implicit. Unset Printing Implicit Defensive.
Import GRing.Theory.
Local Open Scope ring_scope.

(** In jax a cotangent [g] of a complex array [x] gives the change [Re (sum g dx)] of the loss. *)
Definition change p q (g dx : 'M[C]_(p, q)) : R := re (\sum_i \sum_j g i j * dx i j).

(** [1 / d], broadened: the exact inverse for [eps = 0], and finite at [d = 0] otherwise. *)
Definition broad (eps : R) (d : C) : C := Cconj d / RtoC (Cmod d ^ 2 + eps)%coqR.

(** First-order change of the eigenvalues [lam] and the unit eigenvectors [V] (columns) under a
    change [dA] of the matrix.  In the basis of the eigenvectors the matrix changes by [W]. An
    eigenvalue changes by the diagonal entry of [W].  Eigenvector [b] tilts towards eigenvector
    [a] by [W a b / (lam b - lam a)], and is shortened so as to keep its length. *)
Section Differential.
Variables (n : nat) (eps : R) (lam : 'rV[C]_n) (V dA : 'M[C]_n).
Let W := invmx V *m dA *m V.
Definition d_eigenvalues : 'rV[C]_n := \row_j W j j.
Definition tilt : 'M[C]_n := \matrix_(a, b) if a == b then 0 else broad eps (lam 0 b - lam 0 a) * W a b.
Definition d_eigenvectors : 'M[C]_n :=
  \matrix_(i, b) ((V *m tilt) i b - RtoC (re (\sum_k Cconj (V k b) * (V *m tilt) k b)) * V i b).
End Differential.

(** The broadening used: a fraction [r] of the squared diameter of the spectrum, but at least 1e-24. *)
Definition broadening n (r : R) (lam : 'rV[C]_n) (eps : R) : Prop :=
  [/\ (/ 10 ^ 24 <= eps)%coqR, forall a b, (r * Cmod (lam 0%R b - lam 0%R a)%R ^ 2 <= eps)%coqR &
      eps = (/ 10 ^ 24)%coqR \/ exists a b, eps = (r * Cmod (lam 0%R b - lam 0%R a)%R ^ 2)%coqR].

Definition unit_columns n (V : 'M[C]_n) : Prop := forall b, \sum_i Cconj (V i b) * V i b = 1.
Definition mx_derivative p q (F : R -> 'M[C]_(p, q)) t (D : 'M[C]_(p, q)) : Prop :=
  forall i j, has_derivative (fun x => F x i j) t (D i j).
(** A family of matrices with a smooth choice of eigenvalues and unit eigenvectors. *)
Definition eigen_family n (A : R -> 'M[C]_n) (lam : R -> 'rV[C]_n) (V : R -> 'M[C]_n) t A' lam' V' : Prop :=
  [/\ forall x, A x *m V x = V x *m diag (lam x), forall x, unit_columns (V x),
      mx_derivative A t A', mx_derivative lam t lam' & mx_derivative V t V'].
(** The loss does not depend on the phases of the eigenvectors. *)
Definition phase_invariant n (V gV : 'M[C]_n) : Prop := forall b, im (\sum_i gV i b * V i b) = R0.
(** The change of the loss when eigenvector [b] tilts towards eigenvector [a], keeping its length. *)
Definition sensitivity n (V gV : 'M[C]_n) (a b : 'I_n) : C :=
  \sum_i gV i b * V i a - RtoC (re (\sum_i gV i b * V i b)) * \sum_k Cconj (V k b) * V k a.

(** Model of the differentiable eigendecomposition of src/fmmax/utils.py, for one batch element. *)
From Coq Require Import Reals.
From mathcomp Require Import all_ssreflect all_algebra.
From Verif Require Import CField Err LinAlg.
Set Implicit Arguments. Unset Strict Implicit. Unset Printing Implicit Defensive.
Import GRing.Theory.
Local Open Scope ring_scope.

(** utils.py 23-24 *)
Definition EIG_EPS_RELATIVE : R := (/ 10 ^ 12)%coqR.
Definition EIG_EPS_MINIMUM : R := (/ 10 ^ 24)%coqR.

(** utils.py 217-219: [eigenvalues[newaxis, :] - eigenvalues[:, newaxis]]. *)
Definition delta_eig n (eigenvalues : 'rV[C]_n) (a b : 'I_n) : C := eigenvalues 0 b - eigenvalues 0 a.
(** utils.py 220 *)
Definition eig_range_sq n (eigenvalues : 'rV[C]_n) : R :=
  foldr Rmax 0%coqR [seq (Cmod (delta_eig eigenvalues p.1 p.2) ^ 2)%coqR
                    | p <- [seq (a, b) | a <- enum 'I_n, b <- enum 'I_n]].
(** utils.py 221 *)
Definition eig_eps n (eps_relative : R) (eigenvalues : 'rV[C]_n) : R :=
  Rmax (eps_relative * eig_range_sq eigenvalues) EIG_EPS_MINIMUM.
(** utils.py 222-226: Lorentzian broadening, with zeros on the diagonal. *)
Definition f_broadened n (eps_relative : R) (eigenvalues : 'rV[C]_n) : 'M[C]_n :=
  \matrix_(a, b) if a == b then 0 else
    Cconj (delta_eig eigenvalues a b) /
    RtoC (Cmod (delta_eig eigenvalues a b) ^ 2 + eig_eps eps_relative eigenvalues)%coqR.

(** Elementwise product. *)
Definition mulw n p (A B : 'M[C]_(n, p)) : 'M[C]_(n, p) := \matrix_(i, j) (A i j * B i j).

(** utils.py 178-253 [_eig_bwd]: from the eigendecomposition and the cotangents of its
    eigenvalues and eigenvectors, the cotangent of the matrix. (The maximum of an empty array
    raises; so does this model for a 0 by 0 matrix.) *)
Definition eig_bwd n (eigenvalues : 'rV[C]_n) (eigenvectors : 'M[C]_n) (eps_relative : R)
    (grad_eigenvalues : 'rV[C]_n) (grad_eigenvectors : 'M[C]_n) : res 'M[C]_n :=
  if n == 0%N then Exn ValueError else
  let f := f_broadened eps_relative eigenvalues in
  let grad_eigenvalues_conj := conjm grad_eigenvalues in
  let grad_eigenvectors_conj := conjm grad_eigenvectors in
  let eigenvectors_H := adjm eigenvectors in
  let g := eigenvectors_H *m grad_eigenvectors_conj in
  let diagonal := \matrix_(i, j) (if i == j then RtoC (re (g i j)) else 0) in
  let rhs := (diag grad_eigenvalues_conj + mulw (conjm f) g
              - mulw (conjm f) (eigenvectors_H *m eigenvectors) *m diagonal) *m eigenvectors_H in
  grad_matrix <- solve eigenvectors_H rhs;;
  Val (conjm grad_matrix).

(** Python exceptions and non-finite array results as values. *)
From mathcomp Require Import ssreflect ssrfun ssrbool eqtype seq.
Set Implicit Arguments. Unset Strict Implicit. Unset Printing Implicit Defensive.

(** [NonFinite] stands for an array result that contains inf or nan, which jax
    returns silently instead of raising (singular solves, division by zero). *)
Inductive exn := ValueError | AssertionError | TypeError | IndexError | ZeroDivisionError | NonFinite.

Inductive res (T : Type) := Val of T | Exn of exn.
Arguments Exn {T} _.

Definition bind (A B : Type) (m : res A) (k : A -> res B) : res B :=
  match m with Val a => k a | Exn e => Exn e end.
Definition rmap (A B : Type) (f : A -> B) (m : res A) : res B :=
  match m with Val a => Val (f a) | Exn e => Exn e end.

Declare Scope res_scope.
Delimit Scope res_scope with res.
Notation "x <- m ;; k" := (bind m (fun x => k))
  (at level 100, m at next level, right associativity, format "x  <-  m ;;  '//' k") : res_scope.
Notation "' p <- m ;; k" := (bind m (fun p => k))
  (at level 100, p pattern, m at next level, right associativity,
   format "' p  <-  m ;;  '//' k") : res_scope.
Open Scope res_scope.

(** [check b e k]: [if not b: raise e], then continue with [k]. *)
Definition check (B : Type) (b : bool) (e : exn) (k : res B) : res B := if b then k else Exn e.

Lemma bindV (A B : Type) (m : res A) (k : A -> res B) y :
  bind m k = Val y -> exists2 x, m = Val x & k x = Val y.
Proof. by case: m => //= a h; exists a. Qed.
Lemma rmapV (A B : Type) (f : A -> B) (m : res A) y :
  rmap f m = Val y -> exists2 x, m = Val x & f x = y.
Proof. by case: m => //= a [h]; exists a. Qed.
Lemma checkV (B : Type) b e (k : res B) y : check b e k = Val y -> b /\ k = Val y.
Proof. by case: b. Qed.
Lemma Val_inj (A : Type) (x y : A) : Val x = Val y -> x = y. Proof. by case. Qed.

(** [mapM f s]: a python list comprehension whose body may raise. *)
Fixpoint mapM (A B : Type) (f : A -> res B) (s : seq A) : res (seq B) :=
  match s with
  | [::] => Val [::]
  | x :: s' => y <- f x;; ys <- mapM f s';; Val (y :: ys)
  end.

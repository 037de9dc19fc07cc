(** Lemmas on shapes. *)
From Coq Require Import Reals ZArith.
From mathcomp Require Import all_ssreflect all_algebra.
From Verif Require Import Tac CField Err LinAlg M_utils M_basis M_nd M_fmm M_batch S_utils P_utils S_batch.
Set Implicit Arguments. Unset Strict Implicit. Unset Printing Implicit Defensive.

Lemma butlast_cat (s t : seq nat) : butlast (size t) (s ++ t) = s.
Proof. by rewrite /butlast size_cat addnK take_size_cat. Qed.
Lemma butlast1 (s : seq nat) a : butlast 1 (s ++ [:: a]) = s. Proof. exact: butlast_cat. Qed.
Lemma butlast2 (s : seq nat) a b : butlast 2 (s ++ [:: a; b]) = s. Proof. exact: butlast_cat. Qed.
Lemma butlast1_2 (s : seq nat) a b : butlast 1 (s ++ [:: a; b]) = s ++ [:: a].
Proof. by rewrite -[[:: a; b]]/([:: a] ++ [:: b]) catA; exact: butlast_cat. Qed.
Lemma last_cat2 (s : seq nat) a b : last 0 (s ++ [:: a; b]) = b. Proof. by rewrite last_cat. Qed.
Lemma size2_cat (s : seq nat) : 2 <= size s -> exists t a b, s = t ++ [:: a; b].
Proof.
case/lastP: s => // s b; case/lastP: s => // s a _; exists s, a, b.
by rewrite -!cats1 -catA.
Qed.

(** Compatibility of two nonempty shapes. *)
Lemma compatible2 s t : 0 \notin s -> 0 \notin t ->
  batch_compatible_shapes [:: s; t] = Val true <-> broadcastable [:: s; t].
Proof.
move=> hs ht; have [] // := @C27_broadcastable [:: s; t].
by move=> r; rewrite !inE => /orP [/eqP ->|/eqP ->].
Qed.
Lemma incompatibleP s t : 0 \notin s -> 0 \notin t ->
  (incompatible s t = Val false <-> consistent s t) /\ (incompatible s t = Val true \/ incompatible s t = Val false).
Proof.
move=> hs ht; have [h _] := compatible2 hs ht; have [_ h2] := compatible2 hs ht.
rewrite /incompatible; case e: batch_compatible_shapes => [b|] //; cbn [bind]; split; last first.
- by case: (_ || _); [left|right].
- split.
  + by case=> /negbT; rewrite negb_or !negbK => /andP [/eqP h1 hb]; split=> //; apply: h; rewrite e hb.
  + by case=> h1 /h2; rewrite e h1 eqxx => -[->].
Qed.
Lemma rejectP T s t (k : res T) : 0 \notin s -> 0 \notin t -> (k = Exn ValueError \/ exists x, k = Val x) ->
  ((exists x, reject (incompatible s t) k = Val x) <-> consistent s t /\ (exists x, k = Val x)) /\
  (reject (incompatible s t) k = Exn ValueError \/ exists x, reject (incompatible s t) k = Val x).
Proof.
move=> hs ht hk; have [h [e|e]] := incompatibleP hs ht; rewrite /reject e; cbn [bind check negb]; split.
- by split=> [[x]|[/h]] //; rewrite e.
- by left.
- by split=> [hx|[]] //; split=> //; apply/h.
- by case: hk => [->|hk]; [left|right].
Qed.
Lemma checkP (b : bool) T (k : res T) : (k = Exn ValueError \/ exists x, k = Val x) ->
  ((exists x, check b ValueError k = Val x) <-> b /\ (exists x, k = Val x)) /\
  (check b ValueError k = Exn ValueError \/ exists x, check b ValueError k = Val x).
Proof.
move=> hk; case: b; cbn [check]; split.
- by split=> [|[]].
- exact: hk.
- by split=> [[]|[]].
- by left.
Qed.

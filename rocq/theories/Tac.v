(** Arithmetic on mathcomp's natural numbers by [lia]. *)
From Coq Require Import Lia.
From mathcomp Require Import all_ssreflect.
Ltac natlia :=
  repeat match goal with
  | H : is_true (leq _ _) |- _ => move/leP: H => H
  | H : is_true (_ && _) |- _ => let H1 := fresh H in case/andP: H => H1 H
  | H : is_true (~~ leq _ _) |- _ => rewrite -ltnNge in H
  | |- is_true (leq _ _) => apply/leP
  | |- is_true (_ && _) => apply/andP; split
  | H : is_true (@eq_op nat_eqType _ _) |- _ => move/eqP: H => H
  | |- is_true (@eq_op nat_eqType _ _) => apply/eqP
  end; change addn with Nat.add in *; change subn with Nat.sub in *; change muln with Nat.mul in *; lia.
Goal forall a b c, (a < b)%N -> (b + c <= 3)%N -> (a - c < 3)%N /\ (a + 0 == a)%N.
Proof. move=> a b c h1 h2; split; natlia. Qed.

(** Positions of the orders of an expansion on a merged grid: [num] points of the Brillouin zone
    per order, orders from [lo] on. *)
From Coq Require Import Reals ZArith.
From mathcomp Require Import all_ssreflect all_algebra.
From Verif Require Import CField.
Set Implicit Arguments. Unset Strict Implicit. Unset Printing Implicit Defensive.

Section Positions.
Variables (n : nat) (expn : n.-tuple (Z * Z)).
Definition lowest (c : Z * Z -> Z) (z : Z) :=
  (exists t, c (tnth expn t) = z) /\ forall t, (z <= c (tnth expn t))%coqZ.
Definition highest (c : Z * Z -> Z) (z : Z) :=
  (exists t, c (tnth expn t) = z) /\ forall t, (c (tnth expn t) <= z)%coqZ.
(** The place of point [bz] of order [o] along an axis. *)
Definition merged (lo o : Z) (num bz : nat) : nat := (Z.to_nat (o - lo) * num + bz)%N.
(** The number of places along an axis. *)
Definition merged_size (lo hi : Z) (num : nat) : nat := (Z.to_nat (hi - lo + 1) * num)%N.
End Positions.

(** Axes other than the two given ones and the last two, of an array with [d] axes. *)
Definition others (d x y : nat) : seq nat := [seq k <- iota 0 (d - 2) | (k != x) && (k != y)].
Definition gather (idx axes : seq nat) : seq nat := [seq nth 0 idx a | a <- axes].

(** The transverse wavevector of a plane wave in free space leaving at polar angle [theta] and
    azimuthal angle [phi]. *)
Definition transverse_of_angles (wavelength theta phi : R) : R * R :=
  let k := (2 * PI / wavelength)%coqR in (k * sin theta * cos phi, k * sin theta * sin phi)%coqR.
(** The direction of a vector: an angle in (-pi, pi] along which the vector points. *)
Definition direction (v : R * R) (phi : R) :=
  (- PI < phi <= PI)%coqR /\
  exists r, [/\ (0 <= r)%coqR, v = (r * cos phi, r * sin phi)%coqR & v = (0, 0)%coqR -> phi = 0%coqR].

(** Linear interpolation from [num] samples to [f * num] samples that cover the same interval,
    constant beyond the first and the last sample: the share of input [i] in output [o]. *)
Definition interpolation (num f i o : nat) : R :=
  let s := ((INR o + 1 / 2) / INR f - 1 / 2)%coqR in
  let s' := Rmin (INR num - 1) (Rmax 0 s) in
  Rmax 0 (1 - Rabs (s' - INR i)).

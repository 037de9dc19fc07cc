(** What a uniaxial perfectly matched layer is. An axis has [s] points, of which the first [w]
    and the last [w] belong to the layer. *)
From Coq Require Import Reals ZArith.
From mathcomp Require Import all_ssreflect all_algebra.
From Verif Require Import CField M_pml.
Set Implicit Arguments. Unset Strict Implicit. Unset Printing Implicit Defensive.
Import GRing.Theory.
Local Open Scope ring_scope.

Definition interior (s w i : nat) : bool := (w <= i)%N && (i + w < s)%N.
(** The point of the interior closest to point [i]. *)
Definition nearest (s w i : nat) : nat :=
  if (i < w)%N then w else if (s <= i + w)%N then (s - w - 1)%N else i.
(** The number of points between [i] and the interior, as a fraction of the width. *)
Definition depth (s w i : nat) : R :=
  if (i < w)%N then (INR (w - i) / INR w)%coqR
  else if (s <= i + w)%N then (INR (i + w + 1 - s) / INR w)%coqR else 0%coqR.
Definition mirror (s i : nat) : nat := (s - 1 - i)%N.

(** The stretching factor at a given depth, one outside of the layer. *)
Definition stretch (P : pml_params) (d : R) : C :=
  if d != 0 then
    RtoC (1 + a_max P * Rpower d (p_exp P))%coqR
    * (1 + Ci * RtoC (sigma_max P * (sin (PI / 2 * d)) ^ 2)%coqR)
  else 1.
(** The tensor of a uniaxial medium: [e] times diag(sy/sx, sx/sy, sx sy). *)
Definition uniaxial (sx sy e : C) : tensor :=
  Tensor (sy / sx * e) 0 0 (sx / sy * e) (sx * sy * e).
Definition isotropic (e : C) : tensor := Tensor e 0 0 e e.

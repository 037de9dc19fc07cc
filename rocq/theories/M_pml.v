(** Model of src/fmmax/pml.py, for one leading batch element. An array is a shape and a
    function of the two trailing indices. *)
From Coq Require Import Reals ZArith.
From mathcomp Require Import all_ssreflect all_algebra.
From Verif Require Import CField Err LinAlg.
Set Implicit Arguments. Unset Strict Implicit. Unset Printing Implicit Defensive.
Import GRing.Theory.
Local Open Scope ring_scope.

Definition array2 := ((nat * nat) * (nat -> nat -> C))%type.

(** pml.py 13-29 [PMLParams] *)
Record pml_params := PMLParams { num_x : Z; num_y : Z; a_max : R; p_exp : R; sigma_max : R }.

(** Python's slice bounds: index [x] of [arr[x:]] or [arr[:x]] on an axis of length [s]. *)
Definition slice_index (s : nat) (x : Z) : nat :=
  Z.to_nat (if Z.ltb x 0 then Z.max 0 (x + Z.of_nat s) else Z.min x (Z.of_nat s)).
(** Python's tuple comparison [(a, b) >= (c, d)]. *)
Definition tuple_ge (x y : Z * Z) : bool :=
  Z.ltb y.1 x.1 || (Z.eqb x.1 y.1 && Z.leb y.2 x.2).
(** jnp.pad(..., mode="edge") of [w] points on both sides of an axis of length [n]: the source
    index of point [i]. *)
Definition edge_index (w n i : nat) : nat := minn (i - w)%N n.-1.

(** pml.py 101-123 [_crop_and_edge_pad_pml_region]. [jnp.pad] raises ValueError for negative
    widths, and for edge padding of an empty axis by a positive width. *)
Definition crop_and_edge_pad (x : array2) (widths : Z * Z) : res array2 :=
  let (shape, v) := x in
  let (i_width, j_width) := widths in
  let s0 := Z.of_nat shape.1 in
  let s1 := Z.of_nat shape.2 in
  check (~~ tuple_ge (i_width * 2, j_width * 2)%coqZ (s0, s1)) ValueError
  (let i0 := slice_index shape.1 i_width in
   let i1 := slice_index shape.1 (s0 - i_width) in
   let j0 := slice_index shape.2 j_width in
   let j1 := slice_index shape.2 (s1 - j_width) in
   let n0 := (i1 - i0)%N in
   let n1 := (j1 - j0)%N in
   check (Z.leb 0 i_width && Z.leb 0 j_width) ValueError
   (check ((n0 != 0%N) || Z.eqb i_width 0) ValueError
   (check ((n1 != 0%N) || Z.eqb j_width 0) ValueError
   (let wi := Z.to_nat i_width in
    let wj := Z.to_nat j_width in
    Val ((n0 + 2 * wi, n1 + 2 * wj)%N,
         fun i j => v (i0 + edge_index wi n0 i)%N (j0 + edge_index wj n1 j)%N))))).

(** pml.py 126-146 [_normalized_distance_into_pml], along one axis of length [s]. *)
Definition normalized_distance (s : nat) (width : Z) (i : nat) : R :=
  let d := Z.max (Z.max (width - Z.of_nat i) 0) (Z.of_nat i - (Z.of_nat s - width - 1)) in
  let scale := if Z.eqb width 0 then 1%coqR else (1 / IZR (if Z.eqb width 0 then 1 else width)%coqZ)%coqR in
  (IZR d * scale)%coqR.

(** [x ** p] for a nonnegative [x]: [0 ** 0] is one, a negative power of zero is inf. *)
Definition float_pow (x p : R) : res R :=
  if x != 0 then Val (Rpower x p)
  else if p == 0 then Val 1%coqR
  else if Rlt_dec 0 p then Val 0%coqR else Exn NonFinite.

Record tensor := Tensor { t_xx : C; t_xy : C; t_yx : C; t_yy : C; t_zz : C }.

(** pml.py 66-71: the complex stretching factor at distance [d]. *)
Definition stretching (P : pml_params) (d : R) : res C :=
  dp <- float_pow d (p_exp P);;
  Val ((1 + RtoC (a_max P) * RtoC dp) * (1 + Ci * RtoC (sigma_max P) * RtoC (sin (PI / 2 * d) ^ 2)%coqR)).

(** pml.py 32-98 [apply_uniaxial_pml]. The result is the shape and, at each point, the two
    tensors or [NonFinite]. *)
Definition apply_uniaxial_pml (permittivity : array2) (P : pml_params)
    : res ((nat * nat) * (nat -> nat -> res (tensor * tensor))) :=
  permittivity <- crop_and_edge_pad permittivity (num_x P, num_y P);;
  let shape := permittivity.1 in
  Val (shape, fun i j =>
    let dx := normalized_distance shape.1 (num_x P) i in
    let dy := normalized_distance shape.2 (num_y P) j in
    sx <- stretching P dx;;
    sy <- stretching P dy;;
    let sz := 1 in
    inv_sx <- recipC sx;;
    inv_sy <- recipC sy;;
    let e := permittivity.2 i j in
    Val (Tensor (sy * sz * inv_sx * e) 0 0 (sx * sz * inv_sy * e) (sx * sy / sz * e),
         Tensor (sy * sz * inv_sx * 1) 0 0 (sx * sz * inv_sy * 1) (sx * sy / sz * 1))).

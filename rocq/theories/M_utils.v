(** Model of src/fmmax/utils.py: shapes, axes, frequency, permittivity interpolation.
    ([diag], [matrix_adjoint] are in LinAlg.v; [eig] is in M_eig.v.) *)
From Coq Require Import Reals ZArith.
From mathcomp Require Import all_ssreflect all_algebra.
From Verif Require Import CField Err LinAlg.
Set Implicit Arguments. Unset Strict Implicit. Unset Printing Implicit Defensive.

(** utils.py 35-37 [angular_frequency_for_wavelength]; a zero wavelength gives inf. *)
Definition angular_frequency (wavelength : R) : res R :=
  r <- recipR wavelength;; Val (2 * PI * r)%coqR.

(** utils.py 46-54 [batch_compatible_shapes]. [max([])] on an empty argument list raises. *)
Definition max_list (s : seq nat) : nat := foldr maxn 0 s.
Definition pad_shape (d : nat) (s : seq nat) : seq nat := nseq (d - size s) 1 ++ s.
Definition max_shape (d : nat) (shapes : seq (seq nat)) : seq nat :=
  [seq max_list [seq nth 0 s i | s <- shapes] | i <- iota 0 d].
Definition batch_compatible_shapes (shapes : seq (seq nat)) : res bool :=
  match shapes with
  | [::] => Exn ValueError
  | _ =>
    let max_dims := max_list (map size shapes) in
    let shapes' := map (pad_shape max_dims) shapes in
    let ms := max_shape max_dims shapes' in
    Val (all (fun s => all (fun ab : nat * nat => (ab.1 == 1) || (ab.1 == ab.2)) (zip s ms)) shapes')
  end.

(** utils.py 57-60 [atleast_nd], effect on the shape ([expand_dims] at leading axes). *)
Definition atleast_nd_shape (s : seq nat) (n : nat) : seq nat := nseq (n - size s) 1 ++ s.

(** utils.py 63-75 [absolute_axes]. Python's [%] with positive modulus is [Z.modulo];
    with [ndim = 0] the range is empty, so any axis raises before [%] is evaluated. *)
Definition absolute_axes (axes : seq Z) (ndim : nat) : res (seq Z) :=
  let nd := Z.of_nat ndim in
  check (all (fun a : Z => Z.leb (- nd) a && Z.ltb a nd) axes) ValueError
    (let abs := map (fun d => Z.modulo d nd) axes in
     check (List.length abs == List.length (List.nodup Z.eq_dec abs)) ValueError (Val abs)).

(** utils.py 78-103 [interpolate_permittivity], elementwise, for complex arrays ([jnp.sqrt] of a
    negative number in an array of real dtype is nan instead). *)
Definition interpolate_permittivity (permittivity_solid permittivity_void : C) (density : R) : C :=
  let n_solid := re (csqrt permittivity_solid) in
  let k_solid := im (csqrt permittivity_solid) in
  let n_void := re (csqrt permittivity_void) in
  let k_void := im (csqrt permittivity_void) in
  let n := (density * n_solid + (1 - density) * n_void)%coqR in
  let k := (density * k_solid + (1 - density) * k_void)%coqR in
  ((RtoC n + Ci * RtoC k) ^+ 2)%R.

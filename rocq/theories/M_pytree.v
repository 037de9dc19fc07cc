(** Model of the pytree registrations (basis.py 396-430, fmm.py 1126-1158, scattering.py 576-592,
    pml.py 149-158) and of [_HashableArray] (basis.py 433-449). *)
From Coq Require Import Reals ZArith SpecFloat String.
From mathcomp Require Import all_ssreflect all_algebra.
From Verif Require Import CField Err LinAlg M_utils M_basis M_nd M_fmm M_batch.
Set Implicit Arguments. Unset Strict Implicit. Unset Printing Implicit Defensive.

(** ** numpy arrays and their hashable wrapper *)
(** The elements of an array in row-major order. An array holds either 64-bit integers, here
    unbounded, or binary64 floats. *)
Inductive elements := Ints of seq Z | Floats of seq spec_float.
Record harray := HArray { h_shape : seq nat; h_elements : elements }.

(** basis.py 439-440 [_HashableArray.__hash__]: the tuple that is hashed. The bytes of an element
    determine it, sign of zero included, and (with one nan only) are determined by it; the tag of
    [elements] is the dtype. *)
Definition hash_key (x : harray) : seq nat * elements := (h_shape x, h_elements x).

(** basis.py 442-449 [_HashableArray.__eq__]; [==] of floats is that of IEEE 754. *)
Definition eq_elements (x y : elements) : bool :=
  match x, y with
  | Ints s, Ints t => all (fun ab : Z * Z => Z.eqb ab.1 ab.2) (zip s t)
  | Floats s, Floats t => all (fun ab => SFeqb ab.1 ab.2) (zip s t)
  | _, _ => false
  end.
Definition hash_eq (x y : harray) : bool := (h_shape x == h_shape y) && eq_elements (h_elements x) (h_elements y).
(** The number of elements is that given by the shape. *)
Definition num_elements (x : harray) : nat :=
  match h_elements x with Ints s => size s | Floats s => size s end.
Definition well_formed (x : harray) : bool := num_elements x == foldr muln 1 (h_shape x).

(** ** Containers *)
(** [shape[-1]] *)
Definition trailing (s : seq nat) : res nat := if s is d :: s' then Val (last d s') else Exn IndexError.
(** basis.py 22-43 [LatticeVectors] with its constructor. The vectors are arrays: the code skips the
    validation for anything else. *)
Record lattice_vectors := LV { lv_u : nd R; lv_v : nd R }.
Definition new_lattice_vectors (u v : nd R) : res lattice_vectors :=
  du <- trailing (nshape u);;
  check (du == 2) ValueError (dv <- trailing (nshape v);; check (dv == 2) ValueError (Val (LV u v))).
(** basis.py 51-75 [Expansion] with its constructor *)
Record expansion_obj := EO { basis_coefficients : harray }.
Definition new_expansion (c : harray) : res expansion_obj :=
  check ((size (h_shape c) == 2) && (last 0 (h_shape c) == 2)) ValueError (Val (EO c)).
Definition num_terms (x : expansion_obj) : nat := head 0 (h_shape (basis_coefficients x)).

(** fmm.py 227-264 [LayerSolveResult] with its constructor *)
Record lsr := NewLSR {
  l_wavelength : nd R; l_in_plane_wavevector : nd R; l_lattice : lattice_vectors; l_expansion : expansion_obj;
  l_eigenvalues : nd C; l_eigenvectors : nd C; l_z_permittivity : nd C; l_inverse_z_permittivity : nd C;
  l_z_permeability : nd C; l_inverse_z_permeability : nd C; l_transverse_permeability : nd C;
  l_tangent : option (nd C * nd C) }.
Definition lsr_shapes (x : lsr) : solve_shapes := SolveShapes
  (nshape (l_wavelength x)) (nshape (l_in_plane_wavevector x)) (nshape (lv_u (l_lattice x))) (nshape (lv_v (l_lattice x)))
  (num_terms (l_expansion x)) (nshape (l_eigenvalues x)) (nshape (l_eigenvectors x))
  (nshape (l_z_permittivity x)) (nshape (l_inverse_z_permittivity x))
  (nshape (l_z_permeability x)) (nshape (l_inverse_z_permeability x))
  (nshape (l_transverse_permeability x)) (omap (fun t => nshape t.1) (l_tangent x)).
Definition new_lsr (x : lsr) : res lsr := _ <- post_init (lsr_shapes x);; Val x.
(** scattering.py 17-68 [ScatteringMatrix] *)
Record smatrix := SM { m_s11 : nd C; m_s12 : nd C; m_s21 : nd C; m_s22 : nd C;
  m_start : lsr; m_start_thickness : nd R; m_end : lsr; m_end_thickness : nd R }.
(** pml.py 13-29 [PMLParams] *)
Record pml_obj := PMLObj { o_num_x : Z; o_num_y : Z; o_a_max : R; o_p : R; o_sigma_max : R }.
(** basis.py 78-83 [Truncation]; fmm.py 26-38 [Formulation], with vector.py 638-646 *)
Inductive truncation_obj := CIRCULAR | PARALLELOGRAMIC.
Definition truncation_value (t : truncation_obj) : string :=
  match t with CIRCULAR => "circular" | PARALLELOGRAMIC => "parallelogramic" end.
Inductive formulation_obj := FFT | JONES_DIRECT | JONES | NORMAL | POL
  | JONES_DIRECT_FOURIER | JONES_FOURIER | NORMAL_FOURIER | POL_FOURIER.
Definition formulation_value (f : formulation_obj) : string :=
  match f with
  | FFT => "fft" | JONES_DIRECT => "jones_direct" | JONES => "jones" | NORMAL => "normal" | POL => "pol"
  | JONES_DIRECT_FOURIER => "jones_direct_fourier" | JONES_FOURIER => "jones_fourier"
  | NORMAL_FOURIER => "normal_fourier" | POL_FOURIER => "pol_fourier"
  end.
(** [enum.Enum.__call__]: lookup by value. *)
Definition of_value (T : Type) (members : seq T) (value : T -> string) (s : string) : res T :=
  match [seq m <- members | String.eqb (value m) s] with m :: _ => Val m | [::] => Exn ValueError end.
Definition truncations := [:: CIRCULAR; PARALLELOGRAMIC].
Definition formulations := [:: FFT; JONES_DIRECT; JONES; NORMAL; POL; JONES_DIRECT_FOURIER; JONES_FOURIER; NORMAL_FOURIER; POL_FOURIER].

(** ** Registered functions: children and auxiliary data, and back *)
Inductive child := Real of nd R | Cplx of nd C | Lat of lattice_vectors | Exp of expansion_obj
  | Tangent of option (nd C * nd C) | Layer of lsr.
(** basis.py 401-405 *)
Definition flatten_lattice (x : lattice_vectors) : seq child := [:: Real (lv_u x); Real (lv_v x)].
Definition unflatten_lattice (s : seq child) : res lattice_vectors :=
  match s with [:: Real u; Real v] => new_lattice_vectors u v | _ => Exn TypeError end.
(** basis.py 408-412 *)
Definition flatten_truncation (t : truncation_obj) : seq child * string := ([::], truncation_value t).
Definition unflatten_truncation (s : seq child * string) : res truncation_obj := of_value truncations truncation_value s.2.
(** basis.py 415-430: the coefficients are auxiliary data. *)
Definition flatten_expansion (x : expansion_obj) : seq child * harray := ([::], basis_coefficients x).
Definition unflatten_expansion (s : seq child * harray) : res expansion_obj := new_expansion s.2.
(** fmm.py 1131-1135 *)
Definition flatten_formulation (f : formulation_obj) : seq child * string := ([::], formulation_value f).
Definition unflatten_formulation (s : seq child * string) : res formulation_obj := of_value formulations formulation_value s.2.
(** fmm.py 1138-1158 *)
Definition flatten_lsr (x : lsr) : seq child :=
  [:: Real (l_wavelength x); Real (l_in_plane_wavevector x); Lat (l_lattice x); Exp (l_expansion x);
      Cplx (l_eigenvalues x); Cplx (l_eigenvectors x); Cplx (l_z_permittivity x); Cplx (l_inverse_z_permittivity x);
      Cplx (l_z_permeability x); Cplx (l_inverse_z_permeability x); Cplx (l_transverse_permeability x);
      Tangent (l_tangent x)].
Definition unflatten_lsr (s : seq child) : res lsr :=
  match s with
  | [:: Real w; Real k; Lat l; Exp e; Cplx ev; Cplx vec; Cplx ez; Cplx iez; Cplx mz; Cplx imz; Cplx mt; Tangent t] =>
      new_lsr (NewLSR w k l e ev vec ez iez mz imz mt t)
  | _ => Exn TypeError
  end.
(** scattering.py 576-592 *)
Definition flatten_smatrix (x : smatrix) : seq child :=
  [:: Cplx (m_s11 x); Cplx (m_s12 x); Cplx (m_s21 x); Cplx (m_s22 x); Layer (m_start x); Real (m_start_thickness x);
      Layer (m_end x); Real (m_end_thickness x)].
Definition unflatten_smatrix (s : seq child) : res smatrix :=
  match s with
  | [:: Cplx a; Cplx b; Cplx c; Cplx d; Layer l0; Real t0; Layer l1; Real t1] => Val (SM a b c d l0 t0 l1 t1)
  | _ => Exn TypeError
  end.
(** pml.py 154-158: all parameters are auxiliary data. *)
Definition flatten_pml (x : pml_obj) : seq child * (Z * Z * R * R * R) :=
  ([::], (o_num_x x, o_num_y x, o_a_max x, o_p x, o_sigma_max x)).
Definition unflatten_pml (s : seq child * (Z * Z * R * R * R)) : pml_obj :=
  let: (a, b, c, d, e) := s.2 in PMLObj a b c d e.

(** ** [jax.tree_util.tree_map] with a function [fR] on real and [fC] on complex arrays: the children
    are mapped, containers among them recursively, and the object is rebuilt. *)
Definition map_lattice (fR : nd R -> nd R) (x : lattice_vectors) : res lattice_vectors :=
  unflatten_lattice (map (fun c => match c with Real a => Real (fR a) | c => c end) (flatten_lattice x)).
Definition map_expansion (x : expansion_obj) : res expansion_obj := unflatten_expansion (flatten_expansion x).
Definition map_array_child (fR : nd R -> nd R) (fC : nd C -> nd C) (c : child) : res child :=
  match c with
  | Real a => Val (Real (fR a))
  | Cplx a => Val (Cplx (fC a))
  | Lat l => l' <- map_lattice fR l;; Val (Lat l')
  | Exp e => e' <- map_expansion e;; Val (Exp e')
  | Tangent t => Val (Tangent (omap (fun t => (fC t.1, fC t.2)) t))
  | Layer _ => Exn TypeError
  end.
Definition map_lsr (fR : nd R -> nd R) (fC : nd C -> nd C) (x : lsr) : res lsr := s <- mapM (map_array_child fR fC) (flatten_lsr x);; unflatten_lsr s.
Definition map_child (fR : nd R -> nd R) (fC : nd C -> nd C) (c : child) : res child :=
  match c with Layer x => x' <- map_lsr fR fC x;; Val (Layer x') | c => map_array_child fR fC c end.
Definition map_smatrix (fR : nd R -> nd R) (fC : nd C -> nd C) (x : smatrix) : res smatrix := s <- mapM (map_child fR fC) (flatten_smatrix x);; unflatten_smatrix s.

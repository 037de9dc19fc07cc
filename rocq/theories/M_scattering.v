(** Model of src/fmmax/scattering.py, for one batch element. [force_x64_solve] only
    affects floating point precision and is not modelled. *)
From Coq Require Import Reals ZArith.
From mathcomp Require Import all_ssreflect all_algebra.
From Verif Require Import CField Err LinAlg M_utils M_basis M_fft M_fmm_matrices M_fmm.
Set Implicit Arguments. Unset Strict Implicit. Unset Printing Implicit Defensive.
Import GRing.Theory.
Local Open Scope ring_scope.

(** scattering.py 17-68 [ScatteringMatrix] *)
Record scattering_matrix n := SMat {
  s11 : 'M[C]_(n + n); s12 : 'M[C]_(n + n); s21 : 'M[C]_(n + n); s22 : 'M[C]_(n + n);
  start_layer_solve_result : layer_solve_result n; start_layer_thickness : R;
  end_layer_solve_result : layer_solve_result n; end_layer_thickness : R }.

(** [jnp.exp(1j * q * d)] *)
Definition phase m (q : 'rV[C]_m) (d : R) : 'rV[C]_m := \row_i cexp (Ci * q 0 i * RtoC d).

Definition half : C := RtoC (1 / 2)%coqR.

(** The interface matrices, scattering.py 415-441 (identical in 475-491): [(i11, i12)];
    the code sets [i22 = i11] and [i21 = i12]. *)
Definition interface_matrices n (layer next_layer : layer_solve_result n)
    : res ('M[C]_(n + n) * 'M[C]_(n + n)) :=
  let q := eigenvalues layer in
  let phi := eigenvectors layer in
  omega_k <- omega_script_k_matrix layer;;
  let next_q := eigenvalues next_layer in
  let next_phi := eigenvectors next_layer in
  next_omega_k <- omega_script_k_matrix next_layer;;
  inv_next_q <- recip next_q;;
  t1 <- solve (omega_k *m phi) (colscale (next_omega_k *m next_phi) inv_next_q);;
  let term1 := rowscale q t1 in
  term2 <- solve (omega_k *m phi) (omega_k *m next_phi);;
  Val (half *: (term1 + term2), half *: (- term1 + term2)).

(** scattering.py 391-464 [_extend_s_matrix] *)
Definition extend_s_matrix n (blocks : 'M[C]_(n + n) * 'M[C]_(n + n) * 'M[C]_(n + n) * 'M[C]_(n + n))
    (layer : layer_solve_result n) (thickness : R)
    (next_layer : layer_solve_result n) (next_thickness : R)
    : res ('M[C]_(n + n) * 'M[C]_(n + n) * 'M[C]_(n + n) * 'M[C]_(n + n)) :=
  '(i11, i12) <- interface_matrices layer next_layer;;
  let i22 := i11 in
  let i21 := i12 in
  let fd := phase (eigenvalues layer) thickness in
  let fd_next := phase (eigenvalues next_layer) next_thickness in
  let '(s11, s12, s21, s22) := blocks in
  let term3 := i11 - rowscale fd s12 *m i21 in
  s11_next <- solve term3 (rowscale fd s11);;
  s12_next <- solve term3 (colscale (rowscale fd s12 *m i22 - i12) fd_next);;
  let s21_next := s22 *m i21 *m s11_next + s21 in
  let s22_next := s22 *m i21 *m s12_next + colscale (s22 *m i22) fd_next in
  Val (s11_next, s12_next, s21_next, s22_next).

(** scattering.py 467-514 [_pair_s_matrix] *)
Definition pair_s_matrix n (layer : layer_solve_result n) (thickness : R)
    (next_layer : layer_solve_result n) (next_thickness : R) : res (scattering_matrix n) :=
  '(i11, i12) <- interface_matrices layer next_layer;;
  let i22 := i11 in
  let i21 := i12 in
  let fd := phase (eigenvalues layer) thickness in
  let fd_next := phase (eigenvalues next_layer) next_thickness in
  s11 <- solve i11 (diag fd);;
  s12 <- solve i11 (colscale (- i12) fd_next);;
  let s21 := i21 *m s11 in
  let s22 := i21 *m s12 + colscale i22 fd_next in
  Val (SMat s11 s12 s21 s22 layer thickness next_layer next_thickness).

(** scattering.py 313-347 [append_layer] *)
Definition append_layer n (s : scattering_matrix n) (next_layer : layer_solve_result n)
    (next_thickness : R) : res (scattering_matrix n) :=
  '(n11, n12, n21, n22) <-
     extend_s_matrix (s11 s, s12 s, s21 s, s22 s)
       (end_layer_solve_result s) (end_layer_thickness s) next_layer next_thickness;;
  Val (SMat n11 n12 n21 n22 (start_layer_solve_result s) (start_layer_thickness s)
            next_layer next_thickness).

(** scattering.py 350-388 [prepend_layer] *)
Definition prepend_layer n (s : scattering_matrix n) (next_layer : layer_solve_result n)
    (next_thickness : R) : res (scattering_matrix n) :=
  '(n22, n21, n12, n11) <-
     extend_s_matrix (s22 s, s21 s, s12 s, s11 s)
       (start_layer_solve_result s) (start_layer_thickness s) next_layer next_thickness;;
  Val (SMat n11 n12 n21 n22 next_layer next_thickness
            (end_layer_solve_result s) (end_layer_thickness s)).

(** The identity scattering matrix of one layer, scattering.py 172-183 and 241-258. *)
Definition identity_s_matrix n (layer : layer_solve_result n) (thickness : R) : scattering_matrix n :=
  SMat (diag (const_mx 1)) 0 0 (diag (const_mx 1)) layer thickness layer thickness.

(** The loop, scattering.py 197-210: the list of all intermediate results after [s]. *)
Fixpoint append_layers n (s : scattering_matrix n) (layers : seq (layer_solve_result n * R))
    : res (seq (scattering_matrix n)) :=
  match layers with
  | [::] => Val [::]
  | (l, t) :: rest =>
      s' <- append_layer s l t;;
      tl <- append_layers s' rest;;
      Val (s' :: tl)
  end.

(** scattering.py 147-210 [_stack_s_matrices]; [layer_solve_results[0]] on an empty list
    raises IndexError. *)
Definition stack_s_matrices n (layers : seq (layer_solve_result n)) (thicknesses : seq R)
    : res (seq (scattering_matrix n)) :=
  check (size layers == size thicknesses) ValueError
  (match zip layers thicknesses with
   | [::] => Exn IndexError
   | [:: (l0, t0)] => Val [:: identity_s_matrix l0 t0]
   | (l0, t0) :: (l1, t1) :: rest =>
       s1 <- pair_s_matrix l0 t0 l1 t1;;
       tl <- append_layers s1 rest;;
       Val (identity_s_matrix l0 t0 :: s1 :: tl)
   end).

(** scattering.py 71-91 [stack_s_matrix]: the last of the list. *)
Definition stack_s_matrix n (layers : seq (layer_solve_result n)) (thicknesses : seq R)
    : res (scattering_matrix n) :=
  ss <- stack_s_matrices layers thicknesses;;
  match ss with [::] => Exn IndexError | s :: ss' => Val (last s ss') end.

(** scattering.py 129-143: the scattering matrix of the reversed substack. *)
Definition reverse_s_matrix n (s : scattering_matrix n) : scattering_matrix n :=
  SMat (s22 s) (s21 s) (s12 s) (s11 s) (end_layer_solve_result s) (end_layer_thickness s)
       (start_layer_solve_result s) (start_layer_thickness s).

(** scattering.py 94-144 [stack_s_matrices_interior] *)
Definition stack_s_matrices_interior n (layers : seq (layer_solve_result n)) (thicknesses : seq R)
    : res (seq (scattering_matrix n * scattering_matrix n)) :=
  before <- stack_s_matrices layers thicknesses;;
  reverse <- stack_s_matrices (rev layers) (rev thicknesses);;
  let after := map (@reverse_s_matrix n) (rev reverse) in
  Val (zip before after).

(** scattering.py 213-280 [stack_s_matrix_scan]; the leading batch axis of the solve result
    is the list of its slices. *)
Fixpoint scan_layers n (s : scattering_matrix n) (layers : seq (layer_solve_result n * R))
    : res (scattering_matrix n) :=
  match layers with
  | [::] => Val s
  | (l, t) :: rest => s' <- append_layer s l t;; scan_layers s' rest
  end.
Definition stack_s_matrix_scan n (layers : seq (layer_solve_result n)) (thicknesses : seq R)
    : res (scattering_matrix n) :=
  check (size layers == size thicknesses) ValueError
  (match zip layers thicknesses with
   | [::] => Exn IndexError
   | (l0, t0) :: rest => scan_layers (identity_s_matrix l0 t0) rest
   end).

(** scattering.py 283-310 [redheffer_star_product] *)
Definition redheffer_star_product n (a b : scattering_matrix n) : res (scattering_matrix n) :=
  a_extended <- append_layer a (start_layer_solve_result b) (start_layer_thickness b);;
  let a11 := s11 a_extended in let a12 := s12 a_extended in
  let a21 := s21 a_extended in let a22 := s22 a_extended in
  let b11 := s11 b in let b12 := s12 b in let b21 := s21 b in let b22 := s22 b in
  let eye := diag (const_mx 1) in
  x11 <- solve (eye - a12 *m b21) a11;;
  x12 <- solve (eye - a12 *m b21) (a12 *m b22);;
  x21 <- solve (eye - b21 *m a12) (b21 *m a11);;
  x22 <- solve (eye - b21 *m a12) b22;;
  Val (SMat (b11 *m x11) (b12 + b11 *m x12) (a21 + a22 *m x21) (a22 *m x22)
            (start_layer_solve_result a) (start_layer_thickness a)
            (end_layer_solve_result b) (end_layer_thickness b)).

(** scattering.py 517-541 [set_end_layer_thickness] *)
Definition set_end_layer_thickness n (s : scattering_matrix n) (thickness : R) : scattering_matrix n :=
  let q := eigenvalues (end_layer_solve_result s) in
  let fd := phase q (thickness - end_layer_thickness s) in
  SMat (s11 s) (colscale (s12 s) fd) (s21 s) (colscale (s22 s) fd)
       (start_layer_solve_result s) (start_layer_thickness s)
       (end_layer_solve_result s) thickness.

(** scattering.py 544-568 [set_start_layer_thickness] *)
Definition set_start_layer_thickness n (s : scattering_matrix n) (thickness : R) : scattering_matrix n :=
  let q := eigenvalues (start_layer_solve_result s) in
  let fd := phase q (thickness - start_layer_thickness s) in
  SMat (colscale (s11 s) fd) (s12 s) (colscale (s21 s) fd) (s22 s)
       (start_layer_solve_result s) thickness
       (end_layer_solve_result s) (end_layer_thickness s).

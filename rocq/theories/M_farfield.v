(** Model of src/fmmax/farfield.py. Elements that jax fills with nan are [None]. *)
From Coq Require Import Reals ZArith ClassicalEpsilon.
From mathcomp Require Import all_ssreflect all_algebra.
From Verif Require Import CField Err LinAlg M_utils M_basis M_nd.
Set Implicit Arguments. Unset Strict Implicit. Unset Printing Implicit Defensive.

(** Python's [min] and [max] of a nonempty sequence. *)
Definition minZ (s : seq Z) : Z := foldl Z.min (head 0%coqZ s) (behead s).
Definition maxZ (s : seq Z) : Z := foldl Z.max (head 0%coqZ s) (behead s).

(** farfield.py 346-401 [unflatten]. The scatter writes the flattened elements in order. *)
Definition unflatten T n (flat : nd T) (expansion : n.-tuple (Z * Z)) : res (nd (option T)) :=
  let d := ndim flat in
  check (3 <= d) AssertionError
  (check (nth 0 (nshape flat) (d - 1) == n) AssertionError
  (check (n != 0) ValueError
  (let i := [seq c.1 | c <- expansion] in
   let j := [seq c.2 | c <- expansion] in
   let batch_shape := take (d - 3) (nshape flat) in
   let n0 := nth 0 (nshape flat) (d - 3) in
   let n1 := nth 0 (nshape flat) (d - 2) in
   let shape := batch_shape ++
     [:: Z.to_nat ((maxZ i - minZ i + 1) * Z.of_nat n0); Z.to_nat ((maxZ j - minZ j + 1) * Z.of_nat n1)] in
   let offset_i := (minZ i * Z.of_nat n0)%coqZ in
   let offset_j := (minZ j * Z.of_nat n1)%coqZ in
   let merged_i bz_i t := (nth 0 i t * Z.of_nat n0 + Z.of_nat bz_i - offset_i)%coqZ in
   let merged_j bz_j t := (nth 0 j t * Z.of_nat n1 + Z.of_nat bz_j - offset_j)%coqZ in
   (* position [s] of the flattened arrays of shape (n0, n1, n) *)
   let bz_i s := s %/ (n1 * n) in
   let bz_j s := (s %/ n) %% n1 in
   let term s := s %% n in
   let stacked_i s := merged_i (bz_i s) (term s) in
   let stacked_j s := merged_j (bz_j s) (term s) in
   Val (Nd shape (fun idx =>
     let batch := take (d - 3) idx in
     let p := Z.of_nat (nth 0 idx (d - 3)) in
     let q := Z.of_nat (nth 0 idx (d - 2)) in
     let hits := [seq s <- iota 0 (n0 * n1 * n) | Z.eqb (stacked_i s) p && Z.eqb (stacked_j s) q] in
     if hits is s0 :: _ then
       let s := last s0 hits in
       Some (nget flat (batch ++ [:: bz_i s; bz_j s; term s]))
     else None))))).

(** farfield.py 404-440 [unflatten_flux] *)
Definition unflatten_flux T n (flux : nd T) (expansion : n.-tuple (Z * Z)) (brillouin_grid_axes : Z * Z)
    : res (nd (option T)) :=
  let d := ndim flux in
  check (4 <= d) AssertionError
  (check (nth 0 (nshape flux) (d - 2) == 2 * n) AssertionError
  (axes <- absolute_axes [:: brillouin_grid_axes.1; brillouin_grid_axes.2] d;;
   let bz := map Z.to_nat axes in
   (* reshape to (..., 2, num_terms, num_sources) *)
   let flux := Nd (take (d - 2) (nshape flux) ++ [:: 2; n; nth 0 (nshape flux) (d - 1)])
     (fun idx => nget flux (take (d - 2) idx ++ [:: nth 0 idx (d - 2) * n + nth 0 idx (d - 1); nth 0 idx d])) in
   let batch_axes := [seq i <- iota 0 d.+1 | i \notin bz ++ [:: d.+1 - 2]] in
   let axes := batch_axes ++ [seq i <- iota 0 d.+1 | i \notin batch_axes] in
   flux <- unflatten (transpose flux axes) expansion;;
   let m := ndim flux in
   Val (transpose flux (iota 0 (m - 4) ++ [:: m - 2; m - 1; m - 4; m - 3])))).

(** farfield.py 443-478 [unflatten_transverse_wavevectors] *)
Definition unflatten_transverse_wavevectors T n (kt : nd T) (expansion : n.-tuple (Z * Z))
    (brillouin_grid_axes : Z * Z) : res (nd (option T)) :=
  let d := ndim kt in
  check (4 <= d) AssertionError
  (check ((nth 0 (nshape kt) (d - 2) == n) && (nth 0 (nshape kt) (d - 1) == 2)) AssertionError
  (axes <- absolute_axes [:: brillouin_grid_axes.1; brillouin_grid_axes.2] d;;
   let bz := map Z.to_nat axes in
   let batch_axes := [seq i <- iota 0 d | i \notin bz ++ [:: d - 2]] in
   let axes := batch_axes ++ [seq i <- iota 0 d | i \notin batch_axes] in
   kt <- unflatten (transpose kt axes) expansion;;
   let m := ndim kt in
   Val (transpose kt (iota 0 (m - 3) ++ [:: m - 2; m - 1; m - 3])))).

(** [jnp.angle(x + 1j * y)], in (-pi, pi]. The sign of a zero [y] is ignored. *)
Definition atan2 (y x : R) : R :=
  if Rlt_dec 0 x then atan (y / x)%coqR
  else if Rlt_dec x 0 then
    (if Rlt_dec y 0 then (atan (y / x) - PI)%coqR else (atan (y / x) + PI)%coqR)
  else if Rlt_dec 0 y then (PI / 2)%coqR
  else if Rlt_dec y 0 then (- (PI / 2))%coqR else 0%coqR.

(** farfield.py 84-112 [angles_from_unflattened_transverse_wavevectors], elementwise: the polar
    and azimuthal angles. [arcsin] is nan below -1, which a negative wavelength can produce. *)
Definition angles_of_wavevector (wavelength kx ky : R) : option R * R :=
  let kt := sqrt (kx ^ 2 + ky ^ 2) in
  let sin_polar_angle := (kt * wavelength / (2 * PI))%coqR in
  (if Rlt_dec 1 sin_polar_angle then Some (PI / 2)%coqR
   else if Rlt_dec sin_polar_angle (-1) then None else Some (asin sin_polar_angle),
   atan2 ky kx).
(** On arrays with nan, which [where], [arcsin] and [angle] propagate; no batch axes. *)
Definition angles_from_unflattened_transverse_wavevectors (kt : nd (option R)) (wavelength : R)
    : nd (option R) * nd (option R) :=
  let sh := take 2 (nshape kt) in
  let at_ idx := match nget kt (idx ++ [:: 0]), nget kt (idx ++ [:: 1]) with
    | Some kx, Some ky => Some (angles_of_wavevector wavelength kx ky) | _, _ => None end in
  (Nd sh (fun idx => obind fst (at_ idx)), Nd sh (fun idx => omap snd (at_ idx))).

(** [jax.image.resize(..., method="linear")] to [f] times the size along an axis with [num]
    elements: the weight of input [i] in output [o]. (jax/_src/image/scale.py,
    [compute_weight_mat] with the triangle kernel. The antialiasing kernel scale is
    [max(1 / f, 1) = 1]; the threshold is that of single precision.) *)
Definition resize_sample (f o : nat) : R := ((INR o + 1 / 2) * / INR f - 1 / 2)%coqR.
Definition resize_kernel (f i o : nat) : R := Rmax 0 (1 - Rabs (resize_sample f o - INR i)).
Definition resize_weight (num f i o : nat) : R :=
  let total := (\sum_(k < num) resize_kernel f k o)%R in
  let weight := if Rlt_dec (1000 * / 2 ^ 23) (Rabs total) then (resize_kernel f i o / total)%coqR else 0%coqR in
  if Rle_dec (- (1 / 2)) (resize_sample f o) then
    if Rle_dec (resize_sample f o) (INR num - 1 / 2) then weight else 0%coqR
  else 0%coqR.
(** Resizing of the first two axes; the others are unchanged. *)
Definition resize2 (f : nat) (x : nd R) : nd R :=
  let n0 := nth 0 (nshape x) 0 in let n1 := nth 0 (nshape x) 1 in
  Nd ([:: f * n0; f * n1] ++ drop 2 (nshape x))
     (fun idx => \sum_(p < n0) \sum_(q < n1)
        (nget x ([:: nat_of_ord p; nat_of_ord q] ++ drop 2 idx) *
         (resize_weight n0 f p (nth 0%N idx 0) * resize_weight n1 f q (nth 0%N idx 1)))%coqR)%R.

(** basis.py 240-264 [transverse_wavevectors] for an array of in-plane wavevectors with shape
    (A, B, 2), giving (A, B, num_terms, 2). *)
Definition transverse_wavevectors_grid n (k : nd R) (l : lattice) (expansion : n.-tuple (Z * Z)) : res (nd R) :=
  rv <- reciprocal l;;
  Val (Nd [:: nth 0 (nshape k) 0; nth 0 (nshape k) 1; n; 2] (fun idx =>
    let o := nth (0, 0)%coqZ expansion (nth 0 idx 2) in
    let c (v : R * R) := if nth 0 idx 3 == 0 then v.1 else v.2 in
    (nget k [:: nth 0%N idx 0; nth 0%N idx 1; nth 0%N idx 3] +
      2 * PI * (IZR o.1 * c (lat_u rv) + IZR o.2 * c (lat_v rv)))%coqR)).

Definition nan_to_zero (x : nd (option R)) : nd R := Nd (nshape x) (fun idx => odflt 0%coqR (nget x idx)).

Section Integrated.
Variables (n : nat) (wavelength : R) (in_plane_wavevector : nd R) (l : lattice) (expansion : n.-tuple (Z * Z))
  (brillouin_grid_axes : Z * Z) (angle_bounds_fn : nd (option R) -> nd (option R) -> nd bool) (upsample_factor : nat).

(** farfield.py 271-338 [_integrated_flux_upsampled], for a flux of shape
    (num_bz_kx, num_bz_ky, 2 * num_terms, num_sources), that is, without batch axes, and a mask
    function returning booleans. *)
Definition integrated_flux_upsampled (flux : nd R) : res (nd R) :=
  check (1 <= upsample_factor) AssertionError
  (kt <- transverse_wavevectors_grid in_plane_wavevector l expansion;;
   flux <- unflatten_flux flux expansion brillouin_grid_axes;;
   kt <- unflatten_transverse_wavevectors kt expansion brillouin_grid_axes;;
   let flux := resize2 upsample_factor (nan_to_zero flux) in
   let kt := resize2 upsample_factor (nan_to_zero kt) in
   let '(polar, azimuthal) := angles_from_unflattened_transverse_wavevectors
      (Nd (nshape kt) (fun idx => Some (nget kt idx))) wavelength in
   let selected := angle_bounds_fn polar azimuthal in
   Val (Nd [:: nth 0 (nshape flux) 3] (fun idx =>
     (\sum_(P < nth 0%N (nshape flux) 0) \sum_(Q < nth 0%N (nshape flux) 1) \sum_(pol < 2)
        (if nget selected [:: nat_of_ord P; nat_of_ord Q]
         then nget flux [:: nat_of_ord P; nat_of_ord Q; nat_of_ord pol; nth 0%N idx 0] else 0))%R
     / INR upsample_factor ^ 2)%coqR)).

(** [jax.grad]: the derivative of a function of a real variable, where there is one. *)
Definition derivative (f : R -> R) (x : R) : R := epsilon (inhabits 0%coqR) (derivable_pt_lim f x).
(** One element of an array replaced. *)
Definition set_element (x : nd R) (idx : seq nat) (v : R) : nd R :=
  Nd (nshape x) (fun i => if i == idx then v else nget x i).
(** farfield.py 232-263 [_integrated_flux_weights] *)
Definition integrated_flux_weights (flux : nd R) : res (nd R) :=
  let dummy_flux := Nd (take (ndim flux - 1) (nshape flux) ++ [:: 1]) (fun _ => 1%coqR) in
  let integrated_fn x := match integrated_flux_upsampled x with Val r => nget r [:: 0] | Exn _ => 0%coqR end in
  _ <- integrated_flux_upsampled dummy_flux;;
  Val (Nd (nshape dummy_flux) (fun idx =>
    derivative (fun t => integrated_fn (set_element dummy_flux idx t)) (nget dummy_flux idx))).
(** farfield.py 181-229 [integrated_flux] *)
Definition integrated_flux (flux : nd R) : res (nd R) :=
  _ <- absolute_axes [:: brillouin_grid_axes.1; brillouin_grid_axes.2] (ndim flux);;
  weights <- integrated_flux_weights flux;;
  Val (Nd [:: nth 0 (nshape flux) 3] (fun idx =>
    \sum_(a < nth 0%N (nshape flux) 0) \sum_(b < nth 0%N (nshape flux) 1) \sum_(o < nth 0%N (nshape flux) 2)
      (nget weights [:: nat_of_ord a; nat_of_ord b; nat_of_ord o; 0%N] *
       nget flux [:: nat_of_ord a; nat_of_ord b; nat_of_ord o; nth 0%N idx 0])%coqR)%R).
End Integrated.

(** [jnp.pad(x, 1, mode="edge")] along an axis with [num] elements: the source of padded
    element [i]. *)
Definition edge (num i : nat) : nat := minn (i - 1) (num - 1).
(** Sums and quotients of elements that may be nan. A quotient by zero (inf or nan) is [None]. *)
Definition oadd (x y : option R) : option R :=
  match x, y with Some a, Some b => Some (a + b)%coqR | _, _ => None end.
Definition osub (x y : option R) : option R :=
  match x, y with Some a, Some b => Some (a - b)%coqR | _, _ => None end.
Definition odiv (x y : option R) : option R :=
  match x, y with Some a, Some b => if Req_EM_T b 0 then None else Some (a / b)%coqR | _, _ => None end.
Definition oscale (c : R) (x : option R) : option R := omap (fun a => c * a)%coqR x.
(** farfield.py 115-173 [solid_angle_from_unflattened_transverse_wavevectors], without batch
    axes and for a nonzero wavelength. [arcsin] is nan outside [-1, 1]. *)
Definition solid_angle (kt : nd (option R)) (wavelength : R) : nd (option R) :=
  let A := nth 0 (nshape kt) 0 in let B := nth 0 (nshape kt) 1 in
  let k (c p q : nat) := omap (fun a => a / (2 * PI / wavelength))%coqR (nget kt [:: p; q; c]) in
  let padded c i j := k c (edge A i) (edge B j) in
  let vertex c i j := oscale (/ 4) (oadd (oadd (oadd (padded c i j) (padded c i j.+1)) (padded c i.+1 j)) (padded c i.+1 j.+1)) in
  let v1 c p q := osub (vertex c p q.+1) (vertex c p q) in
  let v2 c p q := osub (vertex c p.+1 q) (vertex c p q) in
  let cell_area p q := match v1 0 p q, v2 1 p q, v2 0 p q, v1 1 p q with
    | Some a, Some b, Some c, Some d => Some (Rabs (a * b - c * d)) | _, _, _, _ => None end in
  let cos_polar p q := match k 0 p q, k 1 p q with
    | Some x, Some y => let s := sqrt (x ^ 2 + y ^ 2) in if Rle_dec s 1 then Some (cos (asin s)) else None
    | _, _ => None end in
  Nd [:: A; B] (fun idx => let p := nth 0 idx 0 in let q := nth 0 idx 1 in odiv (cell_area p q) (cos_polar p q)).

(** farfield.py 19-81 [farfield_profile], for a flux of shape
    (num_bz_kx, num_bz_ky, 2 * num_terms, num_sources) and a scalar wavelength. *)
Definition farfield_profile n (flux : nd R) (wavelength : R) (in_plane_wavevector : nd R) (l : lattice)
    (expansion : n.-tuple (Z * Z)) (brillouin_grid_axes : Z * Z)
    : res (nd (option R) * nd (option R) * nd (option R) * nd (option R)) :=
  check (nth 0 (nshape flux) 2 == 2 * n) AssertionError
  (_ <- absolute_axes [:: brillouin_grid_axes.1; brillouin_grid_axes.2] (ndim flux);;
   kt <- transverse_wavevectors_grid in_plane_wavevector l expansion;;
   kt <- unflatten_transverse_wavevectors kt expansion brillouin_grid_axes;;
   flux <- unflatten_flux flux expansion brillouin_grid_axes;;
   let '(polar, azimuthal) := angles_from_unflattened_transverse_wavevectors kt wavelength in
   let solid := solid_angle kt wavelength in
   Val (polar, azimuthal, solid,
        Nd (nshape flux) (fun idx => odiv (nget flux idx) (nget solid (take 2 idx))))).

(** Model of nannos/formulations/tangent.py:17-63 (the 'fft' tangent field) and of
    nannos/formulations/jones.py. *)
From Coq Require Import Reals ZArith.
From mathcomp Require Import all_ssreflect all_algebra.
From mathcomp Require Import complex.
From Verif Require Import RStruct Cplx Base Fourier_Model Sim_Model Filter_Model.

Set Implicit Arguments.
Unset Strict Implicit.
Unset Printing Implicit Defensive.

Import Order.TTheory GRing.Theory Num.Theory.
Local Open Scope ring_scope.
Local Open Scope complex_scope.

(** jones.py:17-25 [get_jones_field] at one grid point.  The field is real (a
    complex one makes arctan2 raise); [arctan2] is an arbitrary function. *)
Definition jones (arctan2 : R -> R -> R) (t0 t1 : R) : C * C :=
  let norm_t := norm2 (rc t0) (rc t1) in
  let theta := arctan2 t1 t0 in
  let phi := (PI / 8 * (1 + cos (PI * norm_t)))%Re in
  let expo := cexp (- 'i * rc theta) in
  let comp t n := expo / rc norm_t * (rc t * rc (cos phi) - 'i * rc n * rc (sin phi)) in
  (comp t0 (- t1)%Re, comp t1 t0).

(** tangent.py:38-39: three copies in each direction *)
Definition tile Nx Ny (u : 'M[C]_(Nx, Ny)) : 'M[C]_(3 * Nx, 3 * Ny) :=
  \matrix_(i, j) per u (Z.of_nat i) (Z.of_nat j).

(** numpy.gradient with unit spacing along one axis of length N >= 2: central
    differences inside, one-sided ones at the ends. *)
Definition diff1 (N : nat) (f : nat -> C) (i : nat) : C :=
  if i == 0%N then f 1%N - f 0%N
  else if i == N.-1 then f N.-1 - f N.-2
  else (f i.+1 - f i.-1) / 2%:R.
Definition entry M N (u : 'M[C]_(M, N)) (i j : nat) : C :=
  if insub i is Some i' then if insub j is Some j' then u i' j' else 0 else 0.
Definition grad0 M N (u : 'M[C]_(M, N)) : 'M[C]_(M, N) :=
  \matrix_(i, j) diff1 M (fun k => entry u k j) i.
Definition grad1 M N (u : 'M[C]_(M, N)) : 'M[C]_(M, N) :=
  \matrix_(i, j) diff1 N (fun k => entry u i k) j.

(** Modulus of a complex number (numpy.abs). *)
Definition cabs (z : C) : R :=
  R_sqrt.sqrt (complex.Re z * complex.Re z + complex.Im z * complex.Im z).

(** numpy.fft.fftfreq(N)[k] *)
Definition fftfreq (N k : nat) : R :=
  if (k <= (N - 1) %/ 2)%N then (INR k / INR N)%Re else ((INR k - INR N) / INR N)%Re.

(** tangent.py:29-32 [_ft_filt] with expo = 0.5 *)
Definition ft_filt (x : R) : R := if x == 0 then 0 else (/ R_sqrt.sqrt x)%Re.

(** tangent.py:17-20 [_normalize] with threshold 0: the norm is at least the
    machine epsilon, the condition n <= 0 never holds and is kept as written. *)
Definition normalize0 (x : C) (n : R) : C := if Rle_dec n 0 then 0 else x / rc n.

(** tangent.py:43-47: the normal field on the tiled grid, component by component. *)
Definition normal_field M N (grid xf : 'M[C]_(M, N)) : 'M[C]_(M, N) * 'M[C]_(M, N) :=
  let v0 := grad0 grid in let v1 := grad1 grid in
  let vf0 := grad0 xf in let vf1 := grad1 xf in
  let n i j := norm2 (v0 i j) (v1 i j) in
  (\matrix_(i, j) normalize0 (v0 i j * rc (cabs (vf0 i j))) (n i j),
   \matrix_(i, j) normalize0 (v1 i j * rc (cabs (vf1 i j))) (n i j)).

(** tangent.py:48-55: filtering in Fourier space and cutting the central copy. *)
Definition ghat (Nx Ny : nat) : 'M[C]_(3 * Nx, 3 * Ny) :=
  \matrix_(i, j) (rc (ft_filt (fftfreq (3 * Nx) i * fftfreq (3 * Nx) i +
                               fftfreq (3 * Ny) j * fftfreq (3 * Ny) j)%Re)
                  * Nx%:R * Ny%:R).
Definition spread Nx Ny (n : 'M[C]_(3 * Nx, 3 * Ny)) : 'M[C]_(3 * Nx, 3 * Ny) :=
  let nhat := fourier_transform n in
  inverse_fourier_transform (\matrix_(i, j) (nhat i j * ghat Nx Ny i j)).
Definition central Nx Ny (n : 'M[C]_(3 * Nx, 3 * Ny)) : 'M[C]_(Nx, Ny) :=
  \matrix_(i, j) entry n (Nx + i) (Ny + j).

(** tangent.py:23-26 [_normalize_vec] at one point, threshold 1e-6 *)
Definition threshold : R := (/ 10 ^ 6)%Re.
Definition normalize_vec (t0 t1 : R) : R * R :=
  let n := norm2 (rc t0) (rc t1) in
  if Rle_dec n threshold then (1, 0)%Re else (t0 / n, t1 / n)%Re.

(** bk.max of the norm over the grid *)
Definition max_norm Nx Ny (t0 t1 : 'M[R]_(Nx, Ny)) : R :=
  \big[Rmax/0%Re]_(i < Nx) \big[Rmax/0%Re]_(j < Ny) norm2 (rc (t0 i j)) (rc (t1 i j)).

(** tangent.py:35-63 [_get_tangent_field_fft] with the default rfilt and expo. *)
Definition raw_field Nx Ny (u : 'M[C]_(Nx, Ny)) : res ('M[R]_(Nx, Ny) * 'M[R]_(Nx, Ny)) :=
  let grid := tile u in
  let! xf := apply_filter None 4%Re 4%Re grid in
  let n := normal_field grid xf in
  let s0 := central (spread n.1) in
  let s1 := central (spread n.2) in
  Ok (map_mx (@complex.Re R_rcfType) s1, map_mx (fun z : C => (- complex.Re z)%Re) s0).
Definition tangent_field_fft Nx Ny (normalize : bool) (u : 'M[C]_(Nx, Ny))
  : res ('M[R]_(Nx, Ny) * 'M[R]_(Nx, Ny)) :=
  let! t := raw_field u in
  if normalize then
    Ok (\matrix_(i, j) (normalize_vec (t.1 i j) (t.2 i j)).1,
        \matrix_(i, j) (normalize_vec (t.1 i j) (t.2 i j)).2)
  else
    Ok (\matrix_(i, j) (t.1 i j / max_norm t.1 t.2)%Re,
        \matrix_(i, j) (t.2 i j / max_norm t.1 t.2)%Re).

(** Model of nannos/formulations/tangent.py:66-230 [_get_tangent_field_min], the
    tangent field of type "opt" (the default of Layer), opt_backend="autograd".

    The optimiser (scipy.optimize.minimize) is a function from the objective to the
    point it returns.  The 4*nh real unknowns are the real and imaginary parts of two
    rows of nh complex numbers (tangent.py:173-174, 198-199): they are given as these
    rows.  The nested [_normalize] (94-97) and [get_amps] (162-164) are never called. *)
From Coq Require Import Reals ZArith.
From mathcomp Require Import all_ssreflect all_algebra.
From mathcomp Require Import complex.
From Verif Require Import RStruct Cplx Base Fourier_Model Sim_Model Filter_Model Tangent_Model.

Set Implicit Arguments.
Unset Strict Implicit.
Unset Printing Implicit Defensive.

Import Order.TTheory GRing.Theory Num.Theory.
Local Open Scope ring_scope.
Local Open Scope complex_scope.

(** bk.max over a grid of nonnegative numbers *)
Definition grid_max Nx Ny (f : 'I_Nx -> 'I_Ny -> R) : R :=
  \big[Rmax/0%Re]_(i < Nx) \big[Rmax/0%Re]_(j < Ny) f i j.

(** tangent.py:89-92, the [norm] inside the function *)
Definition onorm (a b : R) : R := R_sqrt.sqrt (machine_eps + a * a + b * b)%Re.

(** tangent.py:104-105 *)
Definition scaled Nx Ny (u : 'M[C]_(Nx, Ny)) : 'M[C]_(Nx, Ny) :=
  let m := grid_max (fun i j => cabs (u i j)) in
  \matrix_(i, j) (rc (cabs (u i j)) / rc m).

(** tangent.py:130-141, gradient, filter (rfilt=4, the default of the dispatcher at
    233) and division by the largest norm *)
Definition opt_gradient Nx Ny (u : 'M[C]_(Nx, Ny)) : res ('M[C]_(Nx, Ny) * 'M[C]_(Nx, Ny)) :=
  let! gx := apply_filter None 4%Re 4%Re (grad0 (scaled u)) in
  let! gy := apply_filter None 4%Re 4%Re (grad1 (scaled u)) in
  let w := grid_max (fun i j => onorm (complex.Re (gx i j)) (complex.Re (gy i j))) in
  Ok (\matrix_(i, j) (gx i j / rc w), \matrix_(i, j) (gy i j / rc w)).

(** [::d] on an axis of N entries keeps ceil(N/d) of them *)
Definition kept (N d : nat) : nat := ((N + d).-1 %/ d)%N.

Section Amps.
Variables (nh : nat) (h : 'I_nh -> order).

(** tangent.py:151-160 [_get_amps] with shape (n,n): row [harmonics] of f is the
    identity matrix, so each entry of the table holds the amplitude of the last order
    that falls on it.  [scale] is Nx*Ny of the whole grid. *)
Definition falls_on n (i : 'I_nh) (p q : 'I_n) : bool :=
  (pyidx n (h i).1 == Some p) && (pyidx n (h i).2 == Some q).
Definition table n (a : 'rV[C]_nh) : 'M[C]_(n, n) :=
  \matrix_(p, q) last 0 [seq a ord0 i | i <- enum 'I_nh & falls_on i p q].
Definition amps n (scale : nat) (a : 'rV[C]_nh) : 'M[C]_(n, n) :=
  map_mx (fun c => c * scale%:R) (ifft2 (table n a)).

(** an index out of range is an IndexError *)
Definition amps_ok n : bool := [forall i, isSome (pyidx n (h i).1) && isSome (pyidx n (h i).2)].

(** abs(z)**2 *)
Definition abs2 (z : C) : R := (complex.Re z * complex.Re z + complex.Im z * complex.Im z)%Re.

(** tangent.py:172-183 [minifun]: the mean over the 2 n^2 entries *)
Definition sq_err n (scale : nat) (a : 'rV[C]_nh) (g : 'M[C]_(n, n)) : R :=
  \sum_x \sum_y abs2 (rc (complex.Re (amps n scale a x y)) - g x y).
Definition objective n (scale : nat) (gx gy : 'M[C]_(n, n)) (c : 'rV[C]_nh * 'rV[C]_nh) : R :=
  ((sq_err scale c.1 gx + sq_err scale c.2 gy) / INR (2 * (n * n)))%Re.
End Amps.

(** tangent.py:166 [dgrid_f[:, ::dx, ::dy]] once its shape is known to be (n, n) *)
Definition sampled_at Nx Ny n (dx dy : nat) (g : 'M[C]_(Nx, Ny)) : 'M[C]_(n, n) :=
  \matrix_(i, j) entry g (i * dx) (j * dy).

(** tangent.py:206-215, scipy's RegularGridInterpolator (linear): n points of [0,1]
    interpolated at N points, at the index i *)
Definition lerp (n N : nat) (f : nat -> C) (i : nat) : C :=
  let k := (i * n.-1 %/ N.-1)%N in let r := (i * n.-1 %% N.-1)%N in
  if (r == 0)%N then f k else f k + (f k.+1 - f k) * rc (INR r / INR N.-1)%Re.
Definition interpolated Nx Ny n (a : 'M[C]_(n, n)) : 'M[C]_(Nx, Ny) :=
  \matrix_(i, j) lerp n Nx (fun p => lerp n Ny (fun q => entry a p q) j) i.

Section Field.
Variables (Nx Ny nh : nat) (h : 'I_nh -> order).
(** scipy.optimize.minimize (tangent.py:188-196) *)
Variable minimize : (('rV[C]_nh * 'rV[C]_nh) -> R) -> 'rV[C]_nh * 'rV[C]_nh.

(** tangent.py:219-228 at one point; [M] is the largest norm *)
Definition finish (normalize : bool) (M : R) (t : R * R) : R * R :=
  if normalize then
    if Rle_dec (onorm t.1 t.2) threshold then (1, 0)%Re
    else (t.1 / onorm t.1 t.2, t.2 / onorm t.1 t.2)%Re
  else (t.1 / M, t.2 / M)%Re.

(** tangent.py:166-217 with Nx_ds = Ny_ds = n *)
Definition raw_opt n (g : 'M[C]_(Nx, Ny) * 'M[C]_(Nx, Ny)) : 'M[R]_(Nx, Ny) * 'M[R]_(Nx, Ny) :=
  let dx := (Nx %/ n)%N in let dy := (Ny %/ n)%N in
  let c := minimize (objective h (Nx * Ny) (sampled_at n dx dy g.1) (sampled_at n dx dy g.2)) in
  let ax := interpolated Nx Ny (amps h n (Nx * Ny) c.1) in
  let ay := interpolated Nx Ny (amps h n (Nx * Ny) c.2) in
  (map_mx (@complex.Re R_rcfType) ay, map_mx (fun z : C => (- complex.Re z)%Re) ax).

(** The whole function.  numpy.gradient needs two points per axis (ValueError); [minifun]
    puts an (Nx_ds, Nx_ds) and an (Ny_ds, Ny_ds) array in one array (ValueError unless
    they have one shape, numpy 1.24 or later) and subtracts the sampled gradient, whose
    shape must then be the same (ValueError); a pattern of zeros is divided by zero. *)
Definition opt_field (normalize : bool) (u : 'M[C]_(Nx, Ny)) : res ('M[R]_(Nx, Ny) * 'M[R]_(Nx, Ny)) :=
  let nx := minn (2 ^ 6) Nx in let ny := minn (2 ^ 6) Ny in
  if (Nx <= 1)%N || (Ny <= 1)%N then Err ValueError else
  if ~~ (amps_ok h nx && amps_ok h ny) then Err IndexError else
  if nx != ny then Err ValueError else
  if (kept Nx (Nx %/ nx) != nx) || (kept Ny (Ny %/ nx) != nx) then Err ValueError else
  if grid_max (fun i j => cabs (u i j)) == 0 then Err NaN else
  let! g := opt_gradient u in
  let t := raw_opt nx g in
  let M := grid_max (fun i j => onorm (t.1 i j) (t.2 i j)) in
  Ok (\matrix_(i, j) (finish normalize M (t.1 i j, t.2 i j)).1,
      \matrix_(i, j) (finish normalize M (t.1 i j, t.2 i j)).2).
End Field.

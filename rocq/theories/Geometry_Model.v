(** Model of the rasterisation in nannos/geometry.py and of the grid and shape
    methods of nannos/lattice.py.  Boolean arrays are functions of two indices
    with a shape.  shapely is a record of operations (its contract is stated
    where it is used). *)
From Coq Require Import List Reals ZArith Arith.
From Verif Require Import Base Lattice_Model Optimize_Model.
Import ListNotations.
Open Scope R_scope.
Set Implicit Arguments.

(** ** Boolean arrays *)
Record arr := Arr { rows : nat; cols : nat; at_ : nat -> nat -> bool }.

(** [m[r0:r1, c0:c1]] (0 <= r0 <= r1 <= rows, the same for columns). *)
Definition slice (m : arr) (r0 r1 c0 c1 : nat) : arr :=
  Arr (r1 - r0) (c1 - c0) (fun i j => at_ m (r0 + i) (c0 + j)).

(** geometry.py:32-38 [set_index_2d] with slices: assignment of an array of the
    same shape.  numpy writes in place, jax returns a new array: same value. *)
Definition set_sub (m v : arr) (r0 r1 c0 c1 : nat) : arr :=
  Arr (rows m) (cols m) (fun i j =>
    if ((r0 <=? i) && (i <? r1) && (c0 <=? j) && (j <? c1))%nat%bool
    then at_ v (i - r0) (j - c0) else at_ m i j).

(** The same with a scalar and empty slices: the whole array. *)
Definition fill (m : arr) (b : bool) : arr := Arr (rows m) (cols m) (fun _ _ => b).

Definition zeros_mask (r c : nat) : arr := Arr r c (fun _ _ => false).

Definition transpose_arr (m : arr) : arr := Arr (cols m) (rows m) (fun i j => at_ m j i).

(** ** shapely *)
(** The operations used by the code.  A rectangle is given by two opposite
    corners (left, right, bottom, top), as in [_bbox_to_rect]. *)
Record shapely (G : Type) := Shapely {
  intersects : G -> R -> R -> R -> R -> bool;
  contains : G -> R -> R -> R -> R -> bool;
  contains_point : G -> R -> R -> bool;
  affine : R -> R -> R -> R -> G -> G }.   (* x' = a x + b y, y' = d x + e y *)

Section Mask.
Context {G : Type}.
Variable sh : shapely G.

(** geometry.py:41-105 [shape_mask], with [_grid_bbox] and [_bbox_to_rect]
    (geometry.py:22-29).  The recursion halves the grid: given up after [fuel]
    nested calls ([None]). *)
Fixpoint shape_mask (fuel : nat) (g : G) (x y : list R) (m0 : option arr) : res (option arr) :=
  match fuel with
  | O => Ok None
  | S fuel =>
    match x, y with
    | [], _ | _, [] => Err IndexError
    | xl :: _, yb :: _ =>
      let xr := last x 0 in
      let yt := last y 0 in
      let m := match m0 with Some m => m | None => zeros_mask (length y) (length x) end in
      if negb (intersects sh g xl xr yb yt) then Ok (Some (fill m false))
      else if contains sh g xl xr yb yt then Ok (Some (fill m true))
      else
        let lx := rows m in
        let ly := cols m in
        let rec x y m := shape_mask fuel g x y (Some m) in
        if ((lx =? 1) && (ly =? 1))%nat%bool then
          Ok (Some (fill m (contains_point sh g xl yb)))
        else if (lx =? 1)%nat then
          let h := (ly / 2)%nat in
          let! v := rec (firstn h x) y (slice m 0 lx 0 h) in
          match v with None => Ok None | Some v =>
          let m := set_sub m v 0 lx 0 h in
          let! v := rec (skipn h x) y (slice m 0 lx h ly) in
          match v with None => Ok None | Some v =>
          Ok (Some (set_sub m v 0 lx h ly)) end end
        else if (ly =? 1)%nat then
          let k := (lx / 2)%nat in
          let! v := rec x (firstn k y) (slice m 0 k 0 ly) in
          match v with None => Ok None | Some v =>
          let m := set_sub m v 0 k 0 ly in
          let! v := rec x (skipn k y) (slice m k lx 0 ly) in
          match v with None => Ok None | Some v =>
          Ok (Some (set_sub m v k lx 0 ly)) end end
        else
          let h := (ly / 2)%nat in
          let k := (lx / 2)%nat in
          let! v := rec (firstn h x) (firstn k y) (slice m 0 k 0 h) in
          match v with None => Ok None | Some v =>
          let m := set_sub m v 0 k 0 h in
          let! v := rec (skipn h x) (firstn k y) (slice m 0 k h ly) in
          match v with None => Ok None | Some v =>
          let m := set_sub m v 0 k h ly in
          let! v := rec (firstn h x) (skipn k y) (slice m k lx 0 h) in
          match v with None => Ok None | Some v =>
          let m := set_sub m v k lx 0 h in
          let! v := rec (skipn h x) (skipn k y) (slice m k lx h ly) in
          match v with None => Ok None | Some v =>
          Ok (Some (set_sub m v k lx h ly)) end end end end
    end
  end.

(** geometry.py:108-117 [geometry_mask]: the geometry is mapped to the unit cell
    by the inverse of the lattice matrix, rasterised on [linspace(0,1,N)], and
    the mask is transposed. *)
Definition geometry_mask (fuel : nat) (g : G) (lat : lattice) (Nx Ny : nat) : res (option arr) :=
  let x := linspace01 Nx in
  let y := linspace01 Ny in
  let! i := inv2 (matrix lat) in
  let g' := affine sh (m00 i) (m01 i) (m10 i) (m11 i) g in
  let! m := shape_mask fuel g' x y None in
  Ok (match m with None => None | Some m => Some (transpose_arr m) end).

(** lattice.py:137-145 [no1d]: the shape methods raise on mono-periodic lattices. *)
Definition no1d {T} (lat : lattice) (r : res T) : res T :=
  if lt_is1D lat then Err ValueError else r.

(** lattice.py:232-261: polygon, circle, ellipse, square and rectangle build
    their shapely geometry and call [geometry_mask] with the discretization. *)
Definition shape_method (fuel : nat) (g : G) (lat : lattice) : res (option arr) :=
  no1d lat (geometry_mask fuel g lat (Z.to_nat (fst (lt_disc lat))) (Z.to_nat (snd (lt_disc lat)))).
End Mask.

(** lattice.py:147-192 [unit_grid], [grid], [transform]: the two coordinates of
    the grid point (i, j). *)
Definition unit_grid (lat : lattice) (i j : nat) : R * R :=
  (nth i (linspace01 (Z.to_nat (fst (lt_disc lat)))) 0,
   nth j (linspace01 (Z.to_nat (snd (lt_disc lat)))) 0).

Definition transform (lat : lattice) (p : R * R) : R * R :=
  let M := matrix lat in
  (m00 M * fst p + m01 M * snd p, m10 M * fst p + m11 M * snd p).

Definition lattice_grid (lat : lattice) (i j : nat) : R * R := transform lat (unit_grid lat i j).

(** lattice.py:263-264 [stripe]. *)
Definition stripe (lat : lattice) (center width : R) (i j : nat) : bool :=
  if Rle_dec (Rabs (fst (lattice_grid lat i j) - center)) (width / 2) then true else false.

(** Model of nannos/lattice.py: reciprocal lattice and truncation of the set of
    diffraction orders, in exact arithmetic.

    - floats are real numbers; [int(x)] is truncation toward zero.
    - [bk.argsort] is any function returning some permutation that sorts its
      argument (numpy's default quicksort is not stable): the section variable
      [argsort]; its contract [argsort_ok] is a hypothesis of the theorems. *)
From Coq Require Import Reals ZArith List Lia Permutation.
From Verif Require Import Base.
Import ListNotations.
Set Implicit Arguments.
Local Open Scope R_scope.

(** A diffraction order (i1, i2). *)
Notation order := (Z * Z)%type.

(** ------------------------------------------------------------------ *)
(** * Lattice vectors *)

(** Two vectors, or the two rows of a 2x2 matrix. *)
Record mat2 := Mat2 { m00 : R; m01 : R; m10 : R; m11 : R }.

Definition det2 (m : mat2) : R := m00 m * m11 m - m01 m * m10 m.

Definition transpose (m : mat2) : mat2 := Mat2 (m00 m) (m10 m) (m01 m) (m11 m).

(** numpy.linalg.inv of a 2x2 matrix *)
Definition inv2 (m : mat2) : res mat2 :=
  if Req_EM_T (det2 m) 0 then Err LinAlgError
  else Ok (Mat2 (m11 m / det2 m) (- m01 m / det2 m) (- m10 m / det2 m) (m00 m / det2 m)).

Definition scale2 (c : R) (m : mat2) : mat2 := Mat2 (c * m00 m) (c * m01 m) (c * m10 m) (c * m11 m).

Inductive truncation_t := Circular | Parallelogrammic | OneDim.

(** Attributes set by Lattice.__init__ (lattice.py:42-69).  [lt_basis]: rows are
    the basis vectors.  [lt_disc]: the discretization. *)
Record lattice := Lattice {
  lt_is1D : bool;
  lt_basis : mat2;
  lt_trunc : truncation_t;
  lt_disc : Z * Z;
  lt_harm : option (list order) }.

(** lattice.py:59-63: basis_vectors a scalar *)
Definition lattice_1D (a : R) (disc : Z * Z) (harm : option (list order)) : lattice :=
  Lattice true (Mat2 a 0 0 1) OneDim (fst disc, 1%Z) harm.

(** lattice.py:64-67 *)
Definition lattice_2D (L : mat2) (tr : bool) (disc : Z * Z) (harm : option (list order)) : lattice :=
  Lattice false L (if tr then Circular else Parallelogrammic) disc harm.

(** The lattices the constructor can return. *)
Inductive built : lattice -> Prop :=
  | built_1D a disc harm : built (lattice_1D a disc harm)
  | built_2D L tr disc harm : built (lattice_2D L tr disc harm).

(** lattice.py:71-76 *)
Definition area (l : lattice) : R :=
  if lt_is1D l then m00 (lt_basis l) else Rabs (det2 (lt_basis l)).

(** lattice.py:78-88: columns are L1, L2 *)
Definition matrix (l : lattice) : mat2 := transpose (lt_basis l).

(** lattice.py:90-100 *)
Definition reciprocal (l : lattice) : res mat2 :=
  let! i := inv2 (matrix l) in Ok (scale2 (2 * PI) (transpose i)).

(** ------------------------------------------------------------------ *)
(** * Truncation *)

(** range(a, a + n) *)
Fixpoint zseq (a : Z) (n : nat) : list Z :=
  match n with O => [] | S n' => a :: zseq (a + 1) n' end.

(** bk.arange(a, b) *)
Definition arange (a b : Z) : list Z := zseq a (Z.to_nat (b - a)).

(** lattice.py:287-292.  [int((nh-1)/2)] truncates toward zero. *)
Definition one_dim_truncation (nh : Z) : list order * Z :=
  let n := Z.quot (nh - 1) 2 in
  let G := (0, 0)%Z :: flat_map (fun i => [(i, 0); (- i, 0)]%Z) (arange 1 (n + 1)) in
  (G, Z.of_nat (length G)).

(** Norms of the two rows of Lk, their dot and cross products (lattice.py:321-323). *)
Definition row_norm (x y : R) : R := sqrt (x * x + y * y).
Definition u0 (Lk : mat2) : R := row_norm (m00 Lk) (m01 Lk).
Definition u1 (Lk : mat2) : R := row_norm (m10 Lk) (m11 Lk).
Definition udot (Lk : mat2) : R := m00 Lk * m10 Lk + m01 Lk * m11 Lk.
Definition ucross (Lk : mat2) : R := m00 Lk * m11 Lk - m01 Lk * m10 Lk.

(** lattice.py:309 and 341 (u[0] appears twice in the code): the sort key. *)
Definition Gl2 (Lk : mat2) (o : order) : R :=
  let a := IZR (fst o) in let b := IZR (snd o) in
  a ^ 2 * u0 Lk ^ 2 + b ^ 2 * u0 Lk ^ 2 + 2 * a * b * udot Lk.

(** bk.meshgrid(..., indexing="ij") then flatten *)
Definition grid (xs ys : list Z) : list order := list_prod xs ys.

(** python int(x) *)
Definition trunc (x : R) : Z := if Rle_dec 0 x then Int_part x else (- Int_part (- x))%Z.

Section Truncation.
Variable argsort : list R -> list nat.

(** Any permutation that sorts. *)
Definition argsort_ok : Prop := forall l,
  Permutation (argsort l) (seq 0 (length l)) /\
  forall i j, (i <= j < length l)%nat -> nth (nth i (argsort l) 0%nat) l 0 <= nth (nth j (argsort l) 0%nat) l 0.

(** [g[jsort]] *)
Definition reorder (G : list order) (js : list nat) : list order := map (fun j => nth j G (0, 0)%Z) js.

(** lattice.py:295-317, nh >= 0 ([nh ** 0.5] of a negative number is complex and
    [int] of it a TypeError). *)
Definition parallelogramic_truncation (nh : Z) (Lk : mat2) : res (list order * Z) :=
  if (nh <? 0)%Z then Err TypeError else
  let r := Z.sqrt nh in
  let NGroot := if Z.even r then (r - 1)%Z else r in
  let M := (NGroot / 2)%Z in
  let xG := arange (- M) (NGroot - M) in
  let G := grid xG xG in
  let jsort := argsort (map (Gl2 Lk) G) in
  let nh' := (NGroot * NGroot)%Z in
  Ok (firstn (Z.to_nat nh') (reorder G jsort), nh').

(** lattice.py:352-355, from i downwards.  At i = 0 the code compares with
    Gl2[-1]; whatever the outcome i is 0 at the end. *)
Fixpoint scan (keys : list R) (tol : R) (i : nat) : nat :=
  match i with
  | O => O
  | S j => if Rlt_dec tol (Rabs (nth i keys 0 - nth j keys 0)) then i else scan keys tol j
  end.

Definition tol (Lk : mat2) : R := / 10000000000 * Rmax (u0 Lk ^ 2) (u1 Lk ^ 2).

(** lattice.py:325-335; a zero denominator (inf/nan) is [Err NaN]. *)
Definition extent (nh : Z) (Lk : mat2) (q : R) : res Z :=
  let circ_radius := sqrt (IZR nh * Rabs (ucross Lk) / PI) + u0 Lk + u1 Lk in
  let d := q * sqrt (1 - udot Lk ^ 2 / (u0 Lk * u1 Lk) ^ 2) in
  if Req_EM_T (u0 Lk * u1 Lk) 0 then Err NaN else
  if Req_EM_T d 0 then Err NaN else Ok (1 + trunc (circ_radius / d))%Z.

(** lattice.py:320-359.  With nGtmp <= 0 the loop variable is never bound. *)
Definition circular_truncation (nh : Z) (Lk : mat2) : res (list order * Z) :=
  if (nh <? 0)%Z then Err NaN else
  let! e0 := extent nh Lk (u0 Lk) in
  let! e1 := extent nh Lk (u1 Lk) in
  let G := grid (arange (- e0) (e0 + 1)) (arange (- e1) (e1 + 1)) in
  let keys := map (Gl2 Lk) G in
  let jsort := argsort keys in
  let Gsorted := reorder G jsort in
  let sorted := map (fun j => nth j keys 0) jsort in
  let nGtmp := ((2 * e0 + 1) * (2 * e1 + 1))%Z in
  let nGtmp := if (nh <? nGtmp)%Z then nh else nGtmp in
  if (nGtmp <=? 0)%Z then Err UnboundLocalError else
  let i := scan sorted (tol Lk) (Z.to_nat (nGtmp - 1)) in
  Ok (firstn i Gsorted, Z.of_nat i).

(** lattice.py:124-135, nh an integer (a non-integer raises ValueError). *)
Definition get_harmonics_unsorted (l : lattice) (nh : Z) : res (list order * Z) :=
  match lt_harm l with
  | Some h => Ok (h, Z.of_nat (length h))
  | None =>
      match lt_trunc l with
      | Circular => let! r := reciprocal l in circular_truncation nh r
      | Parallelogrammic => let! r := reciprocal l in parallelogramic_truncation nh r
      | OneDim => Ok (one_dim_truncation nh)
      end
  end.

(** lattice.py:102-122 *)
Definition get_harmonics (l : lattice) (nh : Z) (sort : bool) : res (list order * Z) :=
  let! r := get_harmonics_unsorted l nh in
  if sort then Ok (reorder (fst r) (argsort (map (fun o => IZR (fst o)) (fst r))), snd r) else Ok r.

End Truncation.

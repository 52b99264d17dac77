(** Model of the block helpers of nannos/utils/helpers.py:91-122 on numpy arrays
    with two axes, over any field. *)
From mathcomp Require Import all_ssreflect all_algebra.
From Verif Require Import Base.

Set Implicit Arguments.
Unset Strict Implicit.
Unset Printing Implicit Defensive.
Import GRing.Theory.
Local Open Scope ring_scope.

Section Blocks.
Variable F : fieldType.

(** An array of shape (nr, nc); [at_] is only meaningful below the shape. *)
Record arr := Arr { nr : nat; nc : nat; at_ : nat -> nat -> F }.

(** numpy.hstack and vstack of two arrays *)
Definition hstack (A B : arr) : res arr :=
  if nr A == nr B
  then Ok (Arr (nr A) (nc A + nc B) (fun i j => if (j < nc A)%N then at_ A i j else at_ B i (j - nc A)))
  else Err ValueError.
Definition vstack (A B : arr) : res arr :=
  if nc A == nc B
  then Ok (Arr (nr A + nr B) (nc A) (fun i j => if (i < nr A)%N then at_ A i j else at_ B (i - nr A) j))
  else Err ValueError.

(** helpers.py:91-94 [block] of a nested list of four arrays *)
Record quad := Quad { q00 : arr; q01 : arr; q10 : arr; q11 : arr }.
Definition block (a : quad) : res arr :=
  let! l1 := hstack (q00 a) (q01 a) in
  let! l2 := hstack (q10 a) (q11 a) in
  vstack l1 l2.

(** helpers.py:97-98 [get_block]: python slices stop at the end of the axis. *)
Definition get_block (M : arr) (i j n : nat) : arr :=
  Arr (minn (i.+1 * n) (nr M) - minn (i * n) (nr M))
      (minn (j.+1 * n) (nc M) - minn (j * n) (nc M))
      (fun r c => at_ M (i * n + r) (j * n + c)).

(** helpers.py:110-111 [block2list] *)
Definition block2list (M : arr) (n : nat) : quad :=
  Quad (get_block M 0 0 n) (get_block M 0 1 n) (get_block M 1 0 n) (get_block M 1 1 n).

(** Elementwise operations with numpy's broadcasting of axes of length one. *)
Definition bdim (a b : nat) : option nat :=
  if a == b then Some a else if a == 1%N then Some b else if b == 1%N then Some a else None.
Definition bidx (n i : nat) : nat := if n == 1%N then 0%N else i.
Definition map2 (f : F -> F -> F) (A B : arr) : res arr :=
  match bdim (nr A) (nr B), bdim (nc A) (nc B) with
  | Some r, Some c =>
      Ok (Arr r c (fun i j => f (at_ A (bidx (nr A) i) (bidx (nc A) j))
                                (at_ B (bidx (nr B) i) (bidx (nc B) j))))
  | _, _ => Err ValueError
  end.
Definition amul := map2 (fun x y => x * y).
Definition aadd := map2 (fun x y => x + y).
Definition asub := map2 (fun x y => x - y).
Definition aneg (A : arr) : arr := Arr (nr A) (nc A) (fun i j => - at_ A i j).
(** numpy's division by an array containing zero gives inf or nan. *)
Definition nonzero (A : arr) : bool := [forall i : 'I_(nr A), forall j : 'I_(nc A), at_ A i j != 0].
Definition adiv (A B : arr) : res arr :=
  if nonzero B then map2 (fun x y => x / y) A B else Err NaN.

(** helpers.py:101-107 [blockmatmul]: the products are elementwise. *)
Definition dot2 (a b c d : arr) : res arr :=
  let! x := amul a b in let! y := amul c d in aadd x y.
Definition blockmatmul (A B : arr) (n : nat) : res arr :=
  let a := block2list A n in
  let b := block2list B n in
  let! x00 := dot2 (q00 a) (q00 b) (q01 a) (q10 b) in
  let! x01 := dot2 (q00 a) (q01 b) (q01 a) (q11 b) in
  let! x10 := dot2 (q10 a) (q00 b) (q11 a) (q10 b) in
  let! x11 := dot2 (q10 a) (q01 b) (q11 a) (q11 b) in
  block (Quad x00 x01 x10 x11).

(** helpers.py:114-122 [inv2by2block] *)
Definition inv2by2block (T : arr) (n : nat) : res arr :=
  let M := block2list T n in
  let! p := amul (q00 M) (q11 M) in
  let! q := amul (q10 M) (q01 M) in
  let! det := asub p q in
  let! x00 := adiv (q11 M) det in
  let! x01 := adiv (aneg (q01 M)) det in
  let! x10 := adiv (aneg (q10 M)) det in
  let! x11 := adiv (q00 M) det in
  block (Quad x00 x01 x10 x11).

(** ** Specification *)
(** The same array: same shape, same entries. *)
Definition same (A B : arr) : Prop :=
  nr A = nr B /\ nc A = nc B /\ forall i j, (i < nr A)%N -> (j < nc A)%N -> at_ A i j = at_ B i j.
Definition shaped (m n : nat) (A : arr) : Prop := nr A = m /\ nc A = n.
Definition shaped4 (m n : nat) (a : quad) : Prop :=
  shaped m n (q00 a) /\ shaped m n (q01 a) /\ shaped m n (q10 a) /\ shaped m n (q11 a).
Definition same4 (a b : quad) : Prop :=
  same (q00 a) (q00 b) /\ same (q01 a) (q01 b) /\ same (q10 a) (q10 b) /\ same (q11 a) (q11 b).
End Blocks.

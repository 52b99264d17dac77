(** Model of nannos/sample.py:15-131 [adaptive_sampler].  Floats are reals; a
    division by zero gives nan, and every comparison with nan is false. *)
From Coq Require Import List Reals ZArith.
From Verif Require Import Base.
Import ListNotations.
Open Scope R_scope.
Set Implicit Arguments.

Definition Rltb (a b : R) : bool := if Rlt_dec a b then true else false.
Definition Reqb (a b : R) : bool := if Req_EM_T a b then true else false.

(** [numpy.min], [numpy.max]: ValueError on an empty array. *)
Definition np_min (l : list R) : res R :=
  match l with [] => Err ValueError | a :: t => Ok (fold_left Rmin t a) end.
Definition np_max (l : list R) : res R :=
  match l with [] => Err ValueError | a :: t => Ok (fold_left Rmax t a) end.

(** [numpy.sort]. *)
Fixpoint ins (a : R) (l : list R) : list R :=
  match l with
  | [] => [a]
  | b :: t => if Rlt_dec b a then b :: ins a t else a :: l
  end.
Definition np_sort (l : list R) : list R := fold_right ins [] l.

(** [numpy.unique]: sorted, without repetition. *)
Fixpoint uins (a : R) (l : list R) : list R :=
  match l with
  | [] => [a]
  | b :: t => if Rlt_dec b a then b :: uins a t
              else if Req_EM_T a b then l else a :: l
  end.
Definition np_unique (l : list R) : list R := fold_right uins [] l.

(** [return_index=True]: the first index of each of the unique values. *)
Fixpoint first_index (l : list R) (v : R) : nat :=
  match l with
  | [] => 0
  | a :: t => if Req_EM_T a v then 0 else S (first_index t v)
  end.

(** Fancy indexing [y[iu]]. *)
Fixpoint take_idx {T} (l : list T) (iu : list nat) : res (list T) :=
  match iu with
  | [] => Ok []
  | i :: t => let! v := of_option IndexError (nth_error l i) in
              let! r := take_idx l t in Ok (v :: r)
  end.

(** [x[i:i+3] for i in range(len(x) - 2)]. *)
Fixpoint windows {T} (l : list T) : list (T * T * T) :=
  match l with
  | a :: t => match t with b :: c :: _ => (a, b, c) :: windows t | _ => [] end
  | [] => []
  end.

Section Sampler.
Context {Y : Type}.
(** The value that drives the refinement: [y] itself, or [y[0]] for a function
    with several outputs ([multi]). *)
Variable mon : Y -> R.
Variable multi : bool.
Variable f : R -> Y.
Variables (max_bend max_x_rel max_df : R).

Definition cmax : R := cos (max_bend * PI / 180).

(** sample.py:66-93: does the window ask for refinement?  [mdx], [mdy] are
    [min_dx] and [min_dy]. *)
Definition bending (xp x0 xn yp y0 yn : R) : bool :=
  if Req_EM_T (xn - xp) 0 then false
  else
    let dx0 := (x0 - xp) / (xn - xp) in
    let dx1 := (xn - x0) / (xn - xp) in
    let ly := Rmax (Rmax yp y0) yn - Rmin (Rmin yp y0) yn in
    let bent :=
      if Req_EM_T ly 0 then false
      else
        let dy0 := (y0 - yp) / ly in
        let dy1 := (yn - y0) / ly in
        let d := sqrt ((dx0 * dx0 + dy0 * dy0) * (dx1 * dx1 + dy1 * dy1)) in
        if Req_EM_T d 0 then false
        else Rltb ((dx0 * dx1 + dy0 * dy1) / d) cmax in
    (bent || Rltb (3 * dx0) dx1 || Rltb (3 * dx1) dx0)%bool.

Definition refine (mdx mdy xp x0 xn yp y0 yn : R) : bool :=
  let ref_x := (Rltb (xn - x0) mdx && Rltb (x0 - xp) mdx)%bool in
  let ref_y := (Rltb (Rabs (y0 - yp)) mdy && Rltb (Rabs (yn - y0)) mdy)%bool in
  (bending xp x0 xn yp y0 yn && negb ref_x && negb ref_y)%bool.

(** sample.py:94-107: the segments to cut and their midpoints. *)
Definition segments (mdx xp x0 xn : R) : list bool :=   (* false = 0, true = 1 *)
  let l := (if Rlt_dec (x0 - xp) mdx then [true] else [])
           ++ (if Rlt_dec (xn - x0) mdx then [false] else [])
           ++ [if Rlt_dec (xn - x0) (x0 - xp) then false else true] in
  (if existsb negb l then [false] else []) ++ (if existsb (fun b => b) l then [true] else []).

Definition cut (xp x0 xn : R) (seg : bool) : R :=
  if seg then 0.5 * (0 + x0 + xn) else 0.5 * (0 + xp + x0).

(** sample.py:50-108 [get_new]. *)
Definition get_new (x0 : list R) (y : list R) : res (list R) :=
  let x := np_sort x0 in
  let! x_min := np_min x in
  let! x_max := np_max x in
  let! y_min := np_min y in
  let! y_max := np_max y in
  let mdx := max_x_rel * (x_max - x_min) in
  let mdy := max_df * (y_max - y_min) in
  Ok (np_unique (flat_map (fun w =>
        let '((xp, yp), (x0, y0), (xn, yn)) := w in
        if refine mdx mdy xp x0 xn yp y0 yn
        then map (cut xp x0 xn) (segments mdx xp x0 xn) else [])
      (windows (combine x y)))).

Definition notin (old : list R) (v : R) : bool := negb (existsb (Reqb v) old).

(** sample.py:118-136: one turn of the [while True] loop; [None] for [break]. *)
Definition turn (st : list R * list Y * list R) : res (option (list R * list Y * list R)) :=
  let '(x, y, ym) := st in
  let old_x := x in
  let! new_x := get_new x (if multi then ym else map mon y) in
  match new_x with
  | [] => Ok None
  | _ =>
      let x1 := x ++ new_x in
      let x2 := np_unique x1 in
      let iu := map (first_index x1) x2 in
      let q := filter (notin old_x) x2 in
      let new_y := map f q in
      let! y1 := take_idx (y ++ new_y) iu in
      let! ym1 := (if multi then take_idx (ym ++ map mon new_y) iu else Ok ym) in
      Ok (Some (x2, y1, ym1))
  end.

Fixpoint loop (fuel : nat) (st : list R * list Y * list R) : res (option (list R * list Y)) :=
  match fuel with
  | O => Ok None
  | S n => let! r := turn st in
           match r with
           | None => let '(x, y, _) := st in Ok (Some (x, y))
           | Some st' => loop n st'
           end
  end.

(** The whole call, given up after [fuel] turns ([None]).  [y[0]] raises
    IndexError on an empty grid. *)
Definition sampler (fuel : nat) (x : list R) : res (option (list R * list Y)) :=
  let y := map f x in
  match y with
  | [] => Err IndexError
  | _ => loop fuel (x, y, map mon y)
  end.
End Sampler.

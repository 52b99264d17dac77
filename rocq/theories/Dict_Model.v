(** diffraction_efficiencies(orders=True, return_dict=True): the nested dictionaries
    it writes, as objects shared by reference (simulation.py:482-491). *)
From Coq Require Import List ZArith Arith.
From Verif Require Import Base Lattice_Model Init_Model.
Import ListNotations.
Set Implicit Arguments.

Section Dict.
(** The entries of R and T: numbers. *)
Variable A : Type.

(** What an inner dictionary holds: the index stored by __init__ (simulation.py:89-95)
    or a number. *)
Inductive val := VIdx (j : nat) | VNum (x : A).

(** Inner dictionaries live in a store; an outer dictionary maps keys to them. *)
Definition inner := list (Z * val).
Definition store := nat -> inner.
Definition outer := list (Z * nat).
Definition sset (s : store) (a : nat) (d : inner) : store := fun b => if Nat.eqb b a then d else s b.

(** The object self.harmidx_dict of a new simulation: the dictionary [build_dict]
    of Init_Model with one inner object per key. *)
Fixpoint number (j : nat) (d : idict) : outer :=
  match d with [] => [] | (k, _) :: t => (k, j) :: number (S j) t end.
Definition new_outer (d : idict) : outer := number 0 d.
Definition new_store (d : idict) : store := fun a =>
  match nth_error d a with
  | Some (_, i) => map (fun p => (fst p, VIdx (snd p))) i
  | None => []
  end.

(** d[i1][i2] *)
Definition look2 (s : store) (o : outer) (i1 i2 : Z) : res val :=
  let! a := of_option KeyError (dget o i1) in
  of_option KeyError (dget (s a) i2).

(** v[idx]: numpy accepts the integer, not a float *)
Definition take (v : list A) (i : val) : res A :=
  match i with
  | VIdx j => of_option IndexError (nth_error v j)
  | VNum _ => Err IndexError
  end.

(** d[i1][i2] = x *)
Definition put2 (s : store) (o : outer) (i1 i2 : Z) (x : A) : store * res unit :=
  match dget o i1 with
  | None => (s, Err KeyError)
  | Some a => (sset s a (dset (s a) i2 (VNum x)), Ok tt)
  end.

(** simulation.py:485-490.  [hd] is self.harmidx_dict; [rd] and [td] the copies. *)
Fixpoint dict_loop (hd rd td : outer) (R T : list A) (G : list order) (s : store) : store * res unit :=
  match G with
  | [] => (s, Ok tt)
  | (i1, i2) :: t =>
      match look2 s hd i1 i2 with
      | Err e => (s, Err e)
      | Ok idx =>
          match take R idx with
          | Err e => (s, Err e)
          | Ok r =>
              match put2 s rd i1 i2 r with
              | (s1, Err e) => (s1, Err e)
              | (s1, Ok _) =>
                  match take T idx with
                  | Err e => (s1, Err e)
                  | Ok x =>
                      match put2 s1 td i1 i2 x with
                      | (s2, Err e) => (s2, Err e)
                      | (s2, Ok _) => dict_loop hd rd td R T t s2
                      end
                  end
              end
          end
      end
  end.

(** What diffraction_efficiencies returns for R and T of one entry per order. *)
Inductive eff_out := Arrays (R T : list A) | Dicts (rd td : outer).

(** simulation.py:482-492 with orders=True; dict.copy() copies the outer dictionary
    only. *)
Definition eff_return (hd : outer) (G : list order) (return_dict : bool) (R T : list A) (s : store)
  : store * res eff_out :=
  if return_dict then
    let rd := hd in let td := hd in
    match dict_loop hd rd td R T G s with
    | (s1, Err e) => (s1, Err e)
    | (s1, Ok _) => (s1, Ok (Dicts rd td))
    end
  else (s, Ok (Arrays R T)).

(** get_order_index((i1, i2)) and get_order(v, (i1, i2)) (simulation.py:559-575) *)
Definition order_index (hd : outer) (s : store) (o : order) : res val := look2 s hd (fst o) (snd o).
Definition get_order (hd : outer) (s : store) (v : list A) (o : order) : res A :=
  let! i := order_index hd s o in take v i.

End Dict.
Arguments VIdx {A} j.
Arguments new_store {A} d.

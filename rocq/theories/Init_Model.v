(** Model of Layer.__init__ (layers.py:48-74), Simulation.__init__
    (simulation.py:44-157), Simulation.get_layer (159-174, layers.py:280-312),
    get_order_index and get_order (simulation.py:559-575).

    Only what decides acceptance and indexing is kept: names, lattice identity,
    uniformity, orders.  The wavevectors and fluxes of the constructor are in
    Setup_Model.v. *)
From Coq Require Import Reals ZArith String Bool List Lia.
From Verif Require Import Base Lattice_Model.
Import ListNotations.
Set Implicit Arguments.

(** ------------------------------------------------------------------ *)
(** * Layer(...) *)

(** mu: a complex number or an array of at least two entries, whose truth value
    after [!= 1] is ambiguous (ValueError). *)
Inductive mu_in := MuScalar (re im : R) | MuArray.

(** layers.py:58-74: what the constructor does besides storing its arguments. *)
Definition layer_init (thickness : option R) (mu : mu_in) : res unit :=
  if (match thickness with Some t => if Rlt_dec t 0 then true else false | None => false end)
  then Err ValueError
  else match mu with
       | MuArray => Err ValueError
       | MuScalar re im =>
           if Req_EM_T re 1 then (if Req_EM_T im 0 then Ok tt else Err NotImplementedError)
           else Err NotImplementedError
       end.

(** A constructed layer: name, identity of its lattice object (Lattice defines no
    __eq__, so == is identity), uniformity of its permittivity. *)
Record pylayer := PyLayer { pl_name : string; pl_lat : nat; pl_uniform : bool }.

(** ------------------------------------------------------------------ *)
(** * Dictionaries (insertion ordered association lists) *)

Fixpoint dget (V : Type) (d : list (Z * V)) (k : Z) : option V :=
  match d with [] => None | (k', v) :: t => if (k' =? k)%Z then Some v else dget t k end.

Fixpoint dset (V : Type) (d : list (Z * V)) (k : Z) (v : V) : list (Z * V) :=
  match d with
  | [] => [(k, v)]
  | (k', v') :: t => if (k' =? k)%Z then (k', v) :: t else (k', v') :: dset t k v
  end.

Definition idict := list (Z * list (Z * nat)).

(** simulation.py:89-95, one iteration *)
Definition dict_add (d : idict) (o : order) (j : nat) : idict :=
  match dget d (fst o) with
  | Some inner => dset d (fst o) (dset inner (snd o) j)
  | None => dset d (fst o) [(snd o, j)]
  end.

Fixpoint dict_from (d : idict) (j : nat) (G : list order) : idict :=
  match G with [] => d | o :: t => dict_from (dict_add d o j) (S j) t end.

(** simulation.py:88-96 *)
Definition build_dict (G : list order) : idict := dict_from [] 0 G.

(** ------------------------------------------------------------------ *)
(** * Simulation(...) *)

(** helpers.py:46-48 *)
Fixpoint unique_from (seen : list string) (x : list string) : bool :=
  match x with
  | [] => true
  | i :: t => if existsb (String.eqb i) seen then false else unique_from (seen ++ [i]) t
  end.
Definition unique (x : list string) : bool := unique_from [] x.

(** bk.max of a 2 x n integer array; None (ValueError) when it is empty *)
Definition max_entry (G : list order) : option Z :=
  match G with
  | [] => None
  | o :: t => Some (fold_left (fun m p => Z.max m (Z.max (fst p) (snd p))) t (Z.max (fst o) (snd o)))
  end.

(** simulation.py:136-138: index of the first (0,0), else the last index *)
Fixpoint zeroth_index (G : list order) : nat :=
  match G with
  | [] => 0
  | [_] => 0
  | o :: t => if ((fst o =? 0) && (snd o =? 0))%Z then 0 else S (zeroth_index t)
  end.

Record sim := Sim {
  sim_layers : list pylayer;
  sim_lattice : lattice;
  sim_form : string;
  sim_harmonics : list order;
  sim_nh : Z;
  sim_dict : idict;
  sim_recip : mat2;
  sim_index0 : nat }.

Definition mem_str (s : string) (l : list string) : bool := existsb (String.eqb s) l.

(** simulation.py:66-73 *)
Definition effective_nh (all_uniform : bool) (nh : Z) : Z :=
  let nh0 := if (all_uniform && negb (nh =? 1)%Z)%bool then 1%Z else nh in
  if (nh0 =? 1)%Z then 2%Z else nh0.

Section Init.
Variable argsort : list R -> list nat.
(** the lattice objects, by identity *)
Variable lattices : nat -> lattice.

Definition sim_init (layers : list pylayer) (nh : Z) (form : string) : res sim :=
  if negb (unique (map pl_name layers)) then Err ValueError else
  match layers with
  | [] => Err IndexError
  | l0 :: _ =>
      if negb (forallb (fun l => Nat.eqb (pl_lat l) (pl_lat l0)) layers) then Err AssertionError else
      let lat := lattices (pl_lat l0) in
      let nh0 := effective_nh (forallb pl_uniform layers) nh in
      if negb (mem_str form ["original"; "tangent"; "jones"; "pol"]%string) then Err ValueError else
      if (lt_is1D lat && negb (mem_str form ["original"; "tangent"]%string))%bool then Err ValueError else
      let! hn := get_harmonics argsort lat nh0 true in
      let G := fst hn in
      match max_entry G with
      | None => Err ValueError
      | Some maxN =>
          if ((fst (lt_disc lat) <=? 2 * maxN)%Z
              || ((snd (lt_disc lat) <=? 2 * maxN)%Z && negb (lt_is1D lat)))%bool
          then Err ValueError
          else let! r := reciprocal lat in
               Ok (Sim layers lat form G (snd hn) (build_dict G) r (zeroth_index G))
      end
  end.
End Init.

(** simulation.py:139-149: incident amplitudes and bN *)
Section Amplitudes.
Variable A : Type.
Variable zero : A.

Definition incident (s : sim) (a : A * A) : list A :=
  map (fun i => if Nat.eqb i (sim_index0 s) then fst a
                else if (Z.of_nat i =? sim_nh s + Z.of_nat (sim_index0 s))%Z then snd a else zero)
      (seq 0 (Z.to_nat (sim_nh s * 2))).

Definition bN (s : sim) : list A := repeat zero (Z.to_nat (2 * sim_nh s)).
End Amplitudes.

(** ------------------------------------------------------------------ *)
(** * Lookups *)

(** list indexing with python's negative indices *)
Definition pyindex (n : nat) (i : Z) : option nat :=
  if ((0 <=? i) && (i <? Z.of_nat n))%Z then Some (Z.to_nat i)
  else if ((- Z.of_nat n <=? i) && (i <? 0))%Z then Some (Z.to_nat (Z.of_nat n + i))
  else None.

Definition pynth (A : Type) (l : list A) (i : Z) : res A :=
  match pyindex (length l) i with
  | Some k => of_option IndexError (nth_error l k)
  | None => Err IndexError
  end.

(** layers.py:280-312 *)
Inductive layer_id := IdName (s : string) | IdInt (i : Z) | IdObject (name : string) | IdOther.

Fixpoint find_name (s : string) (i : nat) (ls : list pylayer) : option (pylayer * nat) :=
  match ls with
  | [] => None
  | l :: t => if String.eqb (pl_name l) s then Some (l, i) else find_name s (S i) t
  end.

Definition get_layer_by_str (s : string) (ls : list pylayer) : res (pylayer * Z) :=
  if mem_str s (map pl_name ls) then
    match find_name s 0 ls with Some (l, i) => Ok (l, Z.of_nat i) | None => Err TypeError end
  else Err ValueError.

Definition get_layer (ls : list pylayer) (id : layer_id) : res (pylayer * Z) :=
  match id with
  | IdName s => get_layer_by_str s ls
  | IdInt i => let! l := pynth ls i in Ok (l, i)
  | IdObject s => get_layer_by_str s ls
  | IdOther => Err ValueError
  end.

(** The argument of get_order_index: a sequence of ints, an int, or anything else
    without a length. *)
Inductive order_arg := OSeq (l : list Z) | OInt (k : Z) | OOther.

(** simulation.py:559-572; len(order) is computed but its value not used. *)
Definition get_order_index (s : sim) (o : order_arg) : res nat :=
  let look a b :=
    match dget (sim_dict s) a with
    | None => Err KeyError
    | Some inner => of_option KeyError (dget inner b)
    end in
  match o with
  | OSeq l =>
      match l with
      | [] => Err IndexError
      | a :: t =>
          match dget (sim_dict s) a with
          | None => Err KeyError
          | Some inner => match t with [] => Err IndexError | b :: _ => of_option KeyError (dget inner b) end
          end
      end
  | OInt k => if lt_is1D (sim_lattice s) then look k 0%Z else Err ValueError
  | OOther => Err ValueError
  end.

(** simulation.py:574-575 *)
Definition get_order (A : Type) (s : sim) (v : list A) (o : order_arg) : res A :=
  let! j := get_order_index s o in of_option IndexError (nth_error v j).

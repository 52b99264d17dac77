(** What a user reads from Simulation(...).diffraction_efficiencies(orders=True): one line
    per diffraction order with its reflected and transmitted power. *)
From Coq Require Import Reals ZArith List.
Import ListNotations.
Set Implicit Arguments.

Definition table := list ((Z * Z) * (R * R)).

Definition orders_of (t : table) : list (Z * Z) := map fst t.
Definition reflected (t : table) : R := fold_right Rplus 0%R (map (fun x => fst (snd x)) t).
Definition transmitted (t : table) : R := fold_right Rplus 0%R (map (fun x => snd (snd x)) t).

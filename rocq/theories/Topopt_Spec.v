(** What an optimization run shows to its callback. *)
From Coq Require Import List.
Import ListNotations.

(** [seen below l p]: walking along [l], the points [p] are seen, up to and
    including the first one that is below. *)
Inductive seen {X : Type} (below : X -> Prop) : list X -> list X -> Prop :=
| seen_nil : seen below [] []
| seen_stop x t : below x -> seen below (x :: t) [x]
| seen_go x t p : ~ below x -> seen below t p -> seen below (x :: t) (x :: p).

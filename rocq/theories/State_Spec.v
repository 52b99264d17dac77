(** What the answers of a Simulation should be: functions of its parameters and of
    the thicknesses and permittivities of its layers alone - no cache, no heap. *)
From Coq Require Import List ZArith Bool Arith.
From Verif Require Import Base Init_Model State_Model.
Import ListNotations.
Set Implicit Arguments.

Section Spec.
Variables (P T E Pat Q G M Amp Eff Zt Fld Str Cx : Type).
Notation view := (view T E Pat Q G).
Variable unif : E -> bool.
Variable build_u : P -> E -> res Q.
Variable build_p : P -> E -> res (Pat * Q).
Variable modes_u : P -> E -> res G.
Variable modes_p : Pat -> res G.
Variable S0 : P -> M.
Variable step : P -> view -> view -> M -> res M.
Variable amp0 : P -> M -> Amp.
Variable ampN : P -> M -> Amp.
Variable ampI : P -> M -> M -> res Amp.
Variable eff : P -> view -> view -> M -> res Eff.
Variable fld : P -> view -> Zt -> Amp -> res Fld.
Variable str : P -> view -> Fld -> res Str.
Variable cx : P -> view -> view -> Fld -> Fld -> res Cx.
Variable z0 : Zt.

Section One.
Variable p : P.
(** thickness and permittivity of the layers, from the superstrate down *)
Variable d : list (T * E).

(** One layer, solved on its own. *)
Definition solved_view (x : T * E) : res view :=
  let (t, e) := x in
  if unif e then
    let! q := build_u p e in
    let! g := modes_u p e in
    Ok (View t e None (Some q) (Some g))
  else
    let! mq := build_p p e in
    let! g := modes_p (fst mq) in
    Ok (View t e (Some (fst mq)) (Some (snd mq)) (Some g)).

Fixpoint solved_views (l : list (T * E)) : res (list view) :=
  match l with
  | [] => Ok []
  | x :: t => let! v := solved_view x in let! r := solved_views t in Ok (v :: r)
  end.

(** The product over the interfaces of the integer list [is]. *)
Fixpoint s_product (vs : list view) (x : M) (is : list Z) : res M :=
  match is with
  | [] => Ok x
  | i :: t =>
      let! v := pynth vs i in
      let! v' := pynth vs (i + 1) in
      let! y := step p v v' x in
      s_product vs y t
  end.

(** S matrix between layers [a] and [b]. *)
Definition S_between (a b : Z) : res M :=
  let! vs := solved_views d in
  if (a <? b)%Z then s_product vs (S0 p) (zrange a b) else Err UnboundLocalError.

Definition n : Z := Z.of_nat (length d).
Definition S_full : res M := S_between 0 (n - 1).

Definition amp_spec (i : Z) : res Amp :=
  let! _ := pynth d i in
  if (i =? 0)%Z then let! x := S_full in Ok (amp0 p x)
  else if ((i =? n - 1) || (i =? -1))%bool%Z then let! x := S_full in Ok (ampN p x)
  else
    let! x := S_between 0 i in
    let! y := S_between i (n - 1) in
    ampI p x y.

Definition field_spec (i : Z) (z : Zt) : res Fld :=
  let! xe := pynth d i in
  let! _ := solved_views d in
  let! w := amp_spec i in
  let! v := solved_view xe in
  fld p v z w.

Definition eff_spec : res Eff :=
  let! x := S_full in
  let! first := pynth d 0 in
  let! last := pynth d (-1) in
  let! v := solved_view first in
  let! v' := solved_view last in
  eff p v v' x.

Definition cx_spec (iN i0 : nat) : res Cx :=
  let! _ := S_full in
  let! t := field_spec (Z.of_nat iN) z0 in
  let! b := field_spec (Z.of_nat i0) z0 in
  let! first := pynth d 0 in
  let! last := pynth d (-1) in
  let! v := solved_view first in
  let! v' := solved_view last in
  cx p v v' t b.

Definition str_spec (i : Z) (z : Zt) : res Str :=
  let! xe := pynth d i in
  let! f := field_spec i z in
  let! v := solved_view xe in
  str p v f.

Definition rmap A B (f : A -> B) (x : res A) : res B := let! a := x in Ok (f a).

Definition answer_spec (q : query Zt) : res (answer M Amp Eff Fld Str Cx) :=
  match q with
  | QSolve _ => rmap (fun _ => ADone _ _ _ _ _ _) (solved_views d)
  | QS _ None => rmap (@AS M Amp Eff Fld Str Cx) S_full
  | QS _ (Some (a, b)) => rmap (@AS M Amp Eff Fld Str Cx) (S_between a b)
  | QAmp _ i => rmap (@AAmp M Amp Eff Fld Str Cx) (amp_spec i)
  | QField i z => rmap (@AField M Amp Eff Fld Str Cx) (field_spec i z)
  | QEff _ => rmap (@AEff M Amp Eff Fld Str Cx) eff_spec
  | QComplex _ iN i0 => rmap (@ACx M Amp Eff Fld Str Cx) (cx_spec iN i0)
  | QStress i z => rmap (@AStr M Amp Eff Fld Str Cx) (str_spec i z)
  end.
End One.

(** Thickness and permittivity of the layers of a simulation. *)
Definition data (h : heap T E Pat Q G) (ls : list nat) : list (T * E) :=
  map (fun a => (o_thick (h a), o_eps (h a))) ls.

(** Layers that can be solved: no object twice (names are distinct), and a copy
    stands after its original, is patterned and has its original's permittivity. *)
Fixpoint copies_ok (h : heap T E Pat Q G) (before ls : list nat) : Prop :=
  match ls with
  | [] => True
  | a :: t =>
      match o_copy_of (h a) with
      | None => True
      | Some b => In b before /\ o_eps (h b) = o_eps (h a) /\ unif (o_eps (h a)) = false
      end /\ copies_ok h (a :: before) t
  end.

Definition usable (h : heap T E Pat Q G) (ls : list nat) : Prop :=
  NoDup ls /\ copies_ok h [] ls.

End Spec.

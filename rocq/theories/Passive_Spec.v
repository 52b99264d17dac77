(** Media without gain. *)
From Coq Require Import Reals ZArith.
From mathcomp Require Import all_ssreflect all_algebra.
From mathcomp Require Import complex.
From Verif Require Import RStruct Cplx Base Sim_Model Setup_Model.

Set Implicit Arguments.
Unset Strict Implicit.
Unset Printing Implicit Defensive.

Import GRing.Theory.
Local Open Scope ring_scope.

(** Fields vary as exp(-i omega t): a medium absorbs where Im(conj E . D) is positive. *)
Definition passive Nx Ny (e : eps_t Nx Ny) : Prop :=
  match e with
  | EpsUniform e => (0 <= complex.Im e)%Re
  | EpsGrid u => forall x y, (0 <= complex.Im (u x y))%Re
  | EpsTensorGrid u => forall x y (E : 'I_3 -> C),
      (0 <= complex.Im (\sum_a \sum_b u a b x y * E b * conj (E a)))%Re
  | EpsTensorUniform e => forall E : 'I_3 -> C,
      (0 <= complex.Im (\sum_a \sum_b e a b * E b * conj (E a)))%Re
  end.

(** Layers have non-negative thickness (layers.py:58-59); None counts as 0. *)
Definition thick_ok Nx Ny (l : layer_in Nx Ny) : Prop :=
  match li_thick l with Some t => (0 <= t)%Re | None => True end.

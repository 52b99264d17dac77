(** Vocabulary of property C95. *)
From Coq Require Import Reals.
From mathcomp Require Import all_ssreflect all_algebra.
From mathcomp Require Import complex.
From Verif Require Import RStruct Cplx Base Fourier_Model Sim_Model.

Set Implicit Arguments.
Unset Strict Implicit.
Unset Printing Implicit Defensive.

Import GRing.Theory.
Local Open Scope ring_scope.

(** A matrix equal to its conjugate transpose. *)
Definition hermitian m (A : 'M[C]_m) : Prop := forall i j, A j i = conj (A i j).

(** Two matrices whose product does not depend on the order. *)
Definition commute_mx m (A B : 'M[C]_m) : Prop := A *m B = B *m A.

(** The tangent field has the same direction and size at all points. *)
Definition constant_field Nx Ny (t : 'M[C]_(Nx, Ny) * 'M[C]_(Nx, Ny)) : Prop :=
  forall i j i' j', t.1 i j = t.1 i' j' /\ t.2 i j = t.2 i' j'.

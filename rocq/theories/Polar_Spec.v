(** Polarization: the same wave with another angle psi, and superpositions. *)
From Coq Require Import Reals.
From mathcomp Require Import all_ssreflect all_algebra.
From mathcomp Require Import complex.
From Verif Require Import RStruct Cplx Base Fourier_Model Sim_Model.

Set Implicit Arguments.
Unset Strict Implicit.
Unset Printing Implicit Defensive.

Import GRing.Theory.
Local Open Scope ring_scope.

(** the wave [pw] polarized at the angle [psi] (radians) *)
Definition polarized (pw : planewave) (psi : R) : planewave :=
  PlaneWave (pw_lambda pw) (pw_theta pw) (pw_phi pw) psi.

(** c F + s G, component by component *)
Definition superposed nh (c s : R) (F G H : fields nh) : Prop :=
  let lin (f : fields nh -> 'cV[C]_nh) := forall i, f H i ord0 = rc c * f F i ord0 + rc s * f G i ord0 in
  [/\ lin (@f_ex nh), lin (@f_ey nh) & lin (@f_ez nh)] /\
  [/\ lin (@f_hx nh), lin (@f_hy nh) & lin (@f_hz nh)].

(** Small vocabulary for stating optical results: in-plane wavevectors of the
    diffraction orders, squared moduli, Fresnel's reflection coefficients. *)
From Coq Require Import Reals ZArith.
From mathcomp Require Import all_ssreflect all_algebra.
From mathcomp Require Import complex.
From Verif Require Import RStruct Cplx Base Fourier_Model Sim_Model.

Set Implicit Arguments.
Unset Strict Implicit.
Unset Printing Implicit Defensive.

Import Order.TTheory GRing.Theory Num.Theory.
Local Open Scope ring_scope.
Local Open Scope complex_scope.

Definition sqmod (x : C) : R := (complex.Re x * complex.Re x + complex.Im x * complex.Im x)%Re.

(** Bloch wavevector of the order [o] for a wave of wavelength [pw_lambda] coming
    from a medium of permittivity [e0]; [rec] has the reciprocal vectors as columns. *)
Definition bloch_x (pw : planewave) (rec : 'M[R]_2) (e0 : R) (o : order) : R :=
  (2 * PI / pw_lambda pw * (sin (pw_theta pw) * cos (pw_phi pw)) * Num.sqrt e0
   + rec ord0 ord0 * IZR o.1 + rec ord0 ord_max * IZR o.2)%Re.
Definition bloch_y (pw : planewave) (rec : 'M[R]_2) (e0 : R) (o : order) : R :=
  (2 * PI / pw_lambda pw * (sin (pw_theta pw) * sin (pw_phi pw)) * Num.sqrt e0
   + rec ord_max ord0 * IZR o.1 + rec ord_max ord_max * IZR o.2)%Re.

(** The order propagates in a medium of permittivity [e]. *)
Definition order_propagates (pw : planewave) (rec : 'M[R]_2) (e0 e : R) (o : order) : Prop :=
  let k0 := (2 * PI / pw_lambda pw)%Re in
  (bloch_x pw rec e0 o * bloch_x pw rec e0 o + bloch_y pw rec e0 o * bloch_y pw rec e0 o
   < e * (k0 * k0))%Re.

(** Fresnel: z wavenumber in a medium of permittivity [e] for transverse
    wavenumber squared [kt2] (imaginary when evanescent), and the amplitude
    reflection coefficients for TE and TM polarisation. *)
Definition kz_of (e k0 kt2 : R) : C := csqrt (rc (e * (k0 * k0) - kt2)%Re).
Definition fresnel_te (q0 q1 : C) : C := (q0 - q1) / (q0 + q1).
Definition fresnel_tm (e0 e1 : R) (q0 q1 : C) : C := (rc e1 * q0 - rc e0 * q1) / (rc e1 * q0 + rc e0 * q1).

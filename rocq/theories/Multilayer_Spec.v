(** Reflection and transmission of a stack of homogeneous layers by the method of
    admittances (Abeles, Macleod): characteristic matrices, time factor exp(-i w t).
    Textbook formulas; nothing of nannos is used. *)
From Coq Require Import Reals ZArith.
From mathcomp Require Import all_ssreflect all_algebra.
From mathcomp Require Import complex.
From Verif Require Import RStruct Cplx Base Fourier_Model Sim_Model Optics_Spec.

Set Implicit Arguments.
Unset Strict Implicit.
Unset Printing Implicit Defensive.

Import Order.TTheory GRing.Theory Num.Theory.
Local Open Scope ring_scope.
Local Open Scope complex_scope.

Definition ccos (z : C) : C := (cexp ('i * z) + cexp (- ('i * z))) / 2%:R.
Definition csin (z : C) : C := (cexp ('i * z) - cexp (- ('i * z))) / (2%:R * 'i).

Inductive polarisation := TE | TM.

Section Stack.
(** vacuum wavenumber and square of the transverse wavenumber *)
Variables k0 kt2 : R.

(** wavenumber across the layers in a medium of permittivity [e] *)
Definition kz (e : C) : C := csqrt (e * rc (k0 * k0)%Re - rc kt2).

(** tilted admittance, in units of that of free space *)
Definition eta (pol : polarisation) (e : C) : C :=
  match pol with TE => kz e / rc k0 | TM => e * rc k0 / kz e end.

(** Fields (B, C) at the top of the layers [ls] (permittivity, thickness), from the
    top one down, for unit electric field on a substrate of permittivity [eN]:
    the product of the characteristic matrices applied to (1, eta_N). *)
Fixpoint assembly (pol : polarisation) (ls : seq (C * R)) (eN : C) : C * C :=
  match ls with
  | [::] => (1, eta pol eN)
  | (e, d) :: ls' =>
      let f := assembly pol ls' eN in
      let delta := kz e * rc d in
      (ccos delta * f.1 - 'i * csin delta / eta pol e * f.2,
       - 'i * eta pol e * csin delta * f.1 + ccos delta * f.2)
  end.

Definition denominator (pol : polarisation) (e0 : C) (ls : seq (C * R)) (eN : C) : C :=
  let f := assembly pol ls eN in eta pol e0 * f.1 + f.2.
Definition reflection (pol : polarisation) (e0 : C) (ls : seq (C * R)) (eN : C) : C :=
  let f := assembly pol ls eN in (eta pol e0 * f.1 - f.2) / denominator pol e0 ls eN.
Definition transmission (pol : polarisation) (e0 : C) (ls : seq (C * R)) (eN : C) : C :=
  2%:R * eta pol e0 / denominator pol e0 ls eN.

Definition reflectance pol e0 ls eN : R := sqmod (reflection pol e0 ls eN).
Definition transmittance pol e0 ls eN : R :=
  (complex.Re (eta pol eN) / complex.Re (eta pol e0) * sqmod (transmission pol e0 ls eN))%Re.
End Stack.

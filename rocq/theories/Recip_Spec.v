(** Reciprocity: media and pairs of experiments. *)
From Coq Require Import Reals ZArith.
From mathcomp Require Import all_ssreflect all_algebra.
From mathcomp Require Import complex.
From Verif Require Import RStruct Cplx Base Fourier_Model Sim_Model Setup_Model.

Set Implicit Arguments.
Unset Strict Implicit.
Unset Printing Implicit Defensive.

Local Open Scope ring_scope.
Local Open Scope complex_scope.

(** Reciprocal media: the permittivity tensor is symmetric at every point.  Absorption
    and gain are allowed; magneto-optical media (Hermitian, not symmetric) are not. *)
Definition reciprocal Nx Ny (e : eps_t Nx Ny) : Prop :=
  match e with
  | EpsUniform _ => True
  | EpsGrid _ => True
  | EpsTensorGrid u => forall a b, u a b = u b a
  | EpsTensorUniform e => forall a b, e a b = e b a
  end.

(** Every harmonic comes with its opposite. *)
Definition opposite_closed nh (h : 'I_nh -> order) : Prop :=
  forall i, exists j, h j = ((- (h i).1)%Zc, (- (h i).2)%Zc).

(** The same direction of incidence, polarisation turned by a right angle. *)
Definition crossed (pw' pw : planewave) : Prop :=
  pw' = PlaneWave (pw_lambda pw) (pw_theta pw) (pw_phi pw) (pw_psi pw + PI / 2)%Re.

(** Incidence along the specular reflection of [pw], reversed: same polar angle, azimuth
    turned by half a turn; any polarisation. *)
Definition reversed (pw' pw : planewave) : Prop :=
  pw_lambda pw' = pw_lambda pw /\ pw_theta pw' = pw_theta pw /\ pw_phi pw' = (pw_phi pw + PI)%Re.

(** Incidence from the medium of permittivity [eN] below, along the reversed direction of
    the refracted zeroth order of [pw] incident from [e0]. *)
Definition reversed_below (e0 eN : R) (pw' pw : planewave) : Prop :=
  pw_lambda pw' = pw_lambda pw /\
  (sqrt eN * sin (pw_theta pw') = sqrt e0 * sin (pw_theta pw))%Re /\ pw_phi pw' = (pw_phi pw + PI)%Re.

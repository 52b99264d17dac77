(** The grating equation, stated with numbers only. *)
From Coq Require Import Reals ZArith.
Set Implicit Arguments.
Local Open Scope R_scope.

(** (kx, ky) is the transverse wavevector of order (m, n) of a structure with basis
    vectors (a1x, a1y), (a2x, a2y), lit from a medium of permittivity e0 at angles theta
    and phi: along each basis vector the phase differs from that of the incident wave by
    2 pi m, 2 pi n. *)
Definition grating_equation (lambda theta phi e0 a1x a1y a2x a2y : R) (o : Z * Z) (kx ky : R) : Prop :=
  let k := 2 * PI / lambda * sqrt e0 * sin theta in
  (kx - k * cos phi) * a1x + (ky - k * sin phi) * a1y = 2 * PI * IZR (fst o) /\
  (kx - k * cos phi) * a2x + (ky - k * sin phi) * a2y = 2 * PI * IZR (snd o).

(** too short in the transverse plane for a plane wave of permittivity e *)
Definition evanescent (lambda e kx ky : R) : Prop :=
  e * (2 * PI / lambda) ^ 2 <= kx ^ 2 + ky ^ 2.

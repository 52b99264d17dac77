(** Power flow of a field and lossless media. *)
From Coq Require Import Reals ZArith.
From mathcomp Require Import all_ssreflect all_algebra.
From mathcomp Require Import complex.
From Verif Require Import RStruct Cplx Base Fourier_Model Sim_Model Setup_Model.

Set Implicit Arguments.
Unset Strict Implicit.
Unset Printing Implicit Defensive.

Import Order.TTheory GRing.Theory Num.Theory.
Local Open Scope ring_scope.
Local Open Scope complex_scope.

(** z component of Re(E x conj H) carried by one diffraction order. *)
Definition order_flux nh (F : fields nh) (i : 'I_nh) : R :=
  complex.Re (f_ex F i ord0 * conj (f_hy F i ord0) - f_ey F i ord0 * conj (f_hx F i ord0)).

Definition total_flux nh (F : fields nh) : R := \sum_i order_flux F i.

(** Lossless media: real scalar permittivity, or Hermitian tensor, at every point. *)
Definition lossless Nx Ny (e : eps_t Nx Ny) : Prop :=
  match e with
  | EpsUniform e => conj e = e
  | EpsGrid u => forall x y, conj (u x y) = u x y
  | EpsTensorGrid u => forall a b x y, u b a x y = conj (u a b x y)
  | EpsTensorUniform e => forall a b, e b a = conj (e a b)
  end.

(** The factorization rules covered: 'original', and 'tangent' on 1D lattices. *)
Definition plain_form Nx Ny (f : formulation_t Nx Ny) : Prop :=
  match f with TangentLike _ => False | _ => True end.

(** An order is propagating in a medium of permittivity e when its squared
    z-wavenumber e omega^2 - kx^2 - ky^2 is positive. *)
Definition propagating (e omega kx ky : R) : Prop := (0 < e * (omega * omega) - kx * kx - ky * ky)%Re.

(** Mathematical Fourier coefficients and series on a periodic grid. *)
From Coq Require Import Reals ZArith.
From mathcomp Require Import all_ssreflect all_algebra.
From mathcomp Require Import complex.
From Verif Require Import RStruct Cplx.

Set Implicit Arguments.
Unset Strict Implicit.
Unset Printing Implicit Defensive.

Import GRing.Theory Num.Theory.
Local Open Scope ring_scope.
Local Open Scope complex_scope.

(** The plane wave exp(2 pi i (m x/Nx + n y/Ny)) at grid point (x,y). *)
Definition wave (Nx Ny : nat) (m n : Z) (x : 'I_Nx) (y : 'I_Ny) : C :=
  cexp ('i * (2 * PI * (IZR m * INR x / INR Nx + IZR n * INR y / INR Ny))%Re%:C).

(** Fourier coefficient (m,n), any integers, of a grid function. *)
Definition coef Nx Ny (u : 'M[C]_(Nx, Ny)) (m n : Z) : C :=
  (\sum_(x < Nx) \sum_(y < Ny) u x y * @wave Nx Ny (- m) (- n) x y) / (Nx * Ny)%:R.

(** Average of a grid function. *)
Definition mean Nx Ny (u : 'M[C]_(Nx, Ny)) : C :=
  (\sum_(x < Nx) \sum_(y < Ny) u x y) / (Nx * Ny)%:R.

(** d is a valid python index of an axis of length N. *)
Definition index_ok (N : nat) (d : Z) : Prop := (- Z.of_nat N <= d < Z.of_nat N)%Zc.

(** Power lost in the media. *)
From Coq Require Import Reals ZArith.
From mathcomp Require Import all_ssreflect all_algebra.
From mathcomp Require Import complex.
From Verif Require Import RStruct Cplx Base Fourier_Model Fourier_Spec Sim_Model Setup_Model Grid_Model Grid_Spec.

Set Implicit Arguments.
Unset Strict Implicit.
Unset Printing Implicit Defensive.

Import GRing.Theory.
Local Open Scope ring_scope.

Definition mod2 (z : C) : R := (complex.Re z * complex.Re z + complex.Im z * complex.Im z)%Re.

(** |E|^2 at a point of the grid of the unit cell, from the Fourier components *)
Definition intensity nh (h : 'I_nh -> Z * Z) n0 n1 (F : fields nh) (x : 'I_n0) (y : 'I_n1) : R :=
  (mod2 (cell_value h (f_ex F) x y) + mod2 (cell_value h (f_ey F) x y) + mod2 (cell_value h (f_ez F) x y))%Re.

(** Mean over the grid of Im(eps) |E|^2. *)
Definition loss nh (h : 'I_nh -> Z * Z) n0 n1 (im : 'I_n0 -> 'I_n1 -> R) (F : fields nh) : R :=
  ((\sum_x \sum_y im x y * intensity h F x y) / (n0 * n1)%:R)%R.

(** Imaginary part of the permittivity at the points of the layer's grid; a homogeneous
    layer has the same one everywhere. *)
Definition eps_im Nx Ny (e : eps_t Nx Ny) (x : 'I_Nx) (y : 'I_Ny) : R :=
  match e with
  | EpsUniform e => complex.Im e
  | EpsGrid u => complex.Im (u x y)
  | _ => 0%Re
  end.

Definition isotropic Nx Ny (e : eps_t Nx Ny) : Prop :=
  match e with EpsUniform _ | EpsGrid _ => True | _ => False end.

(** v is the integral of f from a to b. *)
Definition integral (f : R -> R) (a b v : R) : Prop :=
  exists pr : Riemann_integrable f a b, RiemannInt pr = v.

(** Maxwell's equations for the Fourier components of a field, one system per
    diffraction order (e^{i(kx x + ky y)}, time dependence e^{-i omega t}, mu = 1):
      curl E = i omega H,  curl H = - i omega D,  div H = 0. *)
From Coq Require Import Reals ZArith.
From mathcomp Require Import all_ssreflect all_algebra.
From mathcomp Require Import complex.
From Verif Require Import RStruct Cplx Cderiv Base Fourier_Model Sim_Model.

Set Implicit Arguments.
Unset Strict Implicit.
Unset Printing Implicit Defensive.

Import Order.TTheory GRing.Theory Num.Theory.
Local Open Scope ring_scope.
Local Open Scope complex_scope.

Section Spec.
Variable nh : nat.
Variable omega : R.
Variables kx ky : 'rV[C]_nh.

(** Derivative with respect to z of a vector of Fourier coefficients. *)
Definition vderiv m (f : R -> 'cV[C]_m) (z : R) (d : 'cV[C]_m) : Prop :=
  forall i, cderiv (fun t => f t i ord0) z (d i ord0).

(** [F t] are the fields at height t, (Dx,Dy,Dz) the displacement at height z. *)
Definition maxwell_at (F : R -> fields nh) (Dx Dy Dz : 'cV[C]_nh) (z : R) : Prop :=
  exists dEx dEy dHx dHy dHz : 'cV[C]_nh,
    vderiv (fun t => f_ex (F t)) z dEx /\ vderiv (fun t => f_ey (F t)) z dEy /\
    vderiv (fun t => f_hx (F t)) z dHx /\ vderiv (fun t => f_hy (F t)) z dHy /\
    vderiv (fun t => f_hz (F t)) z dHz /\
    forall i : 'I_nh,
      let x (v : 'cV[C]_nh) := v i ord0 in
      let w := rc omega in let a := kx ord0 i in let b := ky ord0 i in
      let f := F z in
      (* curl E = i omega H *)
      'i * b * x (f_ez f) - x dEy = 'i * w * x (f_hx f) /\
      x dEx - 'i * a * x (f_ez f) = 'i * w * x (f_hy f) /\
      'i * a * x (f_ey f) - 'i * b * x (f_ex f) = 'i * w * x (f_hz f) /\
      (* curl H = - i omega D *)
      'i * b * x (f_hz f) - x dHy = - 'i * w * x Dx /\
      x dHx - 'i * a * x (f_hz f) = - 'i * w * x Dy /\
      'i * a * x (f_hy f) - 'i * b * x (f_hx f) = - 'i * w * x Dz /\
      (* div H = 0 *)
      'i * a * x (f_hx f) + 'i * b * x (f_hy f) + x dHz = 0.

End Spec.

(** ** Permittivity of a layer, in Fourier space *)
From Verif Require Import Fourier_Spec.

Section Constitutive.
Variables (Nx Ny nh : nat).
Variable h : 'I_nh -> order.

(** D = u E, truncated: convolution with the Fourier coefficients of u. *)
Definition convolves (u : 'M[C]_(Nx, Ny)) (E D : 'cV[C]_nh) : Prop :=
  forall i, D i ord0 = \sum_j coef u ((h i).1 - (h j).1)%Zc ((h i).2 - (h j).2)%Zc * E j ord0.

Definition recip (u : 'M[C]_(Nx, Ny)) : 'M[C]_(Nx, Ny) := \matrix_(x, y) (u x y)^-1.

(** Displacement of an isotropic layer for the three kinds of factorization rules:
    'original' (Laurent's rule), 'tangent' on mono-periodic lattices (the inverse
    rule for the x component), and the vector field formulations, where the part
    (wx,wy) of the rotated field (-ey,ex) selected by the normalised projector of
    the field t is treated by the inverse rule and the rest by Laurent's rule. *)
Definition constitutive (form : formulation_t Nx Ny) (eps : eps_t Nx Ny)
  (ex ey ez Dx Dy Dz : 'cV[C]_nh) : Prop :=
  match eps with
  | EpsUniform e => Dx = e *: ex /\ Dy = e *: ey /\ Dz = e *: ez
  | EpsGrid u =>
      convolves u ez Dz /\
      match form with
      | Original => convolves u ex Dx /\ convolves u ey Dy
      | Tangent1D => convolves (recip u) Dx ex /\ convolves u ey Dy
      | TangentLike tan => exists t0 t1, tan u = Ok (t0, t1) /\
          let p a b := \matrix_(x, y) (a x y * conj (b x y) / nt2 (t0 x y) (t1 x y)) in
          exists w1 w2 w3 w4 sx sy : 'cV[C]_nh,
            convolves (p t1 t1) (- ey) w1 /\ convolves (p t1 t0) ex w2 /\
            convolves (p t0 t1) (- ey) w3 /\ convolves (p t0 t0) ex w4 /\
            convolves (recip u) sx (w1 + w2) /\ convolves (recip u) sy (w3 + w4) /\
            convolves u (- ey - (w1 + w2)) (- Dy - sx) /\ convolves u (ex - (w3 + w4)) (Dx - sy)
      end
  | _ => False
  end.

(** Physical displacement of a patterned tensor permittivity whose z direction
    decouples: D = eps E with the 2x2 transverse tensor and eps_zz. *)
Definition tensor_displacement (u : 'I_3 -> 'I_3 -> 'M[C]_(Nx, Ny))
  (ex ey ez Dx Dy Dz : 'cV[C]_nh) : Prop :=
  exists d1 d2 d3 d4,
    convolves (u ord0 ord0) ex d1 /\ convolves (u ord0 (xy ord_max)) ey d2 /\
    convolves (u (xy ord_max) ord0) ex d3 /\ convolves (u (xy ord_max) (xy ord_max)) ey d4 /\
    Dx = d1 + d2 /\ Dy = d3 + d4 /\ convolves (u ord_max ord_max) ez Dz.
End Constitutive.

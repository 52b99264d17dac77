(** Band-limited images and the grids on which the "opt" tangent field can work. *)
From Coq Require Import Reals ZArith.
From mathcomp Require Import all_ssreflect all_algebra.
From mathcomp Require Import complex.
From Verif Require Import RStruct Cplx Base Fourier_Spec Sim_Model Filter_Model Tangent_Model.

Set Implicit Arguments.
Unset Strict Implicit.
Unset Printing Implicit Defensive.

Import GRing.Theory Num.Theory.
Local Open Scope ring_scope.
Local Open Scope complex_scope.

(** The Fourier series of an image, truncated to given orders. *)
Definition band nh (h : 'I_nh -> Z * Z) n0 n1 (g : 'M[C]_(n0, n1)) : 'M[C]_(n0, n1) :=
  \matrix_(x, y) \sum_i coef g (h i).1 (h i).2 * wave (h i).1 (h i).2 x y.

(** Square grids of at most 64 points a side, and grids with multiples of 64 points in
    both directions. *)
Definition workable (Nx Ny : nat) : Prop :=
  (Nx = Ny /\ (Nx <= 64)%N) \/ exists k l, (Nx = 64 * k)%N /\ (Ny = 64 * l)%N.

(** The modulus of the pattern, and the two components of its gradient (numpy.gradient)
    smoothed by nannos.utils.apply_filter with radius 4. *)
Definition modulus Nx Ny (u : 'M[C]_(Nx, Ny)) : 'M[C]_(Nx, Ny) := \matrix_(i, j) rc (cabs (u i j)).
Definition edges0 Nx Ny (u : 'M[C]_(Nx, Ny)) := apply_filter None 4%Re 4%Re (grad0 (modulus u)).
Definition edges1 Nx Ny (u : 'M[C]_(Nx, Ny)) := apply_filter None 4%Re 4%Re (grad1 (modulus u)).

(** The scalar product of the real and imaginary parts of two rows of amplitudes. *)
Definition rdot nh (a b : 'rV[C]_nh) : R := \sum_i complex.Re (b ord0 i * conj (a ord0 i)).

(** A solver that returns a minimiser whenever there is one. *)
Definition minimises (X : Type) (minimize : (X -> R) -> X) : Prop :=
  forall f, (exists x0, forall x, (f x0 <= f x)%Re) -> forall x, (f (minimize f) <= f x)%Re.

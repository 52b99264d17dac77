(** Fourier series of field components sampled on a grid of the unit cell. *)
From Coq Require Import Reals ZArith.
From mathcomp Require Import all_ssreflect all_algebra.
From mathcomp Require Import complex.
From Verif Require Import RStruct Cplx Fourier_Spec Grid_Model.

Set Implicit Arguments.
Unset Strict Implicit.
Unset Printing Implicit Defensive.

Import GRing.Theory.
Local Open Scope ring_scope.

(** sum over the orders of v_i exp(2 pi i (h_i . (x/n0, y/n1))): the periodic part of
    the component whose Fourier coefficients are v *)
Definition cell_value nh (h : 'I_nh -> Z * Z) n0 n1 (v : 'cV[C]_nh) (x : 'I_n0) (y : 'I_n1) : C :=
  \sum_i v i ord0 * wave (h i).1 (h i).2 x y.

(** No two orders are the same wave on the n0 x n1 grid. *)
Definition resolved nh (h : 'I_nh -> Z * Z) (n0 n1 : nat) : Prop := forall i j, i != j ->
  ~ ((((h i).1 - (h j).1) mod Z.of_nat n0 = 0)%Zc /\ (((h i).2 - (h j).2) mod Z.of_nat n1 = 0)%Zc).

(** Every order is a valid pair of python indices of the n0 x n1 grid. *)
Definition indexed nh (h : 'I_nh -> Z * Z) (n0 n1 : nat) : Prop :=
  forall i, index_ok n0 (h i).1 /\ index_ok n1 (h i).2.

(** a holds one component at the heights zs: axes x, y, height. *)
Definition sampled nh (h : 'I_nh -> Z * Z) n0 n1 (zs : seq R) (v : R -> 'cV[C]_nh) (a : nd) : Prop :=
  nd_shape a = [:: n0; n1; size zs] /\
  forall (x : 'I_n0) (y : 'I_n1) (j : 'I_(size zs)),
    nd_get a [:: val x; val y; val j] = Some (cell_value h (v (nth 0%Re zs j)) x y).

(** a holds the three components: axes component, x, y, height. *)
Definition sampled3 nh (h : 'I_nh -> Z * Z) n0 n1 (zs : seq R) (vx vy vz : R -> 'cV[C]_nh) (a : nd) : Prop :=
  nd_shape a = [:: 3%N; n0; n1; size zs] /\
  forall (x : 'I_n0) (y : 'I_n1) (j : 'I_(size zs)),
    let z := nth 0%Re zs j in
    nd_get a [:: 0%N; val x; val y; val j] = Some (cell_value h (vx z) x y) /\
    nd_get a [:: 1%N; val x; val y; val j] = Some (cell_value h (vy z) x y) /\
    nd_get a [:: 2%N; val x; val y; val j] = Some (cell_value h (vz z) x y).

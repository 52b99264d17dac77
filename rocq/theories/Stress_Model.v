(** The stress tensor of a new simulation (nannos/simulation.py:518-557). *)
From Coq Require Import Reals ZArith.
From mathcomp Require Import all_ssreflect all_algebra.
From mathcomp Require Import complex.
From Verif Require Import RStruct Cplx Base Fourier_Model Sim_Model Setup_Model.

Set Implicit Arguments.
Unset Strict Implicit.
Unset Printing Implicit Defensive.

Section Stress.
Variables (Nx Ny nh : nat).
Variable eig : forall m, 'M[C]_m -> 'rV[C]_m * 'M[C]_m.
Variable pw : planewave.
Variable rec : 'M[R]_2.
Variable h : 'I_nh -> order.
Variable form : formulation_t Nx Ny.

(** get_z_stress_tensor_integral(k, z) of a new simulation (simulation.py:518-557):
    the fields of the layer at height z, then the sums of [Sim_Model.stress].  The
    height is a number; a list of heights gives the stress at its first element. *)
Definition run_stress (layers : seq (layer_in Nx Ny)) (i0 : 'I_nh) (k : nat) (z : R) : res (R * R * R) :=
  match layers with
  | [::] => Err IndexError
  | l0 :: _ =>
      let! e0 := scalar_eps (li_eps l0) in
      let! a := pw_a0 pw in
      let! stack := solve_stack eig pw rec h form e0 layers in
      let w := sim_omega pw in
      let kx := sim_kx pw rec h e0 in
      let ky := sim_ky pw rec h e0 in
      let! F := get_field_fourier w kx ky stack k (sim_a0 i0 a) 0 z in
      let! l := of_option IndexError (List.nth_error stack k) in
      Ok (stress w kx ky l F)
  end.
End Stress.

(** Model of the numerical part of Simulation.__init__ (nannos/simulation.py:44-157)
    and of Simulation.solve, in exact arithmetic. *)
From Coq Require Import Reals ZArith.
From mathcomp Require Import all_ssreflect all_algebra.
From mathcomp Require Import complex.
From Verif Require Import RStruct Cplx Base Fourier_Model Sim_Model.

Set Implicit Arguments.
Unset Strict Implicit.
Unset Printing Implicit Defensive.

Import Order.TTheory GRing.Theory Num.Theory.
Local Open Scope ring_scope.
Local Open Scope complex_scope.

(** What the layers argument holds, per layer: thickness and permittivity
    (mu = 1, layers.py:70-74). *)
Record layer_in Nx Ny := LayerIn { li_thick : option R; li_eps : eps_t Nx Ny }.

Section Setup.
Variables (Nx Ny nh : nat).
Variable eig : forall m, 'M[C]_m -> 'rV[C]_m * 'M[C]_m.
Variable pw : planewave.
(** reciprocal lattice matrix (lattice.py:108-110) *)
Variable rec : 'M[R]_2.
Variable h : 'I_nh -> order.
Variable form : formulation_t Nx Ny.

(** [self.layers[0].epsilon]: used as a scalar; an array superstrate makes the
    shapes of the expressions below disagree and is not modelled further. *)
Definition scalar_eps (e : eps_t Nx Ny) : res C :=
  match e with EpsUniform e => Ok e | _ => Err ValueError end.

(** simulation.py:107: self.omega *)
Definition sim_omega : R := pw_k0 pw.

(** simulation.py:108-111: self.incident_flux *)
Definition incident_flux (e0 : C) : R :=
  complex.Re (rc (cos (pw_theta pw)) / csqrt (e0 * 1)).

(** simulation.py:114-117: self.k0para *)
Definition k0para (e0 : C) : C * C :=
  (rc (pw_kx pw) * csqrt (e0 * 1), rc (pw_ky pw) * csqrt (e0 * 1)).

Definition zC (z : Z) : C := rc (IZR z).

(** simulation.py:118-127: self.kx, self.ky *)
Definition sim_kx (e0 : C) : 'rV[C]_nh :=
  \row_i ((k0para e0).1 + rc (rec ord0 ord0) * zC (h i).1 + rc (rec ord0 ord_max) * zC (h i).2).
Definition sim_ky (e0 : C) : 'rV[C]_nh :=
  \row_i ((k0para e0).2 + rc (rec ord_max ord0) * zC (h i).1 + rc (rec ord_max ord_max) * zC (h i).2).

(** simulation.py:139-151: self.a0 for a given index_zeroth_order *)
Definition sim_a0 (i0 : 'I_nh) (a : R * R) : 'cV[C]_(nh + nh) :=
  col_mx (\col_i if i == i0 then rc a.1 else 0) (\col_i if i == i0 then rc a.2 else 0).

(** [map] with exceptions *)
Fixpoint mapr (A B : Type) (f : A -> res B) (s : seq A) : res (seq B) :=
  match s with
  | [::] => Ok [::]
  | a :: s' => let! b := f a in let! r := mapr f s' in Ok (b :: r)
  end.

(** simulation.py:179-207 [solve]: one build_matrix and one mode solver per layer
    (no layer of this structure is a copy; copies are in State_Model). *)
Definition solve_stack (e0 : C) (layers : seq (layer_in Nx Ny)) : res (seq (slayer nh)) :=
  mapr (fun li => solve_layer eig sim_omega (sim_kx e0) (sim_ky e0) h form (li_thick li) 1 (li_eps li))
       layers.

(** diffraction_efficiencies(orders=True) of a new simulation (simulation.py:441-478) *)
Definition run_efficiencies (layers : seq (layer_in Nx Ny)) (i0 : 'I_nh) : res (effs nh) :=
  match layers with
  | [::] => Err IndexError
  | l0 :: _ =>
      let! e0 := scalar_eps (li_eps l0) in
      let! a := pw_a0 pw in
      let! stack := solve_stack e0 layers in
      efficiencies sim_omega (incident_flux e0) stack (sim_a0 i0 a) 0
  end.

(** diffraction_efficiencies() *)
Definition run_RT (layers : seq (layer_in Nx Ny)) (i0 : 'I_nh) : res (R * R) :=
  let! r := run_efficiencies layers i0 in Ok (total r).

(** get_field_fourier(k, z) of a new simulation *)
Definition run_field (layers : seq (layer_in Nx Ny)) (i0 : 'I_nh) (k : nat) (z : R) : res (fields nh) :=
  match layers with
  | [::] => Err IndexError
  | l0 :: _ =>
      let! e0 := scalar_eps (li_eps l0) in
      let! a := pw_a0 pw in
      let! stack := solve_stack e0 layers in
      get_field_fourier sim_omega (sim_kx e0) (sim_ky e0) stack k (sim_a0 i0 a) 0 z
  end.

End Setup.

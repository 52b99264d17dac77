(** Simulation(layers, excitation, nh, formulation).diffraction_efficiencies(orders=True)
    as one function: the constructor (Init_Model, nannos/simulation.py:44-157) followed by
    the computation (Setup_Model, 179-207 and 441-478) on the orders the constructor chose. *)
From Coq Require Import Reals ZArith String.
From Verif Require Lattice_Model Init_Model.
From mathcomp Require Import all_ssreflect all_algebra.
From mathcomp Require Import complex.
From Verif Require Import RStruct Cplx Base Fourier_Model Sim_Model Setup_Model.

Set Implicit Arguments.
Unset Strict Implicit.
Unset Printing Implicit Defensive.

Import Order.TTheory GRing.Theory Num.Theory.
Local Open Scope ring_scope.
Local Open Scope complex_scope.

(** One element of [layers]: Layer(name, thickness, epsilon, lattice=...).  [ul_lat]
    identifies the lattice object.  The arrays have Nx x Ny points, whatever the
    discretization of the lattice is. *)
Record user_layer Nx Ny := UserLayer {
  ul_name : string;
  ul_lat : nat;
  ul_body : layer_in Nx Ny }.

Section E2E.
Variables (Nx Ny : nat).

(** layers.py:242-251 with helpers.py:51-65: an array of shape () or (3,3) is uniform
    (Classify_Model) *)
Definition is_uniform (e : eps_t Nx Ny) : bool :=
  match e with EpsUniform _ | EpsTensorUniform _ => true | EpsGrid _ | EpsTensorGrid _ => false end.

Definition to_py (l : user_layer Nx Ny) : Init_Model.pylayer :=
  Init_Model.PyLayer (ul_name l) (ul_lat l) (is_uniform (li_eps (ul_body l))).

(** lattice.py:90-100 read by simulation.py:118-127 *)
Definition recip_mx (m : Lattice_Model.mat2) : 'M[R]_2 :=
  \matrix_(i, j) if i == ord0 then (if j == ord0 then Lattice_Model.m00 m else Lattice_Model.m01 m)
                 else (if j == ord0 then Lattice_Model.m10 m else Lattice_Model.m11 m).

(** bk.linalg.eig, bk.argsort, and the vector field of each formulation
    (layers.py:261-277) *)
Variable eig : forall m, 'M[C]_m -> 'rV[C]_m * 'M[C]_m.
Variable argsort : seq R -> seq nat.
Variable tan : string -> 'M[C]_(Nx, Ny) -> res ('M[C]_(Nx, Ny) * 'M[C]_(Nx, Ny)).
Variable lattices : nat -> Lattice_Model.lattice.

(** simulation.py:660-676 *)
Definition choose_form (name : string) (is1D : bool) : formulation_t Nx Ny :=
  if String.eqb name "original" then Original Nx Ny
  else if String.eqb name "tangent" && is1D then Tangent1D Nx Ny
  else TangentLike (tan name).

(** self.harmonics as a function of the column *)
Definition harm n (G : seq order) (i : 'I_n) : order := nth (0%Zc, 0%Zc) G i.

(** The arrays returned, column by column, with the order each column belongs to
    (self.harmonics). *)
Definition listing n (G : seq order) (r : effs n) : seq (order * (R * R)) :=
  [seq (harm G i, (r.1 i ord0, r.2 i ord0)) | i <- enum 'I_n].

(** The computation with [n] = self.nh columns; self.harmonics must have that many
    (otherwise shapes disagree: ValueError). *)
Definition compute n (s : Init_Model.sim) (pw : planewave) (bodies : seq (layer_in Nx Ny))
  : res (seq (order * (R * R))) :=
  if size (Init_Model.sim_harmonics s) != n then Err ValueError else
  match insub (Init_Model.sim_index0 s) : option 'I_n with
  | None => Err IndexError
  | Some i0 =>
      let! r := run_efficiencies eig pw (recip_mx (Init_Model.sim_recip s)) (harm (Init_Model.sim_harmonics s))
                  (choose_form (Init_Model.sim_form s) (Lattice_Model.lt_is1D (Init_Model.sim_lattice s))) bodies i0 in
      Ok (listing (Init_Model.sim_harmonics s) r)
  end.

Definition simulate (layers : seq (user_layer Nx Ny)) (pw : planewave) (nh : Z) (form : string)
  : res (seq (order * (R * R))) :=
  let! s := Init_Model.sim_init argsort lattices (List.map to_py layers) nh form in
  compute (Z.to_nat (Init_Model.sim_nh s)) s pw (List.map (@ul_body Nx Ny) layers).
End E2E.

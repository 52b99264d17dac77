(** Model of Simulation._get_complex_orders (nannos/simulation.py:494-516) and of
    the layer lookup by name it uses. *)
From Coq Require Import Reals ZArith String.
From mathcomp Require Import all_ssreflect all_algebra.
From mathcomp Require Import complex.
From Verif Require Import RStruct Cplx Base Fourier_Model Sim_Model Setup_Model.

Set Implicit Arguments.
Unset Strict Implicit.
Unset Printing Implicit Defensive.

Import Order.TTheory GRing.Theory Num.Theory.
Local Open Scope ring_scope.
Local Open Scope complex_scope.

(** layers.py:299-303 [_get_layer] for a string: the first layer of that name,
    ValueError if there is none. *)
Fixpoint name_index (name : string) (names : seq string) : res nat :=
  match names with
  | [::] => Err ValueError
  | n :: names' => if String.eqb n name then Ok 0%N
                   else let! i := name_index name names' in Ok i.+1
  end.

Section Complex.
Variables (Nx Ny nh : nat).
Variable eig : forall m, 'M[C]_m -> 'rV[C]_m * 'M[C]_m.
Variable pw : planewave.
Variable rec : 'M[R]_2.
Variable h : 'I_nh -> order.
Variable form : formulation_t Nx Ny.

(** Three cartesian components of all the orders: an array of shape (3, nh). *)
Record vec3 := Vec3 { v_x : 'cV[C]_nh; v_y : 'cV[C]_nh; v_z : 'cV[C]_nh }.

(** [(norma2.real) ** 0.5] (simulation.py:508-509) *)
Definition real_root (x : C) : res R :=
  if complex.Re x < 0 then Err NaN else Ok (Num.sqrt (complex.Re x)).

Fixpoint rowr (m : nat) : forall (f : 'I_m -> res R), res ('I_m -> R) :=
  match m with
  | 0 => fun _ => Ok (fun _ => 0)
  | m'.+1 => fun f =>
      let! x := f ord0 in
      let! g := rowr (fun i : 'I_m' => f (lift ord0 i)) in
      Ok (fun i => if unlift ord0 i is Some j then g j else x)
  end.

(** [nin**2 * (gamma / gamma_in0)] then the square root of its real part
    (simulation.py:495-509), for the gamma of a medium of index squared [n2]. *)
Definition norma (e0 n2 : C) : res ('I_nh -> R) :=
  let nin := csqrt (e0 * 1) in
  let nn := csqrt n2 in
  let w := rc (sim_omega pw) in
  let kp := k0para pw e0 in
  let gamma_in0 := csqrt (w ^+ 2 * nin ^+ 2 - kp.1 ^+ 2 - kp.2 ^+ 2) in
  if gamma_in0 == 0 then Err NaN else
  rowr (fun i =>
    let gamma := csqrt (w ^+ 2 * nn ^+ 2 - sim_kx pw rec h e0 ord0 i ^+ 2
                        - sim_ky pw rec h e0 ord0 i ^+ 2) in
    real_root (nin ^+ 2 * (gamma / gamma_in0))).

Definition scale3 (s : 'I_nh -> R) (F : fields nh) : vec3 :=
  Vec3 (\col_i (f_ex F i ord0 * rc (s i))) (\col_i (f_ey F i ord0 * rc (s i)))
       (\col_i (f_ez F i ord0 * rc (s i))).

(** simulation.py:513-515: minus the incident amplitude on the zeroth order *)
Definition minus_inc (i0 : 'I_nh) (v : vec3) : vec3 :=
  let o0 i : C := if i == i0 then 1 else 0 in
  Vec3 (\col_i (v_x v i ord0 - o0 i * rc (pw_cx pw)))
       (\col_i (v_y v i ord0 - o0 i * rc (pw_cy pw)))
       (\col_i (v_z v i ord0 - o0 i * rc (pw_cz pw))).

(** simulation.py:494-516 = diffraction_efficiencies(complex=True, orders=True),
    for layers whose outer ones are uniform (eps a scalar). *)
Definition run_complex (names : seq string) (layers : seq (layer_in Nx Ny)) (i0 : 'I_nh)
  : res (vec3 * vec3) :=
  match layers with
  | [::] => Err IndexError
  | l0 :: rest =>
      let! e0 := scalar_eps (li_eps l0) in
      let! eN := scalar_eps (li_eps (last l0 rest)) in
      let! nt := norma e0 (eN * 1) in
      let! nr := norma e0 (e0 * 1) in
      let! ks := name_index "Substrate" names in
      let! Ft := run_field eig pw rec h form layers i0 ks 0 in
      let! kp := name_index "Superstrate" names in
      let! Fr := run_field eig pw rec h form layers i0 kp 0 in
      Ok (minus_inc i0 (scale3 nr Fr), scale3 nt Ft)
  end.

(** simulation.py:468-470: orders=False sums over the orders. *)
Definition vec3_sum (v : vec3) : C * C * C :=
  (\sum_i v_x v i ord0, \sum_i v_y v i ord0, \sum_i v_z v i ord0).

End Complex.

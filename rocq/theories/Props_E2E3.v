(** Whole simulations: homogeneous stacks, patterned stacks, tangent fields
    (properties C90, C91). *)
From Coq Require Import Reals ZArith String Lra Lia.
From Verif Require Lattice_Model Lattice_Spec Lattice_Proofs3 Init_Model Init_Proofs Init_Proofs2 Argsort Lattice_Examples Props_Init E2E_Proofs.
From mathcomp Require Import all_ssreflect all_algebra.
From mathcomp Require Import complex.
From Verif Require Import RStruct Cplx Base Fourier_Model Sim_Model Setup_Model E2E_Model Energy_Spec E2E_Spec Multilayer_Spec.
From Verif Require Import Aniso_Proofs Demo_Proofs Demo3_Proofs Props_Optics Props_Optics2 Props_Symm E2E_Proofs6 Props_E2E Props_E2E2.

Set Implicit Arguments.
Unset Strict Implicit.
Unset Printing Implicit Defensive.

Import Order.TTheory GRing.Theory Num.Theory.
Local Open Scope ring_scope.
Local Open Scope complex_scope.

Section E2E.
Variables (Nx Ny : nat).
Variable eig : forall m, 'M[C]_m -> 'rV[C]_m * 'M[C]_m.
Variable argsort : seq R -> seq nat.
Hypothesis hsort : Lattice_Model.argsort_ok argsort.
Variable lattices : nat -> Lattice_Model.lattice.
Variable tan : string -> 'M[C]_(Nx, Ny) -> res ('M[C]_(Nx, Ny) * 'M[C]_(Nx, Ny)).
Notation simulate tan := (simulate eig argsort tan lattices).

(** ** C90: whatever [nh] and the formulation, a simulation of homogeneous layers
    returns one line, for the order (0,0), with the textbook efficiencies. *)
Theorem C90_homogeneous n0 lt t0 e0 (films : seq (string * (C * R))) nN tN eN pw nh form out :
  Lattice_Proofs3.generates (lattices lt) ->
  (0 < pw_lambda pw)%Re -> (0 < cos (pw_theta pw))%Re -> (0 < e0)%Re ->
  simulate tan (UserLayer n0 lt (LayerIn t0 (EpsUniform Nx Ny (rc e0)))
     :: List.map (fun f => UserLayer f.1 lt (film Nx Ny f.2)) films
     ++ [:: UserLayer nN lt (LayerIn tN (EpsUniform Nx Ny eN))]) pw nh form = Ok out ->
  let k0 := (2 * PI / pw_lambda pw)%Re in
  let kt2 := (e0 * (k0 * k0) * (sin (pw_theta pw) * sin (pw_theta pw)))%Re in
  let te := (sin (pw_psi pw) * sin (pw_psi pw))%Re in let tm := (cos (pw_psi pw) * cos (pw_psi pw))%Re in
  let ls := List.map snd films in
  out = [:: ((0%Zc, 0%Zc),
    (te * reflectance k0 kt2 TE (rc e0) ls eN + tm * reflectance k0 kt2 TM (rc e0) ls eN,
     te * transmittance k0 kt2 TE (rc e0) ls eN + tm * transmittance k0 kt2 TM (rc e0) ls eN)%Re)].
Proof. exact: sim_homogeneous. Qed.

(** With a patterned layer the lines are those of lattice.get_harmonics(nh, sort=True),
    in that order. *)
Theorem C90_patterned l0 rest l pw nh form out :
  Lattice_Proofs3.generates (lattices (ul_lat l0)) -> (2 <= nh)%Zc ->
  List.In l (l0 :: rest) -> ~ (exists e, li_eps (ul_body l) = EpsUniform Nx Ny e) ->
  simulate tan (l0 :: rest) pw nh form = Ok out ->
  Lattice_Model.get_harmonics argsort (lattices (ul_lat l0)) nh true = Ok (orders_of out, Z.of_nat (size out)).
Proof.
move=> hg hn hl hu hs; apply: (sim_patterned hsort hg hn hl _ hs).
case E: (li_eps (ul_body l)) => [e|u|u|t] //; first by case: hu; exists e.
have [s [n [i0 [r [_ _ _ hr _]]]]] := E2E_Proofs.simulateP hs.
by have := E2E_Proofs2.run_no_tensor hr (List.in_map (@ul_body Nx Ny) _ _ hl) (u := t); rewrite E.
Qed.

(** ** C91: "original" and mono-periodic "tangent" never ask for a tangent field; *)
Theorem C91_not_asked (tan1 tan2 : string -> 'M[C]_(Nx, Ny) -> res ('M[C]_(Nx, Ny) * 'M[C]_(Nx, Ny))) l0 rest pw nh form :
  form = "original"%string \/ form = "tangent"%string /\ Lattice_Model.lt_is1D (lattices (ul_lat l0)) = true ->
  simulate tan1 (l0 :: rest) pw nh form = simulate tan2 (l0 :: rest) pw nh form.
Proof. exact: tan_unused. Qed.

(** the other formulations do, for each patterned isotropic layer: when it raises,
    no efficiencies are returned. *)
Theorem C91_asked l0 rest pw nh form l u e :
  form <> "original"%string -> (form <> "tangent"%string \/ Lattice_Model.lt_is1D (lattices (ul_lat l0)) = false) ->
  List.In l (l0 :: rest) -> li_eps (ul_body l) = EpsGrid u -> tan form u = Err e ->
  forall out, simulate tan (l0 :: rest) pw nh form <> Ok out.
Proof. exact: tan_used. Qed.
End E2E.
Print Assumptions C90_homogeneous.
Print Assumptions C90_patterned.
Print Assumptions C91_not_asked.
Print Assumptions C91_asked.

(** Cases: total internal reflection; a grating with three orders. *)
Example C90_case : exists x,
  simulate demo_eig Argsort.isort no_tan lats [:: glass; air] slanted 7 "original" = Ok [:: ((0%Zc, 0%Zc), x)] /\ x.2 = 0%Re.
Proof.
have [out [ho hz]] := C88_case.
have [lam [cth _]] := C54_case.
have p4 : (0 < 4)%Re by lra.
have e := C90_homogeneous Argsort.isort_ok (lattices := lats) (films := [::]) gen1 lam cth
  p4 ho.
move: e hz ho => /= -> hz ho; eexists; split; first exact: ho.
by apply: hz; left.
Qed.

Example C90_patterned_case a : exists out,
  simulate demo_eig Argsort.isort no_tan lats [:: sup; grating a; sub] (light 0 1) 3 "original" = Ok out /\
  forall a b, List.In (a, b) (orders_of out) <-> b = 0%Zc /\ (Z.abs a <= 1)%Zc.
Proof.
have [_ [[out ho] _]] := @sim3_ok Argsort.isort 0 1 a Argsort.isort_ok.
exists out; split=> //.
have p3 : (2 <= 3)%Zc by lia.
have := C90_patterned Argsort.isort_ok (lattices := lats) (l0 := sup) (rest := [:: grating a; sub]) (l := grating a) gen1
  p3 (or_intror (or_introl erefl)) ltac:(by case) ho.
have [G [n [hG [hl [en _]]]]] := @Lattice_Proofs3.gh_one_dim Argsort.isort Argsort.isort_ok 1 (6%Zc, 1%Zc) 3 true.
rewrite -[lats _]/lat1 -[Lattice_Model.lattice_1D 1 _ None]/lat1 in hG *.
rewrite hG => -[<- _]; exact: (proj2 hl).
Qed.

(** square lattice, "jones", a tangent field that fails: the constructor accepts, the
    computation does not return; with "original" it is not even consulted *)
Definition picky : string -> 'M[C]_(4, 4) -> res ('M[C]_(4, 4) * 'M[C]_(4, 4)) := fun _ _ => Err NaN.
Definition blank n e : user_layer 4 4 := UserLayer n 0 (LayerIn None (EpsUniform 4 4 (rc e))).
Definition spots u : user_layer 4 4 := UserLayer "grating" 0 (LayerIn (Some 1%Re) (EpsGrid u)).
Example C91_case u : exists s,
  Init_Model.sim_init Argsort.isort (fun=> Lattice_Examples.square false)
     (List.map (@to_py 4 4) [:: blank "air" 1; spots u; blank "glass" 2]) 12 "jones" = Ok s /\
  forall pw out, simulate demo_eig Argsort.isort picky (fun=> Lattice_Examples.square false)
     [:: blank "air" 1; spots u; blank "glass" 2] pw 12 "jones" <> Ok out.
Proof.
have [s [hs _]] := Props_Init.C12_case; exists s; split=> // pw.
by apply: (@C91_asked 4 4 _ _ _ _ _ _ _ _ _ (spots u) u NaN) => //; [left|right; left].
Qed.

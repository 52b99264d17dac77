(** Fresnel reflection and anisotropic patterned layers (C52, C54). *)
From Coq Require Import Reals ZArith Lra Lia.
From mathcomp Require Import all_ssreflect all_algebra.
From mathcomp Require Import complex.
From Verif Require Import RStruct Cplx Cderiv Base Fourier_Model Fourier_Spec Sim_Model Sim_Spec Setup_Model.
From Verif Require Import Maxwell_Spec Energy_Spec Optics_Spec Energy_Proofs2 Energy_Proofs3.
From Verif Require Import Run_Proofs Run_Proofs2 Orders_Proofs Diag_Proofs Fresnel_Proofs Aniso_Proofs.

Set Implicit Arguments.
Unset Strict Implicit.
Unset Printing Implicit Defensive.

Import Order.TTheory GRing.Theory Num.Theory.
Local Open Scope ring_scope.
Local Open Scope complex_scope.

(** ** C54 *)
(** Reflection at one interface between media e0 and e1 (e1 may be negative or
    make the transmitted wave evanescent), plane of incidence y = 0, any
    polarisation angle psi. *)
Theorem C54_fresnel (Nx Ny : nat) (eig : forall m, 'M[C]_m -> 'rV[C]_m * 'M[C]_m) (pw : planewave)
    (rec : 'M[R]_2) (h : 'I_1 -> order) (form : formulation_t Nx Ny) (e0 e1 : R) (t0 t1 : option R) :
  (0 < pw_lambda pw)%Re -> (0 < cos (pw_theta pw))%Re -> pw_phi pw = 0%Re ->
  h ord0 = (0%Zc, 0%Zc) -> (0 < e0)%Re -> e1 <> 0%Re ->
  let k0 := (2 * PI / pw_lambda pw)%Re in
  let kt2 := (e0 * (k0 * k0) * (sin (pw_theta pw) * sin (pw_theta pw)))%Re in
  (e1 * (k0 * k0) - kt2)%Re <> 0%Re ->
  let q0 := kz_of e0 k0 kt2 in let q1 := kz_of e1 k0 kt2 in
  exists r,
  run_efficiencies eig pw rec h form
    [:: LayerIn t0 (EpsUniform Nx Ny (rc e0)); LayerIn t1 (EpsUniform Nx Ny (rc e1))] ord0 = Ok r /\
  r.1 ord0 ord0 = (sin (pw_psi pw) * sin (pw_psi pw) * sqmod (fresnel_te q0 q1)
                 + cos (pw_psi pw) * cos (pw_psi pw) * sqmod (fresnel_tm e0 e1 q0 q1))%Re.
Proof.
move=> lam cth phi0 h0 e0p e1n k0 kt2 g1n q0 q1.
have E e : gam2 (sim_omega pw) (rkx pw rec h e0) (rky pw rec h e0) e ord0 = (e * (k0 * k0) - kt2)%Re.
  rewrite /gam2 (ky0 phi0 rec h0 e0) mxE h0 /= /pw_kx phi0 cos_0 /sim_omega /kt2.
  have -> : pw_k0 pw = k0 by rewrite /pw_k0 /k0; field; lra.
  have hs : (Num.sqrt e0 * Num.sqrt e0)%Re = e0.
    by move/RltP: e0p => e0p; have := sqr_sqrtr (ltW e0p); rewrite expr2.
  have -> : (e0 * (k0 * k0) * (sin (pw_theta pw) * sin (pw_theta pw)) =
     Num.sqrt e0 * Num.sqrt e0 * (k0 * k0) * (sin (pw_theta pw) * sin (pw_theta pw)))%Re by rewrite hs.
  by rfold; ring.
have g1 : gam2 (sim_omega pw) (rkx pw rec h e0) (rky pw rec h e0) e1 ord0 <> 0%Re by rewrite E.
have [r [hr hR]] := fresnel eig lam cth phi0 h0 form e0p t0 t1 e1n g1.
by exists r; split=> //; rewrite hR /r_te /r_tm /qo !E.
Qed.
Print Assumptions C54_fresnel.

(** Concrete case: glass to air at 45 degrees, beyond the critical angle. *)
Example C54_case : let pw := PlaneWave 1 (PI / 4) 0 0 in
  (0 < pw_lambda pw)%Re /\ (0 < cos (pw_theta pw))%Re /\ (0 < 4)%Re /\ 1%Re <> 0%Re /\
  let k0 := (2 * PI / pw_lambda pw)%Re in
  let kt2 := (4 * (k0 * k0) * (sin (pw_theta pw) * sin (pw_theta pw)))%Re in
  (1 * (k0 * k0) - kt2 < 0)%Re.
Proof.
rewrite /= cos_PI4 sin_PI4.
have s2 := Rlt_sqrt2_0; have p := PI_RGT_0.
have hs : (sqrt 2 * sqrt 2 = 2)%Re by apply: sqrt_sqrt; lra.
split; first lra. split; first by apply: Rdiv_lt_0_compat; lra.
split; first lra. split; first lra.
have -> : (1 / sqrt 2 * (1 / sqrt 2) = 1 / 2)%Re.
  have -> : (1 / sqrt 2 * (1 / sqrt 2) = 1 / (sqrt 2 * sqrt 2))%Re by field; lra.
  by rewrite hs.
have : (0 < (2 * PI / 1) * (2 * PI / 1))%Re by apply: Rmult_lt_0_compat; lra.
by move: (_ * _)%Re => x; lra.
Qed.

(** ** C52 *)
(** What a patterned anisotropic layer computes: Maxwell's equations for the
    tensor with the roles of x and y exchanged (rotated by 90 degrees). *)
Theorem C52_rotated_partial (Nx Ny nh : nat) (eig : forall m, 'M[C]_m -> 'rV[C]_m * 'M[C]_m)
    (pw : planewave) (rec : 'M[R]_2) (h : 'I_nh -> order) (i0 : 'I_nh)
    (l0 : layer_in Nx Ny) rest k li u z0 F0 e0 :
  (0 < Nx)%N -> (0 < Ny)%N ->
  (forall m (A : 'M[C]_m), A *m (eig m A).2 = (eig m A).2 *m diag_mx (eig m A).1) ->
  List.nth_error (l0 :: rest) k = Some li -> li_eps l0 = EpsUniform Nx Ny e0 ->
  li_eps li = EpsTensorGrid u ->
  run_field eig pw rec h (Original Nx Ny) (l0 :: rest) i0 k z0 = Ok F0 ->
  exists F, (forall z, run_field eig pw rec h (Original Nx Ny) (l0 :: rest) i0 k z = Ok (F z)) /\
  forall z, exists Dx Dy Dz,
    tensor_displacement h (rot90 u) (f_ex (F z)) (f_ey (F z)) (f_ez (F z)) Dx Dy Dz /\
    maxwell_at (sim_omega pw) (sim_kx pw rec h e0) (sim_ky pw rec h e0) F Dx Dy Dz z.
Proof.
move=> Nx0 Ny0 eig_ok hk he0 hu hF.
exact: (run_maxwell_tensor Nx0 Ny0 eig_ok (layers := l0 :: rest) hk he0 hu hF).
Qed.
Print Assumptions C52_rotated_partial.

(** For every diagonal tensor with different x and y entries the computed field
    violates Maxwell's equations for the tensor that was given. *)
Theorem C52_aniso_refuted (Nx Ny : nat) (a b : R) :
  (0 < Nx)%N -> (0 < Ny)%N -> (0 < a)%Re -> (0 < b)%Re -> a <> b -> exists F,
  (forall z, run_field demo_eig demo_pw demo_rec demo_h (Original Nx Ny) (demo_stack Nx Ny a b) ord0 1 z = Ok (F z)) /\
  forall Dx Dy Dz,
    tensor_displacement demo_h (@demo_u Nx Ny a b) (f_ex (F 0)) (f_ey (F 0)) (f_ez (F 0)) Dx Dy Dz ->
    ~ maxwell_at (sim_omega demo_pw) (sim_kx demo_pw demo_rec demo_h 1) (sim_ky demo_pw demo_rec demo_h 1) F Dx Dy Dz 0.
Proof. by move=> Nx0 Ny0; exact: aniso_wrong. Qed.
Print Assumptions C52_aniso_refuted.

(** Polarization: whole runs. *)
From Coq Require Import Reals ZArith Lra.
From mathcomp Require Import all_ssreflect all_algebra.
From mathcomp Require Import complex.
From Verif Require Import RStruct Cplx Base Fourier_Model Sim_Model Setup_Model Energy_Proofs Energy_Proofs2 Polar_Spec Polar_Proofs.

Set Implicit Arguments.
Unset Strict Implicit.
Unset Printing Implicit Defensive.

Import Order.TTheory GRing.Theory Num.Theory.
Local Open Scope ring_scope.
Local Open Scope complex_scope.

Section Run.
Variables (Nx Ny nh : nat).
Variable eig : forall m, 'M[C]_m -> 'rV[C]_m * 'M[C]_m.
Variables (pw : planewave) (rec : 'M[R]_2) (h : 'I_nh -> order) (form : formulation_t Nx Ny).
Variables (layers : seq (layer_in Nx Ny)) (i0 : 'I_nh).

Lemma run_polar psi0 r0 : run_efficiencies eig (polarized pw psi0) rec h form layers i0 = Ok r0 ->
  exists ra rb, [/\ run_efficiencies eig (polarized pw 0%Re) rec h form layers i0 = Ok ra,
    run_efficiencies eig (polarized pw (PI / 2)%Re) rec h form layers i0 = Ok rb &
  exists X : 'I_nh -> R * R, forall psi, exists2 r,
    run_efficiencies eig (polarized pw psi) rec h form layers i0 = Ok r &
    forall i, r.1 i ord0 = (cos psi * cos psi * ra.1 i ord0 + sin psi * sin psi * rb.1 i ord0 +
                            cos psi * sin psi * (X i).1)%Re /\
              r.2 i ord0 = (cos psi * cos psi * ra.2 i ord0 + sin psi * sin psi * rb.2 i ord0 +
                            cos psi * sin psi * (X i).2)%Re].
Proof.
case: layers => [//|l0 rest]; rewrite /run_efficiencies.
case: (scalar_eps (li_eps l0)) => [e0|//]; cbn [bind].
case ha: (pw_a0 (polarized pw psi0)) => [u0|//]; cbn [bind].
have [u hu] := a0_some 0%Re ha; have [v hv] := a0_some (PI / 2)%Re ha.
rewrite hu hv; cbn [bind].
have st psi : solve_stack eig (polarized pw psi) rec h form e0 (l0 :: rest) =
              solve_stack eig (polarized pw psi0) rec h form e0 (l0 :: rest) by [].
rewrite !st; case hs: (solve_stack _ _ _ _ _ _ _) => [stack|]; last by []. cbn [bind].
have om psi : sim_omega (polarized pw psi) = sim_omega (polarized pw psi0) by [].
have fl psi : incident_flux (polarized pw psi) e0 = incident_flux (polarized pw psi0) e0 by [].
rewrite !om !fl => he.
have all (a : 'cV[C]_(nh + nh)) : exists r, efficiencies (sim_omega (polarized pw psi0))
    (incident_flux (polarized pw psi0) e0) stack a 0 = Ok r.
  move: he; rewrite /efficiencies; case: (smatrix stack) => [Sm|//]; cbn [bind].
  case: (stack) => [|s0 ss]; first by [].
  case: (~~ _ || _); first by []. case: (_ == 0); first by [].
  by move=> _; eexists.
have [ra hra] := all (sim_a0 i0 u); have [rb hrb] := all (sim_a0 i0 v).
exists ra, rb; split=> //.
have [X HX] := eff_polar hra hrb; exists X => psi.
rewrite (a0_polar psi hu hv); cbn [bind]; rewrite st hs; cbn [bind].
by rewrite om fl sim_a0_comb; exact: HX.
Qed.

Lemma field_run_polar k z Fa Fb :
  run_field eig (polarized pw 0%Re) rec h form layers i0 k z = Ok Fa ->
  run_field eig (polarized pw (PI / 2)%Re) rec h form layers i0 k z = Ok Fb ->
  forall psi, exists2 F, run_field eig (polarized pw psi) rec h form layers i0 k z = Ok F &
    superposed (cos psi) (sin psi) Fa Fb F.
Proof.
case: layers => [//|l0 rest]; rewrite /run_field.
case: (scalar_eps (li_eps l0)) => [e0|//]; cbn [bind].
case hu: (pw_a0 (polarized pw 0%Re)) => [u|//]; cbn [bind] => h1.
case hv: (pw_a0 (polarized pw (PI / 2)%Re)) => [v|//]; cbn [bind] => h2 psi.
rewrite (a0_polar psi hu hv); cbn [bind]; move: h1 h2.
have st x : solve_stack eig (polarized pw x) rec h form e0 (l0 :: rest) =
              solve_stack eig (polarized pw psi) rec h form e0 (l0 :: rest) by [].
rewrite !st; case: (solve_stack _ _ _ _ _ _ _) => [stack|//]; cbn [bind].
have om x : sim_omega (polarized pw x) = sim_omega (polarized pw psi) by [].
have kxe x : sim_kx (polarized pw x) rec h e0 = sim_kx (polarized pw psi) rec h e0 by [].
have kye x : sim_ky (polarized pw x) rec h e0 = sim_ky (polarized pw psi) rec h e0 by [].
by rewrite !om !kxe !kye sim_a0_comb => h1 h2; apply: fourier_polar.
Qed.
End Run.

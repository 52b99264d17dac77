(** Stress tensor (C68, C69). *)
From Coq Require Import Reals ZArith Lra Lia.
From mathcomp Require Import all_ssreflect all_algebra.
From mathcomp Require Import complex.
From Verif Require Import RStruct Cplx Base Fourier_Model Sim_Model Setup_Model Stress_Model Maxwell_Spec Optics_Spec Stress_Spec.
From Verif Require Import Energy_Spec Energy_Proofs3 Run_Proofs Aniso_Proofs Orders_Proofs Demo_Proofs Stress_Proofs Stress_Refuted.

Set Implicit Arguments.
Unset Strict Implicit.
Unset Printing Implicit Defensive.

Import Order.TTheory GRing.Theory Num.Theory.
Local Open Scope ring_scope.
Local Open Scope complex_scope.

Section Runs.
Variables (Nx Ny nh : nat).
Hypotheses (Nx0 : (0 < Nx)%N) (Ny0 : (0 < Ny)%N).
Variable eig : forall m, 'M[C]_m -> 'rV[C]_m * 'M[C]_m.
Hypothesis eig_ok : forall m (A : 'M[C]_m), A *m (eig A).2 = (eig A).2 *m diag_mx (eig A).1.
Variable pw : planewave.
Hypothesis lam : (0 < pw_lambda pw)%Re.
Variable rec : 'M[R]_2.
Variable h : 'I_nh -> order.
Variable form : formulation_t Nx Ny.
Variable i0 : 'I_nh.
Notation run_stress := (run_stress eig pw rec h form).
Notation run_field := (run_field eig pw rec h form).

(** A stack under a superstrate of positive permittivity e0 *)
Variables (l0 : layer_in Nx Ny) (rest : seq (layer_in Nx Ny)) (e0 : R).
Hypothesis e0p : (0 < e0)%Re.
Hypothesis he0 : li_eps l0 = EpsUniform Nx Ny (rc e0).

(** ** C68 *)
(** In a lossless homogeneous layer the whole stress, and in a lossless patterned
    layer with the 'original' formulation its zz component, are the same at every
    height (and are defined at every height when they are at one). *)
Theorem C68_height_partial k li z z' T : List.nth_error (l0 :: rest) k = Some li ->
  lossless (li_eps li) ->
  match li_eps li with EpsUniform _ => True | EpsGrid _ => form = Original Nx Ny | _ => False end ->
  run_stress (l0 :: rest) i0 k z = Ok T ->
  exists T', run_stress (l0 :: rest) i0 k z' = Ok T' /\ T'.2 = T.2 /\
    (forall e, li_eps li = EpsUniform Nx Ny e -> T' = T).
Proof. by move=> hk hl hi; exact: (run_stress_z Nx0 Ny0 eig_ok lam e0p he0 _ hk hi hl). Qed.

(** ** C69 *)
(** The transverse stress is minus the transverse momentum carried by the power of
    each order, in every layer and for every formulation. *)
Theorem C69_transverse k z T F :
  run_stress (l0 :: rest) i0 k z = Ok T -> run_field (l0 :: rest) i0 k z = Ok F ->
  let w := (2 * PI / pw_lambda pw)%Re in
  T.1.1 = - (\sum_i bloch_x pw rec e0 (h i) * order_flux F i) / w /\
  T.1.2 = - (\sum_i bloch_y pw rec e0 (h i) * order_flux F i) / w.
Proof.
move=> hT hF w; have [-> ->] := run_stress_lateral lam e0p he0 hT hF.
have -> : sim_omega pw = w by rewrite /w /sim_omega /pw_k0; field; lra.
split; congr (- _ / _); apply: eq_bigr => i _; congr (_ * _).
all: by rewrite !mxE /bloch_x /bloch_y /pw_kx /pw_ky /pw_k0; rfold; field; lra.
Qed.

(** With the displacement of the layer's factorization rule the three numbers are
    the components of the Maxwell stress. *)
Theorem C68_value_partial k li z T F : List.nth_error (l0 :: rest) k = Some li ->
  lossless (li_eps li) ->
  match li_eps li with EpsUniform _ => True | EpsGrid _ => form = Original Nx Ny | _ => False end ->
  run_stress (l0 :: rest) i0 k z = Ok T -> run_field (l0 :: rest) i0 k z = Ok F ->
  exists Dx Dy Dz, constitutive h form (li_eps li) (f_ex F) (f_ey F) (f_ez F) Dx Dy Dz /\
    T = z_stress F Dx Dy Dz.
Proof. by move=> hk hl hi; exact: (run_stress_value Nx0 Ny0 eig_ok lam he0 hk hi hl). Qed.

(** The stress can be computed exactly when the fields can. *)
Theorem C69_defined k z F : run_field (l0 :: rest) i0 k z = Ok F ->
  exists T, run_stress (l0 :: rest) i0 k z = Ok T.
Proof. exact: run_stress_defined. Qed.
End Runs.
Print Assumptions C68_height_partial.
Print Assumptions C68_value_partial.
Print Assumptions C69_transverse.
Print Assumptions C69_defined.

(** A patterned lossless layer between vacuum and a substrate. *)
Example C68_case : exists T, 
  run_stress demo_eig demo_pw demo_rec demo_h (Original 2 2) (demo_layers demo_grid) ord0 1 0%Re = Ok T.
Proof.
have [F hF] := demo_field (isT : (0 < 2)%N) (isT : (0 < 2)%N) 0%Re demo_mean (isT : (1 < 3)%N).
exact: run_stress_defined hF.
Qed.
Example C68_case_lossless : lossless (EpsGrid demo_grid).
Proof. by move=> x y; rewrite mxE; case: ifP => _; rewrite /conj /=; congr (_ +i* _); rewrite oppr0. Qed.

(** The lossless hypothesis alone is not enough.  A grating of permittivities 10
    and 40 with formulation='tangent' on a 1D lattice (the displacement of the
    stress still uses Laurent's rule), and a tensor material (the displacement
    uses eps_zz for all components): the stress at z = 0 and z = 1/16 differ. *)
Theorem C68_inverse_rule_refuted :
  lossless (EpsGrid grating_u) /\ exists T T',
  run_stress demo_eig demo_pw demo_rec demo_h (Tangent1D 2 1)
    (stress_layers (EpsGrid grating_u)) ord0 1 0 = Ok T /\
  run_stress demo_eig demo_pw demo_rec demo_h (Tangent1D 2 1)
    (stress_layers (EpsGrid grating_u)) ord0 1 (1 / 16) = Ok T' /\ T.2 <> T'.2.
Proof.
split; first exact: grating_lossless.
by apply: (mid_varies _ grating_layer); lra.
Qed.

Theorem C68_tensor_refuted (Nx Ny : nat) : (0 < Nx)%N -> (0 < Ny)%N ->
  lossless (EpsTensorGrid (demo_u Nx Ny 5 4)) /\ exists T T',
  run_stress demo_eig demo_pw demo_rec demo_h (Original Nx Ny)
    (stress_layers (EpsTensorGrid (demo_u Nx Ny 5 4))) ord0 1 0 = Ok T /\
  run_stress demo_eig demo_pw demo_rec demo_h (Original Nx Ny)
    (stress_layers (EpsTensorGrid (demo_u Nx Ny 5 4))) ord0 1 (1 / 16) = Ok T' /\ T.2 <> T'.2.
Proof.
move=> hx hy; split; first exact: tensor_lossless.
by apply: (mid_varies _ (tensor_layer hx hy)); lra.
Qed.
Print Assumptions C68_inverse_rule_refuted.
Print Assumptions C68_tensor_refuted.

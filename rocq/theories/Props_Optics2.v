(** Homogeneous multilayers (property C89). *)
From Coq Require Import Reals ZArith Lra Lia.
From mathcomp Require Import all_ssreflect all_algebra.
From mathcomp Require Import complex.
From Verif Require Import RStruct Cplx Base Fourier_Model Sim_Model Setup_Model Optics_Spec Multilayer_Spec.
From Verif Require Import Energy_Proofs Energy_Proofs2 Energy_Proofs3 Orders_Proofs Aniso_Proofs Demo_Proofs Demo3_Proofs Multilayer_Proofs2 Props_Symm.

Set Implicit Arguments.
Unset Strict Implicit.
Unset Printing Implicit Defensive.

Import Order.TTheory GRing.Theory Num.Theory.
Local Open Scope ring_scope.
Local Open Scope complex_scope.

(** A homogeneous layer of permittivity [ed.1] and thickness [ed.2] *)
Definition film Nx Ny (ed : C * R) : layer_in Nx Ny := LayerIn (Some ed.2) (EpsUniform Nx Ny ed.1).

(** ** C89: the efficiencies of a stack of homogeneous layers, absorbing or not, are those
    of the method of admittances: TE and TM weighted by the polarisation angle, in the
    zeroth order only; the denominators do not vanish.  Any lattice, harmonics,
    formulation, eigensolver, azimuth. *)
Theorem C89_multilayer (Nx Ny nh : nat) (eig : forall m, 'M[C]_m -> 'rV[C]_m * 'M[C]_m) (pw : planewave)
    (rec : 'M[R]_2) (h : 'I_nh -> order) (form : formulation_t Nx Ny) (i0 : 'I_nh)
    (e0 : R) (films : seq (C * R)) (eN : C) (t0 tN : option R) (r : effs nh) :
  (0 < pw_lambda pw)%Re -> (0 < cos (pw_theta pw))%Re -> h i0 = (0%Zc, 0%Zc) -> (0 < e0)%Re ->
  run_efficiencies eig pw rec h form
    (LayerIn t0 (EpsUniform Nx Ny (rc e0)) :: [seq film Nx Ny ed | ed <- films] ++ [:: LayerIn tN (EpsUniform Nx Ny eN)]) i0 = Ok r ->
  let k0 := (2 * PI / pw_lambda pw)%Re in
  let kt2 := (e0 * (k0 * k0) * (sin (pw_theta pw) * sin (pw_theta pw)))%Re in
  let te := (sin (pw_psi pw) * sin (pw_psi pw))%Re in let tm := (cos (pw_psi pw) * cos (pw_psi pw))%Re in
  (forall pol, denominator k0 kt2 pol (rc e0) films eN != 0) /\
  r.1 i0 ord0 = (te * reflectance k0 kt2 TE (rc e0) films eN + tm * reflectance k0 kt2 TM (rc e0) films eN)%Re /\
  r.2 i0 ord0 = (te * transmittance k0 kt2 TE (rc e0) films eN + tm * transmittance k0 kt2 TM (rc e0) films eN)%Re /\
  forall i, i <> i0 -> r.1 i ord0 = 0%Re /\ r.2 i ord0 = 0%Re.
Proof.
move=> lam cth hi e0p hr.
have -> : (2 * PI / pw_lambda pw)%Re = sim_omega pw by rewrite /sim_omega /pw_k0; field; lra.
exact: (run_multilayer lam cth hi e0p hr).
Qed.
Print Assumptions C89_multilayer.

(** ** A quarter-wave film of index sqrt(index of the substrate) removes the reflection
    at normal incidence. *)
Lemma quarter (k n : R) : (0 < k)%Re -> (1 <= n)%Re -> forall pol,
  reflectance k 0 pol (rc 1%Re) [:: (rc (n * n)%Re, (2 * PI / k / (4 * n))%Re)] (rc (n * n * (n * n))%Re) = 0%Re.
Proof.
move=> k0 n1.
have kzE (m : R) : (0 < m)%Re -> kz k 0 (rc (m * m)%Re) = rc (k * m)%Re.
  move=> m0; rewrite /kz.
  have -> : rc (m * m)%Re * rc (k * k)%Re - rc 0 = rc ((k * m) * (k * m))%Re.
    by apply/eqP; rewrite eq_complex /=; apply/andP; split; apply/eqP; rfold; ring.
  have p : (0 < k * m)%Re by exact: Rmult_lt_0_compat.
  have h2 : (0 <= (k * m) * (k * m) :> R) by apply/RleP; have := Rmult_lt_0_compat _ _ p p; rfold; lra.
  rewrite csqrt_rc h2.
  have -> : ((k * m) * (k * m))%Re = ((k * m)%Re : R) ^+ 2 by [].
  by rewrite sqrtr_sqr ger0_norm //; apply/RleP; exact: Rlt_le.
have kn (x : R) : (0 < x)%Re -> x <> 0%Re by lra.
have etaE pol (m : R) : (0 < m)%Re -> eta k 0 pol (rc (m * m)%Re) = rc m.
  move=> m0; have km : (0 < k * m)%Re by exact: Rmult_lt_0_compat.
  case: pol; rewrite /eta kzE //.
  - rewrite (rcD _ (kn _ k0)); congr (real_complex R_rcfType _); rfold; field; lra.
  - rewrite -rmorphM (rcD _ (kn _ km)); congr (real_complex R_rcfType _); rfold; field; lra.
move=> pol; have n0 : (0 < n)%Re by lra.
have nn0 : (0 < n * n)%Re by exact: Rmult_lt_0_compat.
have e1 : rc 1%Re = rc (1 * 1)%Re by congr (real_complex R_rcfType _); rfold; ring.
have del : kz k 0 (rc (n * n)%Re) * rc (2 * PI / k / (4 * n))%Re = rc (PI / 2)%Re.
  by rewrite kzE // -rmorphM; congr (real_complex R_rcfType _); rfold; field; lra.
have ex : cexp ('i * rc (PI / 2)%Re) = 'i.
  have -> : 'i * rc (PI / 2)%Re = (0%Re +i* (PI / 2)%Re : C).
    by apply/eqP; rewrite eq_complex /=; apply/andP; split; apply/eqP; rfold; ring.
  by rewrite /cexp exp_0 cos_PI2 sin_PI2 Rmult_0_r Rmult_1_r.
have c0 : ccos (rc (PI / 2)%Re) = 0.
  by rewrite /ccos cexpN ex i_inv addrN mul0r.
have s1 : csin (rc (PI / 2)%Re) = 1.
  have h2 : (2%:R * 'i : C) != 0 by rewrite mulf_neq0 ?pnatr_eq0 //; apply/eqP=> -[/eqP]; rewrite oner_eq0.
  rewrite /csin cexpN ex i_inv opprK.
  by have -> : ('i + 'i : C) = 2%:R * 'i; [rewrite mulr_natl mulr2n|rewrite divff].
rewrite /reflectance /reflection /assembly del c0 s1 e1 !etaE //; last lra.
have -> : (rc 1%Re * (0 * 1 - 'i * 1 / rc n * rc (n * n)%Re, - 'i * rc n * 1 * 1 + 0 * rc (n * n)%Re).1 -
     (0 * 1 - 'i * 1 / rc n * rc (n * n)%Re, - 'i * rc n * 1 * 1 + 0 * rc (n * n)%Re).2) = 0.
  have nz : rc n <> 0 by apply/eqP; exact: rcn0.
  have -> : rc (n * n)%Re = rc n * rc n.
    by apply/eqP; rewrite eq_complex /=; apply/andP; split; apply/eqP; rfold; ring.
  have -> : rc 1%Re = 1 by [].
  rewrite [LHS]/=; move: (rc n) nz => N nz; cfield; exact: nz.
by rewrite mul0r /sqmod /=; rfold; ring.
Qed.

Theorem C89_quarter_wave (Nx Ny nh : nat) (eig : forall m, 'M[C]_m -> 'rV[C]_m * 'M[C]_m) (pw : planewave)
    (rec : 'M[R]_2) (h : 'I_nh -> order) (form : formulation_t Nx Ny) (i0 : 'I_nh) (n : R) (t0 tN : option R) (r : effs nh) :
  (0 < pw_lambda pw)%Re -> pw_theta pw = 0%Re -> h i0 = (0%Zc, 0%Zc) -> (1 <= n)%Re ->
  run_efficiencies eig pw rec h form
    [:: LayerIn t0 (EpsUniform Nx Ny (rc 1%Re)); LayerIn (Some (pw_lambda pw / (4 * n))%Re) (EpsUniform Nx Ny (rc (n * n)%Re));
        LayerIn tN (EpsUniform Nx Ny (rc (n * n * (n * n))%Re))] i0 = Ok r ->
  r.1 i0 ord0 = 0%Re.
Proof.
move=> lam th0 hi n1 hr.
have c0 : (0 < cos (pw_theta pw))%Re by rewrite th0 cos_0; lra.
have [_ [-> _]] := @C89_multilayer Nx Ny nh eig pw rec h form i0 1%Re [:: (rc (n * n)%Re, (pw_lambda pw / (4 * n))%Re)] _ t0 tN r lam c0 hi Rlt_0_1 hr.
rewrite th0 sin_0 Rmult_0_l Rmult_0_r.
have k0 : (0 < 2 * PI / pw_lambda pw)%Re.
  by have := PI_RGT_0 => pi0; apply: Rmult_lt_0_compat; [lra|exact: Rinv_0_lt_compat].
have -> : (pw_lambda pw / (4 * n) = 2 * PI / (2 * PI / pw_lambda pw) / (4 * n))%Re.
  by have := PI_RGT_0 => pi0; field; lra.
by rewrite !quarter //; ring.
Qed.
Print Assumptions C89_quarter_wave.

(** Case: three orders, quarter-wave film of index 3/2 on glass of index 9/4. *)
Example C89_case : exists r : effs 3,
  run_efficiencies demo_eig (light 0 1) lattice trio (Original 6 1)
    [:: LayerIn (Some 1%Re) (EpsUniform 6 1 (rc 1%Re));
        LayerIn (Some (pw_lambda (light 0 1) / (4 * (3/2)))%Re) (EpsUniform 6 1 (rc (3/2 * (3/2))%Re));
        LayerIn (Some 1%Re) (EpsUniform 6 1 (rc (3/2 * (3/2) * (3/2 * (3/2)))%Re))] mid = Ok r /\
  r.1 mid ord0 = 0%Re.
Proof.
have lam : (0 < pw_lambda (light 0 1))%Re by rewrite /=; lra.
have hx i : (trio i).2 = 0%Zc /\ (-1 <= (trio i).1 <= 1)%Zc.
  by split=> //; rewrite /trio /=; case: i => -[|[|[|i]]].
have w0 := k0_pos lam.
have hK := @run_hK 3 (light 0 1) lattice trio lam hx (light_ok 0 1).
have [ekx eky] := @run_k 3 (light 0 1) lattice trio erefl hx (proj2 lat01) (rc (1 * 1)%Re).
have e1 : rc 1%Re = rc (1 * 1)%Re by congr (real_complex R_rcfType _); rfold; ring.
have [r hr] : exists r : effs 3, run_efficiencies demo_eig (light 0 1) lattice trio (Original 6 1)
    [:: LayerIn (Some 1%Re) (EpsUniform 6 1 (rc 1%Re));
        LayerIn (Some (pw_lambda (light 0 1) / (4 * (3/2)))%Re) (EpsUniform 6 1 (rc (3/2 * (3/2))%Re));
        LayerIn (Some 1%Re) (EpsUniform 6 1 (rc (3/2 * (3/2) * (3/2 * (3/2)))%Re))] mid = Ok r.
  rewrite /run_efficiencies [scalar_eps _]/= bindE (normal_a0 lam) // bindE e1 /solve_stack ekx eky.
  rewrite /mapr /li_thick /li_eps !(med_uniform hK) //; [|lra..].
  rewrite !bindE.
  have [[Sm hS] _] := @med3 3 (sim_omega (light 0 1)) _ w0 hK 1 (pw_lambda (light 0 1) / (4 * (3/2))) 1 1 (3/2) (3/2 * (3/2))
     (inl (rc (1 * 1)%Re)) (inl (rc (3/2 * (3/2))%Re)) (inl (rc (3/2 * (3/2) * (3/2 * (3/2)))%Re)) ltac:(lra) ltac:(lra) ltac:(lra).
  by apply: eff_ok hS => //=; rewrite ?cos_0; lra.
exists r; split=> //.
apply: (C89_quarter_wave lam _ _ _ hr) => //; last lra.
by rewrite /trio /mid inordK.
Qed.

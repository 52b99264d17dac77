(** Reciprocity: reflection of unpolarised light. *)
From Coq Require Import Reals ZArith Lra.
From mathcomp Require Import all_ssreflect all_algebra fingroup perm.
From mathcomp Require Import complex.
From Verif Require Import RStruct Cplx Cderiv Base Fourier_Model Fourier_Spec Sim_Model Sim_Spec Setup_Model.
From Verif Require Import SMat_Proofs SMat_Proofs2 SMat_Proofs3 Maxwell_Spec Modes_Proofs Maxwell_Proofs.
From Verif Require Import Fourier_Proofs Energy_Spec Energy_Proofs Energy_Proofs2 Energy_Proofs3 Run_Proofs2.
From Verif Require Import Symm_Proofs2 Symm_Proofs3 Symm_Proofs5 Symm_Proofs10.
From Verif Require Import Recip_Spec Recip_Proofs Recip_Proofs2 Recip_Proofs3 Recip_Proofs4 Recip_Proofs5.

Set Implicit Arguments.
Unset Strict Implicit.
Unset Printing Implicit Defensive.

Import Order.TTheory GRing.Theory Num.Theory.
Local Open Scope ring_scope.
Local Open Scope complex_scope.

Lemma up0 nh i : up (0 : 'cV[C]_(nh + nh)) i = 0. Proof. by rewrite /up mxE. Qed.
Lemma dn0 nh i : dn (0 : 'cV[C]_(nh + nh)) i = 0. Proof. by rewrite /dn mxE. Qed.
Lemma up_a0 nh (i0 i : 'I_nh) a : i != i0 -> up (sim_a0 i0 a) i = 0.
Proof. by move=> hi; rewrite /up /sim_a0 col_mxEu mxE (negPf hi). Qed.
Lemma dn_a0 nh (i0 i : 'I_nh) a : i != i0 -> dn (sim_a0 i0 a) i = 0.
Proof. by move=> hi; rewrite /dn /sim_a0 col_mxEd mxE (negPf hi). Qed.

Section Sol.
Variables (Nx Ny nh : nat).
Variable eig : forall m, 'M[C]_m -> 'rV[C]_m * 'M[C]_m.
Variable pw : planewave.
Hypothesis lam : (0 < pw_lambda pw)%Re.
Hypothesis cth : (0 < cos (pw_theta pw))%Re.
Variable rec : 'M[R]_2.
Variable h : 'I_nh -> order.
Variable form : formulation_t Nx Ny.
Variable i0 : 'I_nh.
Hypothesis hi0 : h i0 = (0%Zc, 0%Zc).
Variables (l0 : layer_in Nx Ny) (rest : seq (layer_in Nx Ny)) (e0 : R) (eN : C) (r : effs nh).
Hypothesis e0p : (0 < e0)%Re.
Hypothesis he0 : li_eps l0 = EpsUniform Nx Ny (rc e0).
Hypothesis heN : li_eps (last l0 rest) = EpsUniform Nx Ny eN.
Hypothesis hr : run_efficiencies eig pw rec h form (l0 :: rest) i0 = Ok r.
Notation w := (sim_omega pw).
Notation kxr := (rkx pw rec h e0).
Notation kyr := (rky pw rec h e0).
Notation kx := (map_mx (real_complex R_rcfType) kxr).
Notation ky := (map_mx (real_complex R_rcfType) kyr).

(** What one run computes, as a solution of the stack. *)
Definition run_solved a s0 ss p ps : Prop :=
  pw_a0 pw = Ok a /\
  mapr (fun li => solve_layer eig w kx ky h form (li_thick li) 1 (li_eps li)) (l0 :: rest) = Ok (s0 :: ss) /\
  (forall l, List.In l (s0 :: ss) -> q_ok l) /\ chain w s0 p ss ps /\
  p.1 = sim_a0 i0 a /\ (last p ps).2 = 0 /\
  r.1 i0 ord0 = ff w kxr kyr e0 p.2 i0 / incident_flux pw (rc e0) /\
  (forall eN', eN = rc eN' -> r.2 i0 ord0 = ff w kxr kyr eN' (last p ps).1 i0 / incident_flux pw (rc e0)).

Lemma run_solution : exists a s0 ss p ps, run_solved a s0 ss p ps.
Proof.
have w0 := w_neq0 lam.
move: hr; rewrite /run_efficiencies he0 [scalar_eps _]/= [bind _ _]/= => H; ubind H a ha; ubind H st hst.
have [ekx eky] := sim_kE pw rec h e0p; rewrite /solve_stack ekx eky in hst.
have [s0 [ss [e1 [h0 hss]]]] := mapr_cons hst; subst st.
have hN := mapr_last hst; rewrite /= heN in hN; rewrite /= he0 in h0.
have hinc i : (0 < gam2 w kxr kyr e0 i)%Re \/ (up (sim_a0 i0 a) i = 0 /\ dn (sim_a0 i0 a) i = 0).
  case: (i =P i0) => [->|/eqP ni].
  - left; rewrite i0_gam //; have k0 := k0_pos lam; do !(apply: Rmult_lt_0_compat => //).
  - by right; rewrite up_a0 // dn_a0.
rewrite efficienciesE in H; ubind H Sm hS.
have hq := smatrix_q hS.
have [ps hps] := smatrix_exists w0 (sim_a0 i0 a) 0 hS.
have [aN b0] := smatrix_sound w0 hS hps.
case: hps => sol [ea eb]; case: ps sol ea eb aN b0 => [|p ps] //= sol ea eb aN b0.
exists a, s0, ss, p, ps; split=> //; split=> //; split.
  by move=> l [<-|hl]; apply: hq; [left|right].
split=> //; split=> //; split=> //.
move: H; rewrite /eff_of; case: ifP => // _; case: eqP => // f0 [<-] /=; split.
- rewrite mxE; have [_ ->] := poynting_uniform h0 (sim_a0 i0 a) (solve_ext Sm (sim_a0 i0 a) 0).2 i0.
  rewrite no_cross0 ?addr0 ?opprK /= ?b0 //.
  by move=> j; case: (hinc j); [left|right; left].
- move=> eN' eE; rewrite eE in hN; rewrite mxE.
  have [-> _] := poynting_uniform hN (solve_ext Sm (sim_a0 i0 a) 0).1 0 i0.
  rewrite no_cross0 ?addr0 /= ?aN //.
  by move=> j; right; right; rewrite up0 dn0.
Qed.
End Sol.

(** ** Reflection *)
Section Reflection.
Variables (Nx Ny nh : nat).
Hypotheses (Nx0 : (0 < Nx)%N) (Ny0 : (0 < Ny)%N).
Variables eig1 eig2 : forall m, 'M[C]_m -> 'rV[C]_m * 'M[C]_m.
Hypothesis eig1_ok : forall m (A : 'M[C]_m), A *m (eig1 A).2 = (eig1 A).2 *m diag_mx (eig1 A).1.
Hypothesis eig2_ok : forall m (A : 'M[C]_m), A *m (eig2 A).2 = (eig2 A).2 *m diag_mx (eig2 A).1.
Variable omega : R.
Hypothesis omega_neq0 : rc omega != 0.
Variable h : 'I_nh -> order.
Variable form : formulation_t Nx Ny.
Hypothesis hform : plain_form form.
Variable tau : 'S_nh.
Hypothesis htau : forall i, h (tau i) = ((- (h i).1)%Zc, (- (h i).2)%Zc).
Variable i0 : 'I_nh.
Hypothesis ti : tau i0 = i0.
Variables kx1 ky1 kx2 ky2 : 'rV[C]_nh.
Hypothesis hkx : forall i, kx2 ord0 (tau i) = - kx1 ord0 i.
Hypothesis hky : forall i, ky2 ord0 (tau i) = - ky1 ord0 i.
Notation n2 := (nh + nh)%N.
Notation f1 := (fun li : layer_in Nx Ny => solve_layer eig1 omega kx1 ky1 h form (li_thick li) 1 (li_eps li)).
Notation f2 := (fun li : layer_in Nx Ny => solve_layer eig2 omega kx2 ky2 h form (li_thick li) 1 (li_eps li)).
Variables (l0 : layer_in Nx Ny) (rest : seq (layer_in Nx Ny)) (e0 eN : C).
Hypothesis he0 : li_eps l0 = EpsUniform Nx Ny e0.
Hypothesis heN : li_eps (last l0 rest) = EpsUniform Nx Ny eN.
Hypothesis hrec : forall l, List.In l (l0 :: rest) -> reciprocal (li_eps l).
Variables (s1 s2 : slayer nh) (ss1 ss2 : seq (slayer nh)).
Hypothesis hst1 : mapr f1 (l0 :: rest) = Ok (s1 :: ss1).
Hypothesis hst2 : mapr f2 (l0 :: rest) = Ok (s2 :: ss2).
Hypothesis hq1 : forall l, List.In l (s1 :: ss1) -> q_ok l.
Hypothesis hq2 : forall l, List.In l (s2 :: ss2) -> q_ok l.
Variables (p1 p2 : amp nh) (ps1 ps2 : seq (amp nh)).
Hypothesis hc1 : chain omega s1 p1 ss1 ps1.
Hypothesis hc2 : chain omega s2 p2 ss2 ps2.
Notation be e := (be omega kx1 ky1 tau e).

Lemma be0l e i y : be e i 0 y = 0.
Proof. by rewrite /Recip_Proofs3.be up0 dn0; cring. Qed.
Lemma be0r e i x : be e i x 0 = 0.
Proof. by rewrite /Recip_Proofs3.be up0 dn0; cring. Qed.
Lemma be_a0l e i a y : i != i0 -> be e i (sim_a0 i0 a) y = 0.
Proof. by move=> hi; rewrite /Recip_Proofs3.be (up_a0 _ hi) (dn_a0 _ hi); cring. Qed.
Lemma be_a0r e i a x : i != i0 -> be e i x (sim_a0 i0 a) = 0.
Proof.
move=> hi; have hi' : tau i != i0 by rewrite -ti (inj_eq perm_inj).
by rewrite /Recip_Proofs3.be (up_a0 _ hi') (dn_a0 _ hi'); cring.
Qed.

Let qne e i t l1 : solve_layer eig1 omega kx1 ky1 h form t 1 (EpsUniform Nx Ny e) = Ok l1 -> q_ok l1 ->
  wt omega kx1 ky1 e l1 i != 0.
Proof.
move=> hl /forallP /(_ (lshift nh i)); have [_ [-> _]] := u_data hl => hq.
by rewrite /wt mulf_neq0 ?cexp_neq0 // invr_eq0 mulf_neq0.
Qed.

Lemma recip_top a1 a2 : p1.1 = sim_a0 i0 a1 -> p2.1 = sim_a0 i0 a2 ->
  (last p1 ps1).2 = 0 -> (last p2 ps2).2 = 0 ->
  be e0 i0 (sim_a0 i0 a1) p2.2 = be e0 i0 p1.2 (sim_a0 i0 a2).
Proof.
move=> h1 h2 z1 z2.
have := recip_sum Nx0 Ny0 eig1_ok eig2_ok omega_neq0 hform htau hkx hky he0 heN hrec hst1 hst2 hq1 hq2 hc1 hc2.
rewrite h1 h2 z1 z2 [RHS]big1; last by move=> i _; rewrite be0l be0r subrr mul0r.
rewrite (bigD1 i0) //= [X in _ + X]big1 ?addr0; last first.
  by move=> i hi; rewrite be_a0l // be_a0r // subrr mul0r.
have [b1 [bs1 [[eb1 _] [t1 _]]]] := mapr_cons hst1; rewrite -eb1 he0 in t1.
have wn := qne i0 t1 (hq1 (or_introl erefl)).
by move=> /eqP; rewrite mulf_eq0 (negPf wn) orbF subr_eq0 => /eqP.
Qed.

Lemma recip_through a1 a2 : p1.1 = sim_a0 i0 a1 -> (last p1 ps1).2 = 0 ->
  p2.1 = 0 -> (last p2 ps2).2 = sim_a0 i0 a2 ->
  be e0 i0 (sim_a0 i0 a1) p2.2 * wt omega kx1 ky1 e0 s1 i0 =
  be eN i0 (last p1 ps1).1 (sim_a0 i0 a2) * wt omega kx1 ky1 eN (last s1 ss1) i0.
Proof.
move=> h1 z1 z2 h2.
have := recip_sum Nx0 Ny0 eig1_ok eig2_ok omega_neq0 hform htau hkx hky he0 heN hrec hst1 hst2 hq1 hq2 hc1 hc2.
rewrite h1 h2 z1 z2.
move=> H.
have eL : \sum_i (be e0 i (sim_a0 i0 a1) p2.2 - be e0 i p1.2 0) * wt omega kx1 ky1 e0 s1 i =
   be e0 i0 (sim_a0 i0 a1) p2.2 * wt omega kx1 ky1 e0 s1 i0.
  rewrite (bigD1 i0) //= [X in _ + X]big1 ?addr0; last by move=> i hi; rewrite be_a0l // be0r subr0 mul0r.
  by rewrite be0r subr0.
have eR : \sum_i (be eN i (last p1 ps1).1 (sim_a0 i0 a2) - be eN i 0 (last p2 ps2).1) * wt omega kx1 ky1 eN (last s1 ss1) i =
   be eN i0 (last p1 ps1).1 (sim_a0 i0 a2) * wt omega kx1 ky1 eN (last s1 ss1) i0.
  rewrite (bigD1 i0) //= [X in _ + X]big1 ?addr0; last by move=> i hi; rewrite be_a0r // be0l subr0 mul0r.
  by rewrite be0l subr0.
by rewrite -eL -eR.
Qed.
End Reflection.

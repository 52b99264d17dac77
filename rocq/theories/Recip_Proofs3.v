(** Reciprocity: the bilinear form in the outer half spaces. *)
From Coq Require Import Reals ZArith Lra.
From mathcomp Require Import all_ssreflect all_algebra fingroup perm.
From mathcomp Require Import complex.
From Verif Require Import RStruct Cplx Cderiv Base Fourier_Model Fourier_Spec Sim_Model Sim_Spec Setup_Model.
From Verif Require Import SMat_Proofs SMat_Proofs2 SMat_Proofs3 Maxwell_Spec Modes_Proofs Maxwell_Proofs.
From Verif Require Import Fourier_Proofs Energy_Spec Energy_Proofs Energy_Proofs2 Symm_Proofs2 Symm_Proofs3 Symm_Proofs5.
From Verif Require Import Recip_Spec Recip_Proofs Recip_Proofs2.

Set Implicit Arguments.
Unset Strict Implicit.
Unset Printing Implicit Defensive.

Import Order.TTheory GRing.Theory Num.Theory.
Local Open Scope ring_scope.
Local Open Scope complex_scope.

Section Uni.
Variables (Nx Ny nh : nat).
Variable eig : forall m, 'M[C]_m -> 'rV[C]_m * 'M[C]_m.
Variable omega : R.
Variables kx ky : 'rV[C]_nh.
Variable h : 'I_nh -> order.
Variable form : formulation_t Nx Ny.
Notation n2 := (nh + nh)%N.
Notation w2 := (omega2 omega).
Variables (thick : option R) (e : C) (l : slayer nh).
Hypothesis hl : solve_layer eig omega kx ky h form thick 1 (EpsUniform Nx Ny e) = Ok l.

Definition qu i : C := csqrt (e * w2 - kx ord0 i ^+ 2 - ky ord0 i ^+ 2).
Definition su (a : 'cV[C]_n2) i : C := ky ord0 i * up a i - kx ord0 i * dn a i.

Lemma u_data : sl_phi l = 1%:M /\
  (forall i, sl_q l ord0 (lshift nh i) = qu i) /\ (forall i, sl_q l ord0 (rshift nh i) = qu i) /\
  sl_Qeps l = w2%:M - build_Kmatrix (e^-1)%:M (diag_mx ky) (- diag_mx kx).
Proof.
move: hl; rewrite /solve_layer /build_matrix; case: eqP => //= _ -[<-] /=.
split=> //; split; first by move=> i; rewrite /uniform_q row_mxEl mxE mulr1.
split; first by move=> i; rewrite /uniform_q row_mxEr mxE mulr1.
by rewrite Pmu1 scale_scalar_mx mulr1.
Qed.

Lemma Qu_col (v : 'cV[C]_n2) i :
  up (sl_Qeps l *m v) i = w2 * up v i - ky ord0 i * (e^-1 * su v i) /\
  dn (sl_Qeps l *m v) i = w2 * dn v i + kx ord0 i * (e^-1 * su v i).
Proof.
have [_ [_ [_ hQ]]] := u_data.
have hv := Qeps_apply omega kx ky (e^-1)%:M (usubmx v) (dsubmx v).
rewrite vsubmxK -hQ in hv.
rewrite /up /dn hv col_mxEu col_mxEd.
have e1 : usubmx v i ord0 = up v i by rewrite mxE.
have e2 : dsubmx v i ord0 = dn v i by rewrite mxE.
rewrite !mul_diag_mx !mul_scalar_mx; clear hv; move: (usubmx v) (dsubmx v) e1 e2 => u d e1 e2.
by rewrite !mxE e1 e2 /su.
Qed.

Lemma u_H z p : mode_H l z p = (trp l z p).1 + (trp l z p).2.
Proof.
have [hphi _] := u_data; rewrite mode_HE hphi mul1mx.
by apply/colP=> i; rewrite !mxE.
Qed.

Lemma u_E z p i :
  up (mode_E omega l z p) i = up (sl_Qeps l *m ((trp l z p).1 - (trp l z p).2)) i / (rc omega * qu i) /\
  dn (mode_E omega l z p) i = dn (sl_Qeps l *m ((trp l z p).1 - (trp l z p).2)) i / (rc omega * qu i).
Proof.
have [hphi [q1 [q2 _]]] := u_data.
have -> : mode_E omega l z p = sl_Qeps l *m (sl_phi l *m
  \col_i (((trp l z p).1 - (trp l z p).2) i ord0 / (rc omega * sl_q l ord0 i))).
  rewrite mode_EE -mulmxA scale_cols_mul !scalemxAr; congr (_ *m (_ *m _)).
  by apply/colP=> j; rewrite !mxE invfM mulrCA.
rewrite hphi mul1mx; move: (_ - _) => x; set v := (\col_i _).
have [-> ->] := Qu_col v i; have [-> ->] := Qu_col x i.
have e1 : up v i = up x i / (rc omega * qu i) by rewrite /up /v mxE q1.
have e2 : dn v i = dn x i / (rc omega * qu i) by rewrite /dn /v mxE q2.
by rewrite /su e1 e2; move: (rc omega * qu i)^-1 => d; split; cring.
Qed.

Lemma u_f0 p i : up (trp l 0 p).1 i = up p.1 i /\ dn (trp l 0 p).1 i = dn p.1 i.
Proof. by rewrite /up /dn !mxE /fwd !mulr0 cexp0 !mulr1. Qed.

Lemma u_b0 p i : up (trp l 0 p).2 i = up p.2 i * cexp ('i * qu i * rc (thick0 l)) /\
  dn (trp l 0 p).2 i = dn p.2 i * cexp ('i * qu i * rc (thick0 l)).
Proof.
have [_ [q1 [q2 _]]] := u_data.
by rewrite /up /dn !mxE /bwd q1 q2 subr0.
Qed.
End Uni.

Section Two.
Variables (Nx Ny nh : nat).
Variables eig1 eig2 : forall m, 'M[C]_m -> 'rV[C]_m * 'M[C]_m.
Variable omega : R.
Variables kx1 ky1 kx2 ky2 : 'rV[C]_nh.
Variable h : 'I_nh -> order.
Variable form : formulation_t Nx Ny.
Variable tau : 'S_nh.
Hypothesis hkx : forall i, kx2 ord0 (tau i) = - kx1 ord0 i.
Hypothesis hky : forall i, ky2 ord0 (tau i) = - ky1 ord0 i.
Notation n2 := (nh + nh)%N.
Notation w2 := (omega2 omega).
Variables (thick : option R) (e : C) (l1 l2 : slayer nh).
Hypothesis hl1 : solve_layer eig1 omega kx1 ky1 h form thick 1 (EpsUniform Nx Ny e) = Ok l1.
Hypothesis hl2 : solve_layer eig2 omega kx2 ky2 h form thick 1 (EpsUniform Nx Ny e) = Ok l2.

Definition be i (x y : 'cV[C]_n2) : C :=
  w2 * (up x i * up y (tau i) + dn x i * dn y (tau i)) -
  e^-1 * ((ky1 ord0 i * up x i - kx1 ord0 i * dn x i) * (ky1 ord0 i * up y (tau i) - kx1 ord0 i * dn y (tau i))).

Let q12 i : qu omega kx2 ky2 e (tau i) = qu omega kx1 ky1 e i.
Proof. by rewrite /qu hkx hky !sqrrN. Qed.

Lemma W_uniform p1 p2 : thick0 l1 = thick0 l2 ->
  W tau omega l1 l2 p1 p2 0 = 2%:R * \sum_i
   (be i p1.1 p2.2 - be i p1.2 p2.1) * cexp ('i * qu omega kx1 ky1 e i * rc (thick0 l1)) / (rc omega * qu omega kx1 ky1 e i).
Proof.
move=> ht; rewrite /W !bfE -sumrB mulr_sumr; apply: eq_bigr => i _.
have [E1u E1d] := u_E hl1 0 p1 i; have [E2u E2d] := u_E hl2 0 p2 (tau i).
have [f1u f1d] := u_f0 l1 p1 i; have [f2u f2d] := u_f0 l2 p2 (tau i).
have [b1u b1d] := u_b0 hl1 p1 i; have [b2u b2d] := u_b0 hl2 p2 (tau i).
rewrite E1u E1d E2u E2d (u_H hl1) (u_H hl2).
have [-> ->] := Qu_col hl1 ((trp l1 0 p1).1 - (trp l1 0 p1).2) i.
have [-> ->] := Qu_col hl2 ((trp l2 0 p2).1 - (trp l2 0 p2).2) (tau i).
have uD (x y : 'cV[C]_n2) j : up (x + y) j = up x j + up y j by rewrite /up mxE.
have dD (x y : 'cV[C]_n2) j : dn (x + y) j = dn x j + dn y j by rewrite /dn mxE.
have uN (x : 'cV[C]_n2) j : up (- x) j = - up x j by rewrite /up mxE.
have dN (x : 'cV[C]_n2) j : dn (- x) j = - dn x j by rewrite /dn mxE.
rewrite /be /su !(uD, dD, uN, dN) f1u f1d f2u f2d b1u b1d b2u b2d hkx hky !q12 -ht.
move: (cexp _) (rc omega * _)^-1 (up _ _) (up _ _) (up _ _) (up _ _) (dn _ _) (dn _ _) (dn _ _) (dn _ _) (e^-1) (kx1 _ _) (ky1 _ _).
move=> c d x1 x2 x3 x4 x5 x6 x7 x8 ei k k'.
cring.
Qed.
End Two.

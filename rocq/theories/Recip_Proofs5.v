(** Reciprocity: polarisations and runs. *)
From Coq Require Import Reals ZArith Lra.
From mathcomp Require Import all_ssreflect all_algebra fingroup perm.
From mathcomp Require Import complex.
From Verif Require Import RStruct Cplx Cderiv Base Fourier_Model Fourier_Spec Sim_Model Sim_Spec Setup_Model.
From Verif Require Import SMat_Proofs SMat_Proofs2 SMat_Proofs3 Maxwell_Spec Modes_Proofs Maxwell_Proofs.
From Verif Require Import Fourier_Proofs Energy_Spec Energy_Proofs Energy_Proofs2 Energy_Proofs3 Run_Proofs2.
From Verif Require Import Symm_Proofs2 Symm_Proofs3 Symm_Proofs5 Symm_Proofs10.
From Verif Require Import Recip_Spec Recip_Proofs Recip_Proofs2 Recip_Proofs3 Recip_Proofs4.

Set Implicit Arguments.
Unset Strict Implicit.
Unset Printing Implicit Defensive.

Import Order.TTheory GRing.Theory Num.Theory.
Local Open Scope ring_scope.
Local Open Scope complex_scope.

(** ** A basis of polarisations *)
Definition pf (w ie kx ky x1 x2 y1 y2 : R) : R :=
  (w * w * (x1 * y1 + x2 * y2) - ie * ((ky * x1 - kx * x2) * (ky * y1 - kx * y2)))%Re.

Lemma pf_basis w ie kx ky a1 a2 a1' a2' c b1 b2 : c <> 0%Re ->
  pf w ie kx ky a1 a2 a1 a2 = c -> pf w ie kx ky a1' a2' a1' a2' = c -> pf w ie kx ky a1 a2 a1' a2' = 0%Re ->
  (c * pf w ie kx ky b1 b2 b1 b2 = pf w ie kx ky a1 a2 b1 b2 * pf w ie kx ky a1 a2 b1 b2 +
    pf w ie kx ky a1' a2' b1 b2 * pf w ie kx ky a1' a2' b1 b2)%Re.
Proof.
move=> c0 haa hbb hab.
set d := (a1 * a2' - a2 * a1')%Re.
set A := (w * w - ie * (ky * ky))%Re; set B := (ie * (kx * ky))%Re; set D := (w * w - ie * (kx * kx))%Re.
have E x1 x2 y1 y2 : pf w ie kx ky x1 x2 y1 y2 = (A * (x1 * y1) + B * (x1 * y2 + x2 * y1) + D * (x2 * y2))%Re.
  by rewrite /pf /A /B /D; ring.
have dn0 : d <> 0%Re.
  move=> d0; have : (c * c = d * d * (A * D - B * B))%Re.
    transitivity (pf w ie kx ky a1 a2 a1 a2 * pf w ie kx ky a1' a2' a1' a2' - pf w ie kx ky a1 a2 a1' a2' * pf w ie kx ky a1 a2 a1' a2')%Re.
      by rewrite haa hbb hab; ring.
    by rewrite !E /d; ring.
  rewrite d0 !Rmult_0_l => h; have : (c * c <> 0)%Re by apply: Rmult_integral_contrapositive; split.
  by rewrite h.
set s := (b1 * a2' - b2 * a1')%Re; set t := (a1 * b2 - a2 * b1)%Re.
have e1 : (d * b1 = s * a1 + t * a1')%Re by rewrite /d /s /t; ring.
have e2 : (d * b2 = s * a2 + t * a2')%Re by rewrite /d /s /t; ring.
have k1 : (d * pf w ie kx ky a1 a2 b1 b2 = s * c)%Re.
  transitivity (pf w ie kx ky a1 a2 (d * b1) (d * b2))%Re; first by rewrite !E; ring.
  rewrite e1 e2; transitivity (s * pf w ie kx ky a1 a2 a1 a2 + t * pf w ie kx ky a1 a2 a1' a2')%Re; first by rewrite !E; ring.
  by rewrite haa hab; ring.
have k2 : (d * pf w ie kx ky a1' a2' b1 b2 = t * c)%Re.
  transitivity (pf w ie kx ky a1' a2' (d * b1) (d * b2))%Re; first by rewrite !E; ring.
  rewrite e1 e2; transitivity (s * pf w ie kx ky a1 a2 a1' a2' + t * pf w ie kx ky a1' a2' a1' a2')%Re; first by rewrite !E; ring.
  by rewrite hbb hab; ring.
have k3 : (d * d * pf w ie kx ky b1 b2 b1 b2 = (s * s + t * t) * c)%Re.
  transitivity (pf w ie kx ky (d * b1) (d * b2) (d * b1) (d * b2))%Re; first by rewrite !E; ring.
  rewrite e1 e2; transitivity (s * s * pf w ie kx ky a1 a2 a1 a2 + 2 * (s * t) * pf w ie kx ky a1 a2 a1' a2' + t * t * pf w ie kx ky a1' a2' a1' a2')%Re; first by rewrite !E; ring.
  by rewrite haa hab hbb; ring.
apply: (Rmult_eq_reg_l (d * d)%Re); last by apply: Rmult_integral_contrapositive; split.
transitivity (c * (d * d * pf w ie kx ky b1 b2 b1 b2))%Re; first by ring.
rewrite k3.
transitivity ((s * c) * (s * c) + (t * c) * (t * c))%Re; first by ring.
by rewrite -k1 -k2; ring.
Qed.

Lemma pf_neg w ie kx ky x1 x2 y1 y2 : pf w ie (- kx) (- ky) x1 x2 y1 y2 = pf w ie kx ky x1 x2 y1 y2.
Proof. by rewrite /pf; ring. Qed.

Section Basis.
Variables (nh : nat) (w e : R) (kxr kyr : 'rV[R]_nh) (tau : 'S_nh) (i0 : 'I_nh).
Hypothesis ti : tau i0 = i0.
Hypothesis en : e <> 0%Re.
Notation kx := (map_mx (real_complex R_rcfType) kxr).
Notation ky := (map_mx (real_complex R_rcfType) kyr).
Notation n2 := (nh + nh)%N.
Notation be := (be w kx ky tau (rc e)).
Notation pff := (pf w (/ e) (kxr ord0 i0) (kyr ord0 i0)).

Lemma be_real (a : R * R) (v : 'cV[C]_n2) : be i0 (sim_a0 i0 a) v =
  (pff a.1 a.2 (complex.Re (up v i0)) (complex.Re (dn v i0)) +i* pff a.1 a.2 (complex.Im (up v i0)) (complex.Im (dn v i0)))%C.
Proof.
rewrite /Recip_Proofs3.be ti; set u := up v i0; set d := dn v i0.
have -> : up (sim_a0 i0 a) i0 = rc a.1 by rewrite /up /sim_a0 col_mxEu mxE eqxx.
have -> : dn (sim_a0 i0 a) i0 = rc a.2 by rewrite /dn /sim_a0 col_mxEd mxE eqxx.
rewrite !mxE (rcV en) /omega2; case: u => u1 u2; case: d => d1 d2 /=.
by apply/eqP; rewrite eq_complex /=; apply/andP; split; apply/eqP; rewrite /pf; rfold; ring.
Qed.

Lemma be_sym x y : be i0 x y = be i0 y x.
Proof. by rewrite /Recip_Proofs3.be ti; cring. Qed.

Lemma qr_pf (v : 'cV[C]_n2) : qr w kxr kyr e v i0 =
  (pff (complex.Re (up v i0)) (complex.Re (dn v i0)) (complex.Re (up v i0)) (complex.Re (dn v i0)) +
   pff (complex.Im (up v i0)) (complex.Im (dn v i0)) (complex.Im (up v i0)) (complex.Im (dn v i0)))%Re.
Proof.
rewrite /qr /sv; case: (up v i0) => u1 u2; case: (dn v i0) => d1 d2.
by rewrite /sqn /pf /=; rfold; ring.
Qed.

Lemma parseval (a b : R * R) c (v : 'cV[C]_n2) : c <> 0%Re ->
  pff a.1 a.2 a.1 a.2 = c -> pff b.1 b.2 b.1 b.2 = c -> pff a.1 a.2 b.1 b.2 = 0%Re ->
  (c * qr w kxr kyr e v i0 = sqn (be i0 (sim_a0 i0 a) v) + sqn (be i0 (sim_a0 i0 b) v))%Re.
Proof.
move=> c0 haa hbb hab; rewrite !be_real qr_pf Rmult_plus_distr_l !(pf_basis _ _ c0 haa hbb hab) /sqn /=.
by ring.
Qed.
End Basis.

(** ** Plane waves of the same direction *)
Section Pol.
Variables pw pw' : planewave.
Hypothesis lam : (0 < pw_lambda pw)%Re.
Hypothesis cth : (0 < cos (pw_theta pw))%Re.
Hypotheses (el : pw_lambda pw' = pw_lambda pw) (et : pw_theta pw' = pw_theta pw) (ep : pw_phi pw' = pw_phi pw).

Lemma pw_pol a b : pw_a0 pw = Ok a -> pw_a0 pw' = Ok b ->
  pf (pw_k0 pw) 1 (pw_kx pw) (pw_ky pw) a.1 a.2 b.1 b.2 =
  (pw_k0 pw * pw_k0 pw * (cos (pw_theta pw) * cos (pw_theta pw)) *
   (cos (pw_psi pw) * cos (pw_psi pw') + sin (pw_psi pw) * sin (pw_psi pw')))%Re.
Proof.
rewrite /pw_a0; case: Req_EM_T => // hd [<-]; case: Req_EM_T => // hd' [<-] /=.
have ek : pw_k0 pw' = pw_k0 pw by rewrite /pw_k0 el.
have ekx : pw_kx pw' = pw_kx pw by rewrite /pw_kx ek et ep.
have eky : pw_ky pw' = pw_ky pw by rewrite /pw_ky ek et ep.
have e11 : pw_Q11 pw' = pw_Q11 pw by rewrite /pw_Q11 ek eky.
have e12 : pw_Q12 pw' = pw_Q12 pw by rewrite /pw_Q12 ekx eky.
have e22 : pw_Q22 pw' = pw_Q22 pw by rewrite /pw_Q22 ek ekx.
have ed : pw_det pw' = pw_det pw by rewrite /pw_det e11 e12 e22.
have eq : pw_q pw' = pw_q pw by rewrite /pw_q ek ekx eky.
rewrite e11 e12 e22 ed eq ek; set c := (_ / _)%Re.
have hc : (c * c * pw_det pw = 1)%Re.
  rewrite /c (pw_qE lam cth) pw_detE; by have k0 := k0_pos lam; field; split; apply: Rgt_not_eq.
transitivity (c * c * pw_det pw * (pw_Q22 pw * (pw_cy pw * pw_cy pw') + pw_Q12 pw * (pw_cx pw * pw_cy pw' + pw_cy pw * pw_cx pw')
  + pw_Q11 pw * (pw_cx pw * pw_cx pw')))%Re.
  by rewrite /pf /pw_det /pw_Q11 /pw_Q12 /pw_Q22; ring.
rewrite hc Rmult_1_l.
have h1 := sc2 (pw_theta pw); have h2 := sc2 (pw_phi pw).
have -> : (pw_Q22 pw * (pw_cy pw * pw_cy pw') + pw_Q12 pw * (pw_cx pw * pw_cy pw' + pw_cy pw * pw_cx pw')
  + pw_Q11 pw * (pw_cx pw * pw_cx pw') = pw_k0 pw * pw_k0 pw * (pw_cx pw * pw_cx pw' + pw_cy pw * pw_cy pw')
  - (pw_kx pw * pw_cy pw - pw_ky pw * pw_cx pw) * (pw_kx pw * pw_cy pw' - pw_ky pw * pw_cx pw'))%Re.
  by rewrite /pw_Q11 /pw_Q12 /pw_Q22; ring.
have -> : (pw_kx pw * pw_cy pw - pw_ky pw * pw_cx pw = pw_k0 pw * sin (pw_theta pw) * sin (pw_psi pw))%Re.
  by rewrite /pw_kx /pw_ky /pw_cx /pw_cy; ring [h2].
have -> : (pw_kx pw * pw_cy pw' - pw_ky pw * pw_cx pw' = pw_k0 pw * sin (pw_theta pw) * sin (pw_psi pw'))%Re.
  by rewrite /pw_kx /pw_ky /pw_cx /pw_cy et ep; ring [h2].
have -> : (pw_cx pw * pw_cx pw' + pw_cy pw * pw_cy pw' = (cos (pw_psi pw) * cos (pw_psi pw')) * (cos (pw_theta pw) * cos (pw_theta pw))
   + sin (pw_psi pw) * sin (pw_psi pw'))%Re.
  by rewrite /pw_cx /pw_cy et ep; ring [h2].
by ring [h1].
Qed.
End Pol.

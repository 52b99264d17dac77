(** Two simulations related by a symmetry: the incident plane wave. *)
From Coq Require Import Reals ZArith Lra.
From mathcomp Require Import all_ssreflect all_algebra all_fingroup.
From mathcomp Require Import complex.
From Verif Require Import RStruct Cplx Base Fourier_Model Fourier_Spec Sim_Model Setup_Model.
From Verif Require Import Fourier_Proofs.

Set Implicit Arguments.
Unset Strict Implicit.
Unset Printing Implicit Defensive.

Import Order.TTheory GRing.Theory Num.Theory.
Local Open Scope ring_scope.
Local Open Scope complex_scope.

Section Wave.
Local Open Scope R_scope.
Variables o00 o01 o10 o11 : R.
Hypothesis c0 : o00 * o00 + o10 * o10 = 1.
Hypothesis c1 : o01 * o01 + o11 * o11 = 1.
Hypothesis c01 : o00 * o01 + o10 * o11 = 0.
Variables (s e sg : R).
Hypothesis s0 : 0 < s.
Hypothesis ee : e * e = 1.
Variables (pw1 pw2 : planewave).
Hypothesis hk0 : pw_k0 pw1 = s * pw_k0 pw2.
Hypothesis hkx : pw_kx pw2 = e / s * (o00 * pw_kx pw1 + o01 * pw_ky pw1).
Hypothesis hky : pw_ky pw2 = e / s * (o10 * pw_kx pw1 + o11 * pw_ky pw1).
Hypothesis hcy : - pw_cy pw2 = sg * (o00 * - pw_cy pw1 + o01 * pw_cx pw1).
Hypothesis hcx : pw_cx pw2 = sg * (o10 * - pw_cy pw1 + o11 * pw_cx pw1).

Let k1 := pw_k0 pw1. Let x1 := pw_kx pw1. Let y1 := pw_ky pw1.

Lemma k02 : pw_k0 pw2 = k1 / s.
Proof. rewrite /k1 hk0; field; exact: Rgt_not_eq. Qed.

Lemma det_eq pw : pw_det pw = pw_k0 pw * pw_k0 pw * (pw_k0 pw * pw_k0 pw - pw_kx pw * pw_kx pw - pw_ky pw * pw_ky pw).
Proof. rewrite /pw_det /pw_Q11 /pw_Q22 /pw_Q12; ring. Qed.

Lemma kk2 : pw_kx pw2 * pw_kx pw2 + pw_ky pw2 * pw_ky pw2 = (x1 * x1 + y1 * y1) / (s * s).
Proof.
rewrite hkx hky -/x1 -/y1.
have -> : e / s * (o00 * x1 + o01 * y1) * (e / s * (o00 * x1 + o01 * y1)) +
  e / s * (o10 * x1 + o11 * y1) * (e / s * (o10 * x1 + o11 * y1)) =
  (e * e) * ((o00 * o00 + o10 * o10) * (x1 * x1) + (o01 * o01 + o11 * o11) * (y1 * y1) +
   2 * (o00 * o01 + o10 * o11) * (x1 * y1)) / (s * s) by field; exact: Rgt_not_eq.
rewrite ee c0 c1 c01; field; exact: Rgt_not_eq.
Qed.

Lemma det2 : pw_det pw2 = pw_det pw1 / (s * s * s * s).
Proof.
rewrite !det_eq k02 -/k1 -/x1 -/y1.
have -> : k1 / s * (k1 / s) - pw_kx pw2 * pw_kx pw2 - pw_ky pw2 * pw_ky pw2 =
  k1 / s * (k1 / s) - (pw_kx pw2 * pw_kx pw2 + pw_ky pw2 * pw_ky pw2) by ring.
rewrite kk2; field; exact: Rgt_not_eq.
Qed.

Lemma q2 : pw_q pw2 = pw_q pw1 / s.
Proof.
rewrite /pw_q k02 -/k1 -/x1 -/y1.
have -> : k1 / s * (k1 / s) - pw_kx pw2 * pw_kx pw2 - pw_ky pw2 * pw_ky pw2 =
  k1 / s * (k1 / s) - (pw_kx pw2 * pw_kx pw2 + pw_ky pw2 * pw_ky pw2) by ring.
rewrite kk2.
have -> : k1 / s * (k1 / s) - (x1 * x1 + y1 * y1) / (s * s) = (k1 * k1 - x1 * x1 - y1 * y1) * (/ s * / s).
  by field; exact: Rgt_not_eq.
have ss : 0 < / s by exact: Rinv_0_lt_compat.
rewrite (Rmult_comm (k1 * k1 - _ - _)) sqrt_mult_alt; last by apply: Rlt_le; exact: Rmult_lt_0_compat.
by rewrite sqrt_square; [rewrite Rmult_comm | exact: Rlt_le].
Qed.

Lemma a0_related a1 : pw_a0 pw1 = Ok a1 ->
  pw_a0 pw2 = Ok (sg * (o00 * a1.1 + o01 * a1.2), sg * (o10 * a1.1 + o11 * a1.2)).
Proof.
have sn : s <> 0 by exact: Rgt_not_eq.
rewrite /pw_a0; case: Req_EM_T => // dn [<-] /=.
case: Req_EM_T => [|_] /=.
  rewrite det2 => h; case: dn.
  have -> : pw_det pw1 = pw_det pw1 / (s * s * s * s) * (s * s * s * s) by field.
  by rewrite h; ring.
rewrite det2 q2 k02 /pw_Q11 /pw_Q22 /pw_Q12 k02 hkx hky hcx hcy.
have cc : k1 / s * (pw_q pw1 / s) / (pw_det pw1 / (s * s * s * s)) = k1 * pw_q pw1 / pw_det pw1 * (s * s).
  by field; split.
rewrite cc -/k1; set c := k1 * pw_q pw1 / pw_det pw1.
rewrite -/x1 -/y1; set u := - pw_cy pw1; set v := pw_cx pw1.
(* k2 . O w = e / s (k1 . w) *)
have dotE : (o00 * x1 + o01 * y1) * (o00 * u + o01 * v) + (o10 * x1 + o11 * y1) * (o10 * u + o11 * v) =
  x1 * u + y1 * v.
  have -> : (o00 * x1 + o01 * y1) * (o00 * u + o01 * v) + (o10 * x1 + o11 * y1) * (o10 * u + o11 * v) =
    (o00 * o00 + o10 * o10) * (x1 * u) + (o01 * o01 + o11 * o11) * (y1 * v) +
    (o00 * o01 + o10 * o11) * (x1 * v + y1 * u) by ring.
  by rewrite c0 c1 c01; ring.
congr (Ok (_, _)).
  transitivity (c * sg * (k1 * k1 * (o00 * u + o01 * v) - (e * e) * (o00 * x1 + o01 * y1) *
     ((o00 * x1 + o01 * y1) * (o00 * u + o01 * v) + (o10 * x1 + o11 * y1) * (o10 * u + o11 * v)))).
    by field.
  by rewrite dotE ee; ring.
transitivity (c * sg * (k1 * k1 * (o10 * u + o11 * v) - (e * e) * (o10 * x1 + o11 * y1) *
     ((o00 * x1 + o01 * y1) * (o00 * u + o01 * v) + (o10 * x1 + o11 * y1) * (o10 * u + o11 * v)))).
  by field.
by rewrite dotE ee; ring.
Qed.
End Wave.

(** Reflection at a single interface: the Fresnel coefficients. *)
From Coq Require Import Reals ZArith Lra.
From mathcomp Require Import all_ssreflect all_algebra.
From mathcomp Require Import complex.
From Verif Require Import RStruct Cplx Base Fourier_Model Sim_Model Sim_Spec Setup_Model SMat_Proofs.
From Verif Require Import Maxwell_Spec Modes_Proofs Energy_Spec Energy_Proofs Energy_Proofs2 Energy_Proofs3 Diag_Proofs.
From Verif Require Import Orders_Model Orders_Proofs.

Set Implicit Arguments.
Unset Strict Implicit.
Unset Printing Implicit Defensive.

Import Order.TTheory GRing.Theory Num.Theory.
Local Open Scope ring_scope.
Local Open Scope complex_scope.

Section Fresnel.
Variables (Nx Ny : nat).
Variable eig : forall m, 'M[C]_m -> 'rV[C]_m * 'M[C]_m.
Variable pw : planewave.
Hypothesis lam : (0 < pw_lambda pw)%Re.
Hypothesis cth : (0 < cos (pw_theta pw))%Re.
Hypothesis phi0 : pw_phi pw = 0%Re.
Variable rec : 'M[R]_2.
Variable h : 'I_1 -> order.
Hypothesis h0 : h ord0 = (0%Zc, 0%Zc).
Variable form : formulation_t Nx Ny.
Variable e0 : R.
Hypothesis e0p : (0 < e0)%Re.
Notation w := (sim_omega pw).
Notation kxr := (rkx pw rec h e0).
Notation kyr := (rky pw rec h e0).
Notation g2 := (gam2 w kxr kyr).
Notation qo' e := (qo w kxr kyr e ord0).

Lemma ky0 i : kyr ord0 i = 0%Re.
Proof.
rewrite mxE (ord1 i) h0 /= /pw_ky phi0 sin_0; rfold; ring.
Qed.

Section L.
Variables (t : option R) (e : R) (l : slayer 1).
Hypothesis hl : solve_layer eig w (map_mx (real_complex R_rcfType) kxr)
     (map_mx (real_complex R_rcfType) kyr) h form t 1 (EpsUniform Nx Ny (rc e)) = Ok l.
Hypothesis hg : g2 e ord0 <> 0%Re.

Definition dd (i : 'I_(1 + 1)) : C := if (i : nat) == 0%N then rc (w * w)%Re else qo' e ^+ 2 / rc e.

Lemma qo_sqr : qo' e ^+ 2 = rc (g2 e ord0).
Proof. by rewrite /qo sqr_sqrtc. Qed.

Lemma ord2 (i : 'I_(1 + 1)) : i = lshift 1 ord0 \/ i = rshift 1 ord0.
Proof. by case: (split_ordP i) => j ->; rewrite (ord1 j); [left|right]. Qed.

Lemma unif_decoupled : decoupled l dd.
Proof.
have [hphi [_ [q1 [q2 hQ]]]] := l_data hl.
have e0' := e_neq0' hl.
have qn : qo' e != 0 by apply/eqP => H; case: hg; move: qo_sqr; rewrite H expr0n /= => - [<-].
have k0 := k0_pos lam.
split.
- by [].
- apply/matrixP=> i j.
  have [Qu Qd] := Q_col hl (delta_mx j ord0) ord0.
  have -> : sl_Qeps l i j = (sl_Qeps l *m (delta_mx j ord0 : 'cV[C]_(1 + 1))) i ord0.
    by rewrite -colE mxE.
  move: Qu Qd; rewrite /up /dn /sv /up /dn ky0.
  have dE : dd (rshift 1 ord0) = omega2 w - rc (kxr ord0 ord0) * ((rc e)^-1 * rc (kxr ord0 ord0)).
    rewrite /dd /= qo_sqr /gam2 ky0 (rcV e0') -!(rmorphM, rmorphB); congr (real_complex R_rcfType _).
    by rfold; field.
  move: dE; move: (kxr ord0 ord0) => x dE; rewrite ![delta_mx _ _ _ _]mxE => Qu Qd.
  case: (ord2 i) => ->; [rewrite Qu|rewrite Qd];
  case: (ord2 j) => ->; rewrite ![dg _ _ _]mxE ![(\row_i _) _ _]mxE ?dE /=
    ?(mulr1, mulr0, mul0r, mulr1n, mulr0n, subr0, sub0r, addr0, add0r, oppr0, mulrN) //.
- by apply/forallP=> i; case: (ord2 i) => ->; rewrite ?q1 ?q2.
- move=> i; case: (ord2 i) => ->; rewrite /dd /=.
  + apply/eqP=> - []; apply: Rgt_not_eq; exact: Rmult_lt_0_compat.
  + by rewrite mulf_neq0 ?expf_neq0 ?invr_eq0 //; apply/eqP=> -[].
Qed.

Lemma adm_up : adm l dd (lshift 1 ord0) = rc (w * w)%Re / qo' e.
Proof. by have [_ [_ [q1 _]]] := l_data hl; rewrite /adm q1. Qed.
Lemma adm_dn : adm l dd (rshift 1 ord0) = qo' e / rc e.
Proof.
have [_ [_ [_ [q2 _]]]] := l_data hl; rewrite /adm q2 /dd /=.
have qn : qo' e != 0 by apply/eqP => H; case: hg; move: qo_sqr; rewrite H expr0n /= => - [<-].
by rewrite expr2 mulrAC mulfK.
Qed.
End L.

Lemma solve_unif t e : e <> 0%Re -> exists l, solve_layer eig w (map_mx (real_complex R_rcfType) kxr)
     (map_mx (real_complex R_rcfType) kyr) h form t 1 (EpsUniform Nx Ny (rc e)) = Ok l.
Proof.
move=> en; rewrite /solve_layer /build_matrix.
have -> : (rc e == 0) = false by apply/eqP=> -[].
by eexists.
Qed.

Lemma g0_pos : (0 < g2 e0 ord0)%Re.
Proof. by rewrite (i0_gam _ _ h0) //; have k0 := k0_pos lam; do !(apply: Rmult_lt_0_compat => //). Qed.

(** [x] real non-zero and [y] real non-negative or imaginary *)
Lemma sum_neq0 (x y : R) (z : C) : (0 < x)%Re -> y <> 0%Re ->
  ((0 < y)%Re /\ exists r, (0 < r)%Re /\ z = rc r) \/ (exists r, r <> 0%Re /\ z = 'i * rc r) ->
  rc x * rc y + z != 0.
Proof.
move=> x0 y0 [[y1 [r [r0 ->]]]|[r [r0 ->]]]; apply/eqP; rewrite -rmorphM.
- by rewrite -rmorphD => -[]; apply: Rgt_not_eq; have := Rmult_lt_0_compat _ _ x0 y1; rfold; lra.
- move=> [_]; rfold; rewrite Rmult_0_l Rplus_0_l Rmult_1_l Rplus_0_l; exact: r0.
Qed.

Variables (t0 t1 : option R) (e1 : R).
Hypothesis e1n : e1 <> 0%Re.
Hypothesis g1n : g2 e1 ord0 <> 0%Re.

(** Fresnel reflection coefficients for the two polarisations *)
Definition r_te : C := (qo' e0 - qo' e1) / (qo' e0 + qo' e1).
Definition r_tm : C := (rc e1 * qo' e0 - rc e0 * qo' e1) / (rc e1 * qo' e0 + rc e0 * qo' e1).

Lemma den_te : qo' e0 + qo' e1 != 0.
Proof.
have := g0_pos; have hq := Nsqrt_gt0 g0_pos; rewrite (qo_pos g0_pos) => _.
have -> : rc (Num.sqrt (g2 e0 ord0)) = rc (Num.sqrt (g2 e0 ord0)) * rc 1%Re by rewrite mulr1.
apply: sum_neq0 => //.
case: (Rtotal_order (g2 e1 ord0) 0) => [hg|[//|hg]].
- right; exists (Num.sqrt (- g2 e1 ord0)); split; last exact: qo_neg.
  apply: Rgt_not_eq; apply: Nsqrt_gt0; rfold; lra.
- left; split; first lra; exists (Num.sqrt (g2 e1 ord0)); split; [exact: Nsqrt_gt0|exact: qo_pos].
Qed.

Lemma den_tm : rc e1 * qo' e0 + rc e0 * qo' e1 != 0.
Proof.
have hq := Nsqrt_gt0 g0_pos; rewrite (qo_pos g0_pos) [rc e1 * _]mulrC.
apply: sum_neq0 => //.
case: (Rtotal_order (g2 e1 ord0) 0) => [hg|[//|hg]].
- right; exists (e0 * Num.sqrt (- g2 e1 ord0))%Re; split; last by rewrite (qo_neg hg) rmorphM mulrCA.
  apply: Rgt_not_eq; apply: Rmult_lt_0_compat => //; apply: Nsqrt_gt0; rfold; lra.
- left; split.
    have w0 : (0 < w * w)%Re by have := k0_pos lam => k0; apply: Rmult_lt_0_compat.
    have : (0 < e1 * (w * w))%Re.
      move: hg; rewrite /gam2 ky0; have := Rle_0_sqr (kxr ord0 ord0); rewrite /Rsqr; lra.
    by move=> hp; apply: (Rmult_lt_reg_r (w * w)) => //; lra.
  exists (e0 * Num.sqrt (g2 e1 ord0))%Re; split; last by rewrite (qo_pos hg) rmorphM.
  by apply: Rmult_lt_0_compat => //; apply: Nsqrt_gt0.
Qed.

Lemma fresnel : exists r,
  run_efficiencies eig pw rec h form [:: LayerIn t0 (EpsUniform Nx Ny (rc e0)); LayerIn t1 (EpsUniform Nx Ny (rc e1))] ord0 = Ok r /\
  r.1 ord0 ord0 = (sin (pw_psi pw) * sin (pw_psi pw) * sqn r_te + cos (pw_psi pw) * cos (pw_psi pw) * sqn r_tm)%Re.
Proof.
have e0n : e0 <> 0%Re by lra.
have g0n : g2 e0 ord0 <> 0%Re by have := g0_pos; lra.
have [l hl] := solve_unif t0 e0n; have [l' hl'] := solve_unif t1 e1n.
have D := unif_decoupled hl g0n; have D' := unif_decoupled hl' g1n.
have q0n : qo' e0 != 0 by have [_ [_ [q1 _]]] := l_data hl; have := q_neq0 D (lshift 1 ord0); rewrite q1.
have q1n : qo' e1 != 0 by have [_ [_ [q1 _]]] := l_data hl'; have := q_neq0 D' (lshift 1 ord0); rewrite q1.
have E0 : rc e0 != 0 by apply/eqP=> -[].
have E1 : rc e1 != 0 by apply/eqP=> -[].
have ww : rc (w * w)%Re != 0.
  by apply/eqP=> -[]; have k0 := k0_pos lam; apply: Rgt_not_eq; apply: Rmult_lt_0_compat.
have hsum i : adm l (dd e0) i + adm l' (dd e1) i != 0.
  case: (ord2 i) => ->.
  - rewrite (adm_up hl) (adm_up hl').
    have -> : rc (w * w)%Re / qo' e0 + rc (w * w)%Re / qo' e1 = rc (w * w)%Re * (qo' e0 + qo' e1) / (qo' e0 * qo' e1).
      move: (rc (w * w)%Re) (qo' e0) (qo' e1) q0n q1n => a b c /eqP hb /eqP hc; cfield; by split.
    by rewrite !mulf_neq0 ?invr_eq0 ?mulf_neq0 ?den_te.
  - rewrite (adm_dn hl g0n) (adm_dn hl' g1n).
    have -> : qo' e0 / rc e0 + qo' e1 / rc e1 = (rc e1 * qo' e0 + rc e0 * qo' e1) / (rc e0 * rc e1).
      move: (rc e0) (rc e1) (qo' e0) (qo' e1) E0 E1 => a b c d /eqP ha /eqP hb; cfield; by split.
    by rewrite !mulf_neq0 ?invr_eq0 ?mulf_neq0 ?den_tm.
have [Sm [hS [_ hS21]]] := two_layers D D' hsum.
have [a ha] := pw_a0_ok lam cth.
have [ekx eky] := sim_kE pw rec h e0p.
have hst : solve_stack eig pw rec h form (rc e0) [:: LayerIn t0 (EpsUniform Nx Ny (rc e0)); LayerIn t1 (EpsUniform Nx Ny (rc e1))] = Ok [:: l; l'].
  by rewrite /solve_stack ekx eky /= hl /= hl'.
have [r hr] := eff_ok lam cth e0p (sim_a0 ord0 a) hS.
exists r; split.
  by rewrite /run_efficiencies [scalar_eps _]/= bindE ha bindE hst bindE.
have hi j : (0 < g2 e0 j)%Re \/ (up (sim_a0 ord0 a) j = 0 /\ dn (sim_a0 ord0 a) j = 0).
  by left; rewrite (ord1 j); exact: g0_pos.
have [Sm' [hS' [_ [_ [_ [hR _]]]]]] := eff_data hl (hl' : solve_layer _ _ _ _ _ _ _ _ _ = Ok (last l [:: l'])) hi hr.
have eS : Sm' = Sm by move: hS'; rewrite hS => -[].
subst Sm'; rewrite hR; have w0 := w_neq0 lam.
set b := (solve_ext Sm (sim_a0 ord0 a) 0).2.
have [ph hph] : exists ph : C, sqn ph = 1%Re /\
    (forall i, phasor (sl_q l) (thick0 l) ord0 i = ph).
  have [_ [_ [q1 [q2 _]]]] := l_data hl.
  exists (cexp ('i * rc (Num.sqrt (g2 e0 ord0)) * rc (thick0 l))); split; first exact: sqn_phase.
  by move=> i; rewrite mxE; case: (ord2 i) => ->; rewrite ?q1 ?q2 (qo_pos g0_pos).
case: hph => nph hph.
have bE i : b i ord0 = (adm l (dd e0) i - adm l' (dd e1) i) / (adm l (dd e0) i + adm l' (dd e1) i) * ph * sim_a0 ord0 a i ord0.
  by rewrite /b /= mulmx0 addr0 hS21 /dg mul_diag_mx !mxE; congr (_ * _ * _); rewrite -(hph i) mxE.
have [ea1 ea2] := pw_a0_H lam cth ha.
have eup : up b ord0 = - r_te * ph * rc a.1.
  rewrite /up bE (adm_up hl) (adm_up hl') /sim_a0 col_mxEu mxE eqxx; congr (_ * _ * _).
  rewrite /r_te; move: den_te; move: (rc (w * w)%Re) (qo' e0) (qo' e1) ww q0n q1n => x y z hx hy hz hs.
  have hs' : x * z + x * y != 0 by rewrite -mulrDr mulf_neq0 // addrC.
  by move/eqP: hx => hx; move/eqP: hy => hy; move/eqP: hz => hz; move/eqP: hs => hs; move/eqP: hs' => hs'; cfield; do !split.
have edn : dn b ord0 = r_tm * ph * rc a.2.
  rewrite /dn bE (adm_dn hl g0n) (adm_dn hl' g1n) /sim_a0 col_mxEd mxE eqxx; congr (_ * _ * _).
  rewrite /r_tm; move: den_tm; move: (rc e0) (rc e1) (qo' e0) (qo' e1) E0 E1 => x y u v hx hy hs.
  have hs' : u * y + v * x != 0 by rewrite ![_ * y]mulrC [_ * x]mulrC.
  by move/eqP: hx => hx; move/eqP: hy => hy; move/eqP: hs => hs; move/eqP: hs' => hs'; cfield; do !split.
rewrite (ff_pos w0 hl _ g0_pos) flux_E //.
move: eup edn; move: r_te r_tm => te tm eup edn.
have -> : qr w kxr kyr e0 b ord0 = (pw_k0 pw * pw_k0 pw * (cos (pw_theta pw) * cos (pw_theta pw)) *
   (sin (pw_psi pw) * sin (pw_psi pw) * sqn te + cos (pw_psi pw) * cos (pw_psi pw) * sqn tm))%Re.
  have sq (x : R) : sqn (rc x) = (x * x)%Re by rewrite /sqn /=; rfold; ring.
  rewrite /qr /sv ky0 mul0r sub0r sqnN eup edn !sqn_mul sqnN nph !sq ea1 ea2.
  rewrite mxE h0 /= /pw_kx /pw_ky /pw_kz /pw_cx /pw_cy /pw_cz phi0 sin_0 cos_0 /sim_omega.
  have hs := hs0 e0p; have hth := sc2 (pw_theta pw).
  have -> : (/ e0 = / (Num.sqrt e0 * Num.sqrt e0))%Re by rewrite [X in _ = (/ X)%Re](hs).
  have k0 := k0_pos lam; have n0 := hn0 e0p.
  move: (sqn te) (sqn tm) (pw_k0 pw) k0 (Num.sqrt e0 : R) n0 => A B k k0 n n0.
  rfold; field_simplify_eq; [|by do !split; apply: Rgt_not_eq].
  move: hth; move: (sin (pw_theta pw)) (cos (pw_theta pw)) => u c hth; simpl.
  by ring [hth].
have -> : Num.sqrt (g2 e0 ord0) = gin pw e0 by apply: sqrt_g0.
rewrite /gin; have k0 := k0_pos lam; have n0 := hn0 e0p.
have fp : (cos (pw_theta pw) / Num.sqrt e0)%Re <> 0%Re.
  by apply: Rgt_not_eq; apply: Rmult_lt_0_compat => //; exact: Rinv_0_lt_compat.
rewrite -R_invE // /sim_omega; clear fp.
move: (sqn te) (sqn tm) (pw_k0 pw) k0 (Num.sqrt e0 : R) n0 => A B k k0 n n0.
by rfold; field; do !split; apply: Rgt_not_eq.
Qed.
End Fresnel.

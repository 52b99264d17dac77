(** Two simulations related by a symmetry: layers and results. *)
From Coq Require Import Reals ZArith Lra.
From mathcomp Require Import all_ssreflect all_algebra all_fingroup.
From mathcomp Require Import complex.
From Verif Require Import RStruct Cplx Cderiv Base Fourier_Model Fourier_Spec Sim_Model Sim_Spec Setup_Model.
From Verif Require Import SMat_Proofs SMat_Proofs2 SMat_Proofs3 Maxwell_Spec Modes_Proofs Maxwell_Proofs.
From Verif Require Import Fourier_Proofs Energy_Spec Energy_Proofs Energy_Proofs2 Energy_Proofs3 Basis_Proofs.
From Verif Require Import Run_Proofs Run_Proofs2 Orders_Proofs Symm_Proofs Symm_Proofs2.

Set Implicit Arguments.
Unset Strict Implicit.
Unset Printing Implicit Defensive.

Import Order.TTheory GRing.Theory Num.Theory.
Local Open Scope ring_scope.
Local Open Scope complex_scope.

(** The square root commutes with positive real factors. *)
Lemma csqrt_pos (s : R) (z : C) : (0 < s)%Re -> csqrt ((rc s ^+ 2)^-1 * z) = csqrt z / rc s.
Proof.
move=> s0; have sp : 0 < (s : R_rcfType) by apply/RltP.
have sn : rc s != 0 by apply/eqP=> -[]; exact: Rgt_not_eq.
pose t : R_rcfType := (s ^+ 2)^-1.
have tp : 0 < t by rewrite invr_gt0 exprn_gt0.
have et : (rc s ^+ 2)^-1 = rc t by rewrite fmorphV rmorphX.
have st : Num.sqrt t = s^-1 by rewrite /t -exprVn sqrtr_sqr gtr0_norm // invr_gt0.
have rs : (rc s)^-1 = rc (s^-1) by rewrite fmorphV.
rewrite et rs /csqrt; case: z => a b.
have mulrc (x y r : R_rcfType) : rc r * (x +i* y) = (r * x) +i* (r * y).
  by rewrite /GRing.mul /= !(mul0r, subr0, addr0).
have -> : rc t * (a +i* b) = (t * a) +i* (t * b) by exact: mulrc.
rewrite [RHS]mulrC.
have hr : Num.sqrt ((t * a) ^+ 2 + (t * b) ^+ 2) = t * Num.sqrt (a ^+ 2 + b ^+ 2).
  by rewrite !exprMn -mulrDr sqrtrM ?exprn_ge0 ?ltW // sqrtr_sqr gtr0_norm.
rewrite /sqrtc hr mulrc; congr (_ +i* _).
- by rewrite -mulrDr -mulrA sqrtrM ?ltW // st.
- rewrite mulf_eq0 (gt_eqF tp) /= -mulrBr -[t * _ / _]mulrA sqrtrM ?ltW // st.
  by rewrite sgrM gtr0_sg // mul1r mulrCA.
Qed.

Section Sym.
Variable nh : nat.
Notation n2 := (nh + nh)%N.
Variable tau : 'S_nh.
Variable ph : 'I_nh -> C.
Hypothesis ph1 : forall i, ph i * conj (ph i) = 1.
Variables o00 o01 o10 o11 : R.
Hypothesis c0 : (o00 * o00 + o10 * o10 = 1)%Re.
Hypothesis c1 : (o01 * o01 + o11 * o11 = 1)%Re.
Hypothesis c01 : (o00 * o01 + o10 * o11 = 0)%Re.
(** the determinant *)
Variable d : R.
Hypotheses (d1 : (d * d = 1)%Re) (d00 : o11 = (d * o00)%Re) (d01 : (- o10 = d * o01)%Re).
(** k -> e O k / s *)
Variables (s w1 w2 e : R).
Hypothesis s0 : (0 < s)%Re.
Hypothesis ee : (e * e = 1)%Re.
Hypothesis w20 : rc w2 != 0.
Hypothesis ws : w1 = s * w2.
Variables (kx1 ky1 kx2 ky2 : 'rV[C]_nh).
Hypothesis hkx : forall i, kx2 ord0 i = rc e / rc s * (rc o00 * kx1 ord0 (tau i) + rc o01 * ky1 ord0 (tau i)).
Hypothesis hky : forall i, ky2 ord0 i = rc e / rc s * (rc o10 * kx1 ord0 (tau i) + rc o11 * ky1 ord0 (tau i)).
Notation um := (um tau ph).
Notation Um := (Um tau ph o00 o01 o10 o11).
Notation Kx1 := (diag_mx kx1).
Notation Ky1 := (diag_mx ky1).
Notation Kx2 := (diag_mx kx2).
Notation Ky2 := (diag_mx ky2).
Let sn : rc s != 0. Proof. by apply/eqP=> -[]; exact: Rgt_not_eq. Qed.
Let w10 : rc w1 != 0.
Proof. have e1 : rc w1 = rc s * rc w2 by rewrite ws rmorphM. by rewrite e1 mulf_neq0. Qed.
Let d10 : (o10 = - d * o01)%Re. Proof. move: d1 d01 => h1 h2; rfold; lra. Qed.
Let d11 : (o00 = d * o11)%Re. Proof. rewrite d00; move: d1 => h1; rewrite -[LHS]Rmult_1_l -h1; ring. Qed.
Let d12 : (o01 = - d * o10)%Re. Proof. rewrite d10; move: d1 => h1; rewrite -[LHS]Rmult_1_l -h1; ring. Qed.

Let D1 : rc d * rc d = 1. Proof. by rewrite -rmorphM; congr (rc _). Qed.
Let E1 : rc e * rc e = 1. Proof. by rewrite -rmorphM; congr (rc _). Qed.
Let r10 : rc o10 = - rc d * rc o01.
Proof. by rewrite {1}d10 -rmorphN -rmorphM. Qed.
Let r11 : rc o11 = rc d * rc o00. Proof. by rewrite {1}d00 -rmorphM. Qed.

Lemma Keps_tw (m2 m1 : 'M[C]_nh) : m2 *m um = um *m m1 ->
  build_Kmatrix m2 Ky2 (- Kx2) *m Um = (rc s ^+ 2)^-1 *: (Um *m build_Kmatrix m1 Ky1 (- Kx1)).
Proof.
move=> hm; rewrite !diagN.
apply: (@K_tw _ _ _ _ _ _ _ c0 c1 c01 _ (rc e * rc d) ky1 (- kx1) ky2 (- kx2) _ _ _ _ _ hm) => //.
- by rewrite mulrACA E1 D1 mulr1.
- by move=> i; rewrite hky !mxE r10 r11; cring.
- move=> i; rewrite mxE hkx !mxE r10 r11.
  have {1}-> : rc o00 = rc d * rc d * rc o00 by rewrite D1 mul1r.
  have {1}-> : rc o01 = rc d * rc d * rc o01 by rewrite D1 mul1r.
  cring.
Qed.

Variables Nx1 Ny1 Nx2 Ny2 : nat.
Variables (h1 h2 : 'I_nh -> order).
Variables (form1 : formulation_t Nx1 Ny1) (form2 : formulation_t Nx2 Ny2).
Variables eig1 eig2 : forall m, 'M[C]_m -> 'rV[C]_m * 'M[C]_m.
Hypothesis eig1_ok : forall m (A : 'M[C]_m), A *m (eig1 A).2 = (eig1 A).2 *m diag_mx (eig1 A).1.
Hypothesis eig2_ok : forall m (A : 'M[C]_m), A *m (eig2 A).2 = (eig2 A).2 *m diag_mx (eig2 A).1.

(** The layer matrices of two corresponding layers. *)
Definition rel_eps (eps2 : eps_t Nx2 Ny2) (eps1 : eps_t Nx1 Ny1) : Prop :=
  forall b2 b1,
  build_matrix w2 kx2 ky2 h2 form2 1 eps2 = Ok b2 -> build_matrix w1 kx1 ky1 h1 form1 1 eps1 = Ok b1 ->
  layer_epsz eps2 b2 *m um = um *m layer_epsz eps1 b1 /\
  layer_Peps eps2 b2 *m Um = Um *m layer_Peps eps1 b1.

Lemma rel_uniform (e' : C) : rel_eps (EpsUniform Nx2 Ny2 e') (EpsUniform Nx1 Ny1 e').
Proof. by move=> b2 b1 _ _ /=; rewrite !scalar_mxC. Qed.

Let omE : omega2 w1 = rc s ^+ 2 * omega2 w2.
Proof. by rewrite !omega2E; have -> : rc w1 = rc s * rc w2 by [rewrite ws rmorphM]; rewrite mulrACA. Qed.
Let s2n : rc s ^+ 2 != 0. Proof. by rewrite expf_neq0. Qed.

Lemma layer_sim t2 t1 eps2 eps1 l2 l1 : rel_eps eps2 eps1 ->
  solve_layer eig2 w2 kx2 ky2 h2 form2 t2 1 eps2 = Ok l2 ->
  solve_layer eig1 w1 kx1 ky1 h1 form1 t1 1 eps1 = Ok l1 ->
  sl_Qeps l2 *m Um = (rc s ^+ 2)^-1 *: (Um *m sl_Qeps l1) /\
  exists A2 A1 : 'M[C]_n2, A2 *m Um = (rc s ^+ 2)^-1 *: (Um *m A1) /\
   A1 *m sl_phi l1 = sl_phi l1 *m qsq l1 /\ A2 *m sl_phi l2 = sl_phi l2 *m qsq l2.
Proof.
move=> hrel hl2 hl1.
have [b2 hb2] : exists b, build_matrix w2 kx2 ky2 h2 form2 1 eps2 = Ok b.
  by move: (hl2); rewrite /solve_layer => H; ubind H b hb; exists b.
have [b1 hb1] : exists b, build_matrix w1 kx1 ky1 h1 form1 1 eps1 = Ok b.
  by move: (hl1); rewrite /solve_layer => H; ubind H b hb; exists b.
have [hz hP] := hrel _ _ hb2 hb1.
have [hm2 [_ _]] := solve_layer_modes w20 eig2_ok hb2 hl2.
have [hm1 [_ _]] := solve_layer_modes w10 eig1_ok hb1 hl1.
have [u2 hQ2] := Qeps_layer w20 eig2_ok hb2 hl2.
have [u1 hQ1] := Qeps_layer w10 eig1_ok hb1 hl1.
have hQ : sl_Qeps l2 *m Um = (rc s ^+ 2)^-1 *: (Um *m sl_Qeps l1).
  rewrite hQ2 hQ1 mulmxBl mulmxBr scalerBr; congr (_ - _).
  - by rewrite mul_scalar_mx mul_mx_scalar scalerA omE mulKf.
  - exact: (Keps_tw (tw_inv u2 u1 hz)).
split=> //; exists (Ptilde w2 kx2 ky2 eps2 b2 *m sl_Qeps l2), (Ptilde w1 kx1 ky1 eps1 b1 *m sl_Qeps l1).
split; last by split.
have hPt : Ptilde w2 kx2 ky2 eps2 b2 *m Um = Um *m Ptilde w1 kx1 ky1 eps1 b1.
  rewrite /Ptilde mulmxBl mulmxBr hP; congr (_ - _).
  rewrite -scalemxAl -scalemxAr (@K_tw _ _ _ _ _ _ _ c0 c1 c01 _ (rc e) kx1 ky1 kx2 ky2 E1 hkx hky 1%:M 1%:M) ?mul1mx ?mulmx1 //.
  by rewrite scalerA omE [in RHS]invfM [X in X *: _ = _]mulrC.
by rewrite -mulmxA hQ -scalemxAr [Ptilde w2 _ _ _ _ *m _]mulmxA hPt -mulmxA.
Qed.

Lemma kt_sim i : kx2 ord0 i ^+ 2 + ky2 ord0 i ^+ 2 =
  (rc s ^+ 2)^-1 * (kx1 ord0 (tau i) ^+ 2 + ky1 ord0 (tau i) ^+ 2).
Proof.
have C0 : rc o00 * rc o00 + rc o10 * rc o10 = 1 by rewrite -!rmorphM -rmorphD; congr (rc _).
have C1 : rc o01 * rc o01 + rc o11 * rc o11 = 1 by rewrite -!rmorphM -rmorphD; congr (rc _).
have C01 : rc o00 * rc o01 + rc o10 * rc o11 = 0 by rewrite -!rmorphM -rmorphD; congr (rc _).
rewrite hkx hky; move: (kx1 _ _) (ky1 _ _) => x y.
have -> : (rc e / rc s * (rc o00 * x + rc o01 * y)) ^+ 2 + (rc e / rc s * (rc o10 * x + rc o11 * y)) ^+ 2 =
  (rc e * rc e) * ((rc s)^-1 * (rc s)^-1) * ((rc o00 * rc o00 + rc o10 * rc o10) * x ^+ 2 +
    (rc o01 * rc o01 + rc o11 * rc o11) * y ^+ 2 + 2%:R * (rc o00 * rc o01 + rc o10 * rc o11) * x * y) by cring.
by rewrite E1 C0 C1 C01 mulr0 !mul0r addr0 !mul1r -invfM -expr2.
Qed.

Lemma uni_sim t2 t1 e' l2 l1 :
  solve_layer eig2 w2 kx2 ky2 h2 form2 t2 1 (EpsUniform Nx2 Ny2 e') = Ok l2 ->
  solve_layer eig1 w1 kx1 ky1 h1 form1 t1 1 (EpsUniform Nx1 Ny1 e') = Ok l1 ->
  [/\ sl_phi l1 = 1%:M, sl_phi l2 = 1%:M &
    forall i j, Um i j = 0 \/ sl_q l2 ord0 i = sl_q l1 ord0 j / rc s].
Proof.
rewrite /solve_layer => H2 H1; ubind H2 b2 hb2; ubind H1 b1 hb1; case: H2 => <-; case: H1 => <- /=; split=> //.
have q12 i : csqrt (e' * 1 * omega2 w2 - kx2 ord0 i ^+ 2 - ky2 ord0 i ^+ 2) =
  csqrt (e' * 1 * omega2 w1 - kx1 ord0 (tau i) ^+ 2 - ky1 ord0 (tau i) ^+ 2) / rc s.
  rewrite -csqrt_pos //; congr csqrt; rewrite -addrA -opprD kt_sim omE -[in RHS]addrA -opprD mulrBr; congr (_ - _).
  by rewrite mulrCA mulKf.
have um0 (o : R) i j : (rc o *: um) i j = 0 \/ j = tau i.
  by rewrite !mxE; case: eqP => [->|_]; [right|left; rewrite mulr0].
move=> i j; rewrite /uniform_q -(splitK i) -(splitK j) /Um.
have fin (o : R) a b : (rc o *: um) a b = 0 \/
    (\row_i0 csqrt (e' * 1 * omega2 w2 - kx2 ord0 i0 ^+ 2 - ky2 ord0 i0 ^+ 2)) ord0 a =
    (\row_i0 csqrt (e' * 1 * omega2 w1 - kx1 ord0 i0 ^+ 2 - ky1 ord0 i0 ^+ 2)) ord0 b / rc s.
  by case: (um0 o a b) => [|->]; [left|right; rewrite mxE [in RHS]mxE; exact: q12].
case: (split i) => a; case: (split j) => b; rewrite /unsplit.
- by rewrite block_mxEul !row_mxEl; exact: fin.
- by rewrite block_mxEur row_mxEl row_mxEr; exact: fin.
- by rewrite block_mxEdl row_mxEl row_mxEr; exact: fin.
- by rewrite block_mxEdr !row_mxEr; exact: fin.
Qed.
End Sym.

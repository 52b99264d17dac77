(** Permutation of the orders, phases, and an orthogonal transformation of the
    transverse components: conjugation of the layer operators. *)
From Coq Require Import Reals ZArith Lra.
From mathcomp Require Import all_ssreflect all_algebra all_fingroup.
From mathcomp Require Import complex.
From Verif Require Import RStruct Cplx Cderiv Base Fourier_Model Fourier_Spec Sim_Model Sim_Spec Setup_Model.
From Verif Require Import SMat_Proofs SMat_Proofs2 SMat_Proofs3 Maxwell_Spec Modes_Proofs Maxwell_Proofs.
From Verif Require Import Fourier_Proofs Energy_Spec Energy_Proofs Energy_Proofs2 Basis_Proofs.
From Verif Require Import Run_Proofs Run_Proofs2 Symm_Proofs.

Set Implicit Arguments.
Unset Strict Implicit.
Unset Printing Implicit Defensive.

Import Order.TTheory GRing.Theory Num.Theory.
Local Open Scope ring_scope.
Local Open Scope complex_scope.

Section Conj.
Variable nh : nat.
Notation n2 := (nh + nh)%N.
Variable tau : 'S_nh.
Variable ph : 'I_nh -> C.
Hypothesis ph1 : forall i, ph i * conj (ph i) = 1.
(** an orthogonal 2 x 2 matrix *)
Variables o00 o01 o10 o11 : R.
Hypothesis c0 : (o00 * o00 + o10 * o10 = 1)%Re.
Hypothesis c1 : (o01 * o01 + o11 * o11 = 1)%Re.
Hypothesis c01 : (o00 * o01 + o10 * o11 = 0)%Re.

Definition um : 'M[C]_nh := \matrix_(i, j) (if j == tau i then ph i else 0).
Definition Um : 'M[C]_n2 := block_mx (rc o00 *: um) (rc o01 *: um) (rc o10 *: um) (rc o11 *: um).
Definition umc : 'M[C]_nh := \matrix_(i, j) conj (um j i).

Let C0 : rc o00 * rc o00 + rc o10 * rc o10 = 1. Proof. by rewrite -!rmorphM -rmorphD; congr (rc _). Qed.
Let C1 : rc o01 * rc o01 + rc o11 * rc o11 = 1. Proof. by rewrite -!rmorphM -rmorphD; congr (rc _). Qed.
Let C01 : rc o00 * rc o01 + rc o10 * rc o11 = 0. Proof. by rewrite -!rmorphM -rmorphD; congr (rc _). Qed.

Lemma umE m (v : 'M[C]_(nh, m)) i k : (um *m v) i k = ph i * v (tau i) k.
Proof.
rewrite mxE (bigD1 (tau i)) //= mxE eqxx big1 ?addr0 // => j hj.
by rewrite mxE (negPf hj) mul0r.
Qed.

Lemma mulum m (v : 'M[C]_(m, nh)) i k : (v *m um) i (tau k) = v i k * ph k.
Proof.
rewrite mxE (bigD1 k) //= mxE eqxx big1 ?addr0 // => j hj.
by rewrite mxE (inj_eq perm_inj) eq_sym (negPf hj) mulr0.
Qed.

Lemma tw_entries (A2 A1 : 'M[C]_nh) : (forall i j, A2 i j * ph j = ph i * A1 (tau i) (tau j)) ->
  A2 *m um = um *m A1.
Proof.
by move=> H; apply/matrixP=> i j; rewrite -(permKV tau j) mulum umE.
Qed.

Lemma um_unitary : umc *m um = 1%:M.
Proof.
apply/matrixP=> i j; rewrite -(permKV tau j) -(permKV tau i) mulum.
set k := (tau^-1)%g j; set m := (tau^-1)%g i; rewrite mxE mxE (inj_eq perm_inj) mxE (inj_eq perm_inj).
by case: (m =P k) => [_|_]; [rewrite mulrC ph1|rewrite rmorph0 mul0r].
Qed.

Lemma Um_unit : Um \in unitmx.
Proof.
have : block_mx (rc o00 *: umc) (rc o10 *: umc) (rc o01 *: umc) (rc o11 *: umc) *m Um = 1%:M.
  rewrite /Um mulmx_block -!scalemxAl -!scalemxAr !scalerA um_unitary -!scalerDl C0 C1 C01.
  rewrite [rc o01 * rc o00]mulrC [rc o11 * rc o10]mulrC C01 !scale0r !scale1r.
  by rewrite -scalar_mx_block.
by case/mulmx1_unit.
Qed.

(** (U v) of a pair of columns *)
Lemma Um_col (x y : 'cV[C]_nh) : Um *m col_mx x y =
  col_mx (um *m (rc o00 *: x + rc o01 *: y)) (um *m (rc o10 *: x + rc o11 *: y)).
Proof. by rewrite /Um mul_block_col !mulmxDr -!scalemxAl -!scalemxAr. Qed.

Lemma Um_up (v : 'cV[C]_n2) i : up (Um *m v) i = ph i * (rc o00 * up v (tau i) + rc o01 * dn v (tau i)).
Proof.
rewrite -[v]vsubmxK Um_col; set x := usubmx v; set y := dsubmx v.
by rewrite /up /dn !col_mxEu !col_mxEd umE !mxE.
Qed.
Lemma Um_dn (v : 'cV[C]_n2) i : dn (Um *m v) i = ph i * (rc o10 * up v (tau i) + rc o11 * dn v (tau i)).
Proof.
rewrite -[v]vsubmxK Um_col; set x := usubmx v; set y := dsubmx v.
by rewrite /up /dn !col_mxEu !col_mxEd umE !mxE.
Qed.

Lemma pair_inv (x y : 'cV[C]_n2) i :
  conj (up (Um *m x) i) * up (Um *m y) i + conj (dn (Um *m x) i) * dn (Um *m y) i =
  conj (up x (tau i)) * up y (tau i) + conj (dn x (tau i)) * dn y (tau i).
Proof.
rewrite !Um_up !Um_dn !conjM !conjD !conjM !rc_conj.
move: (up x _) (dn x _) (up y _) (dn y _) => a b c d.
transitivity ((ph i * conj (ph i)) * ((rc o00 * rc o00 + rc o10 * rc o10) * (conj a * c)
   + (rc o01 * rc o01 + rc o11 * rc o11) * (conj b * d)
   + (rc o00 * rc o01 + rc o10 * rc o11) * (conj a * d + conj b * c))); first by cring.
by rewrite ph1 C0 C1 C01 mul0r addr0 !mul1r.
Qed.

Section Pair.
Variables (s w1 w2 : R).
Hypothesis s0 : (0 < s)%Re.
Hypothesis ws : w1 = s * w2.
Variables l1 l2 : slayer nh.
Hypotheses (f1 : sl_phi l1 = 1%:M) (f2 : sl_phi l2 = 1%:M).
Hypothesis hQ : sl_Qeps l2 *m Um = (rc s ^+ 2)^-1 *: (Um *m sl_Qeps l1).
Hypothesis hq : forall i j, Um i j = 0 \/ sl_q l2 ord0 i = sl_q l1 ord0 j / rc s.
Let sn : rc s != 0. Proof. by apply/eqP=> -[]; exact: Rgt_not_eq. Qed.

Lemma Amx_sim (v : 'cV[C]_n2) : Amx w2 l2 *m (Um *m v) = Um *m (Amx w1 l1 *m v).
Proof.
rewrite /Amx f1 f2 !mulmx1 -!mulmxA.
set d2 := diag_mx _; set d1 := diag_mx _.
have -> : d2 *m (Um *m v) = (rc s ^+ 2) *: (Um *m (d1 *m v)).
  rewrite !mulmxA; have -> : d2 *m Um = (rc s ^+ 2) *: (Um *m d1).
    move: (Um) hq => W hW; apply/matrixP=> i j; rewrite mul_diag_mx [RHS]mxE [in RHS]mul_mx_diag !mxE.
    case: (hW i j) => [->|->]; first by rewrite !(mul0r, mulr0).
    have e : rc (s * w2) = rc s * rc w2 by rewrite rmorphM.
    have -> : (rc w2 * (sl_q l1 ord0 j / rc s))^-1 = rc s ^+ 2 * (rc w1 * sl_q l1 ord0 j)^-1.
      by rewrite ws e expr2 !invfM invrK -!mulrA mulVKf //; cring.
    by rewrite -!mulrA [W i j * _]mulrC.
  by rewrite -scalemxAl.
rewrite -scalemxAr [sl_Qeps l2 *m _]mulmxA hQ -scalemxAl scalerA divff ?scale1r ?expf_neq0 //.
by rewrite !mulmxA.
Qed.

Lemma poynting_sim (a b : 'cV[C]_n2) i :
  (poynting w2 l2 (Um *m a) (Um *m b)).1 i ord0 = (poynting w1 l1 a b).1 (tau i) ord0 /\
  (poynting w2 l2 (Um *m a) (Um *m b)).2 i ord0 = (poynting w1 l1 a b).2 (tau i) ord0.
Proof.
have [-> ->] := poyntingE w2 l2 (Um *m a) (Um *m b) i.
have [-> ->] := poyntingE w1 l1 a b (tau i).
rewrite f1 f2 !mul1mx !Amx_sim.
have h1 := pair_inv (Amx w1 l1 *m a) a i.
have h2 := pair_inv b (Amx w1 l1 *m a) i.
have h3 := pair_inv (Amx w1 l1 *m b) a i.
have h4 := pair_inv (Amx w1 l1 *m b) b i.
have key1 x y z x' y' z' : (complex.Re (rc (complex.Re x) + 2%:R^-1 * (y - z)) + complex.Re (rc (complex.Re x') + 2%:R^-1 * (y' - z')))
   = complex.Re (rc (complex.Re (x + x')) + 2%:R^-1 * ((y + y') - (z + z'))) :> R.
  rewrite half_rc; case: x x' y y' z z' => ? ? [? ?] [? ?] [? ?] [? ?] [? ?] /=; rfold; ring.
have key2 x y z x' y' z' : (complex.Re (- rc (complex.Re x) + conj (2%:R^-1 * (y - z))) + complex.Re (- rc (complex.Re x') + conj (2%:R^-1 * (y' - z'))))
   = complex.Re (- rc (complex.Re (x + x')) + conj (2%:R^-1 * ((y + y') - (z + z')))) :> R.
  rewrite half_rc; case: x x' y y' z z' => ? ? [? ?] [? ?] [? ?] [? ?] [? ?] /=; rfold; ring.
by rewrite !key1 !key2 h1 h2 h3 h4.
Qed.
End Pair.

Lemma diag_tw (d2 d1 : 'rV[C]_nh) : (forall i, d2 ord0 i = d1 ord0 (tau i)) ->
  diag_mx d2 *m um = um *m diag_mx d1.
Proof.
move=> H; apply: tw_entries => i j; rewrite !mxE (inj_eq perm_inj) H.
by case: eqP => [->|_]; rewrite ?mulr1n ?mulr0n ?mul0r ?mulr0 // mulrC.
Qed.

Lemma tw_inv (A2 A1 : 'M[C]_nh) : A2 \in unitmx -> A1 \in unitmx -> A2 *m um = um *m A1 ->
  invmx A2 *m um = um *m invmx A1.
Proof.
move=> u2 u1 H; apply: (can_inj (mulKmx u2)).
by rewrite mulKVmx // mulmxA H -mulmxA mulmxV // mulmx1.
Qed.

Lemma Tw_inv (A2 A1 : 'M[C]_n2) : A2 \in unitmx -> A1 \in unitmx -> A2 *m Um = Um *m A1 ->
  invmx A2 *m Um = Um *m invmx A1.
Proof.
move=> u2 u1 H; apply: (can_inj (mulKmx u2)).
by rewrite mulKVmx // mulmxA H -mulmxA mulmxV // mulmx1.
Qed.

Lemma Tw_diag (a2 a1 : 'M[C]_nh) : a2 *m um = um *m a1 ->
  block_mx a2 0 0 a2 *m Um = Um *m block_mx a1 0 0 a1.
Proof.
by move=> H; rewrite /Um !mulmx_block !mul0mx !mulmx0 ?(addr0, add0r) -!scalemxAr -!scalemxAl H.
Qed.

Section KK.
Variables (s : R).
Hypothesis s0 : (0 < s)%Re.
Let sn : rc s != 0. Proof. by apply/eqP=> -[]; exact: Rgt_not_eq. Qed.
Variables (e : C) (kx1 ky1 kx2 ky2 : 'rV[C]_nh).
Hypothesis ee : e * e = 1.
Hypothesis hkx : forall i, kx2 ord0 i = e / rc s * (rc o00 * kx1 ord0 (tau i) + rc o01 * ky1 ord0 (tau i)).
Hypothesis hky : forall i, ky2 ord0 i = e / rc s * (rc o10 * kx1 ord0 (tau i) + rc o11 * ky1 ord0 (tau i)).
Notation D := (@diag_mx _ nh).

Lemma Dx_tw : D kx2 *m um = (e / rc s) *: (um *m (rc o00 *: D kx1 + rc o01 *: D ky1)).
Proof.
rewrite (@diag_tw kx2 ((e / rc s) *: (rc o00 *: kx1 + rc o01 *: ky1))); last by move=> i; rewrite !mxE hkx.
rewrite scalemxAr; congr (_ *m _); apply/matrixP=> i j; rewrite !mxE.
by case: (i == j); rewrite ?mulr1n ?mulr0n ?(mulr0, addr0).
Qed.
Lemma Dy_tw : D ky2 *m um = (e / rc s) *: (um *m (rc o10 *: D kx1 + rc o11 *: D ky1)).
Proof.
rewrite (@diag_tw ky2 ((e / rc s) *: (rc o10 *: kx1 + rc o11 *: ky1))); last by move=> i; rewrite !mxE hky.
rewrite scalemxAr; congr (_ *m _); apply/matrixP=> i j; rewrite !mxE.
by case: (i == j); rewrite ?mulr1n ?mulr0n ?(mulr0, addr0).
Qed.

Lemma K_tw (m2 m1 : 'M[C]_nh) : m2 *m um = um *m m1 ->
  build_Kmatrix m2 (D kx2) (D ky2) *m Um = (rc s ^+ 2)^-1 *: (Um *m build_Kmatrix m1 (D kx1) (D ky1)).
Proof.
move=> hm; rewrite !Kmatrix_factor.
have hr : row_mx (D kx2) (D ky2) *m Um = (e / rc s) *: (um *m row_mx (D kx1) (D ky1)).
  rewrite /Um mul_row_block -!scalemxAr Dx_tw Dy_tw mul_mx_row scale_row_mx.
  rewrite !scalerA ![_ * (e / rc s)]mulrC -!scalerA -!scalerDr.
  congr row_mx; congr (_ *: _); congr (_ *: _); rewrite !scalemxAr -mulmxDr; congr (_ *m _); rewrite !scalerDr !scalerA addrACA -!scalerDl.
  - by rewrite C0 C01 scale1r scale0r addr0.
  - by rewrite [rc o01 * rc o00]mulrC [rc o11 * rc o10]mulrC C1 C01 scale1r scale0r add0r.
have hc : col_mx (D kx2) (D ky2) *m um = (e / rc s) *: (Um *m col_mx (D kx1) (D ky1)).
  rewrite /Um mul_col_mx mul_block_col Dx_tw Dy_tw scale_col_mx.
  by congr col_mx; congr (_ *: _); rewrite mulmxDr -!scalemxAr -!scalemxAl.
rewrite -!mulmxA hr -!scalemxAr [m2 *m _]mulmxA hm -mulmxA [col_mx _ _ *m _]mulmxA hc -scalemxAl scalerA.
rewrite !mulmxA; congr (_ *: _).
by rewrite expr2 invfM mulrACA ee mul1r.
Qed.
End KK.
End Conj.

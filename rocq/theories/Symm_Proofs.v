(** Two stacks whose layer operators are conjugate: their solutions correspond. *)
From Coq Require Import Reals ZArith Lra.
From mathcomp Require Import all_ssreflect all_algebra.
From mathcomp Require Import complex.
From Verif Require Import RStruct Cplx Cderiv Base Fourier_Model Fourier_Spec Sim_Model Sim_Spec Setup_Model.
From Verif Require Import SMat_Proofs SMat_Proofs2 SMat_Proofs3 Maxwell_Spec Modes_Proofs Maxwell_Proofs.
From Verif Require Import Fourier_Proofs Energy_Spec Energy_Proofs Energy_Proofs2 Basis_Proofs.
From Verif Require Import Run_Proofs Run_Proofs2.

Set Implicit Arguments.
Unset Strict Implicit.
Unset Printing Implicit Defensive.

Import Order.TTheory GRing.Theory Num.Theory.
Local Open Scope ring_scope.
Local Open Scope complex_scope.

Section Abstract.
Variable nh : nat.
Notation n2 := (nh + nh)%N.
Notation slayer := (slayer nh).
Notation amp := (amp nh).
(** lengths in the second problem are s times those of the first *)
Variables (s w1 w2 : R).
Hypothesis s0 : (0 < s)%Re.
Hypothesis w20 : rc w2 != 0.
Hypothesis ws : w1 = s * w2.
Variable U : 'M[C]_n2.
Hypothesis Uu : U \in unitmx.
Implicit Types (l : slayer) (p : amp).

Let sn : rc s != 0. Proof. by apply/eqP=> -[]; exact: Rgt_not_eq. Qed.
Let w10 : rc w1 != 0.
Proof. by rewrite ws rmorphM mulf_neq0. Qed.

Definition tr l : slayer :=
  SLayer (omap (Rmult s) (sl_thick l)) (\row_i (sl_q l ord0 i / rc s)) (U *m sl_phi l)
         ((rc s ^+ 2)^-1 *: (U *m sl_Qeps l *m invmx U)) (sl_eps l).

Lemma tr_thick l : thick0 (tr l) = s * thick0 l.
Proof. by rewrite /thick0 /=; case: (sl_thick l) => //=; rewrite mulr0. Qed.

Lemma tr_fwd l z p m : fwd (tr l) (s * z) p m = fwd l z p m.
Proof.
rewrite /fwd /= mxE; congr (_ * cexp _); rewrite rmorphM -!mulrA; congr (_ * (_ * _)).
by rewrite mulrA mulVf // mul1r.
Qed.

Lemma tr_bwd l z p m : bwd (tr l) (s * z) p m = bwd l z p m.
Proof.
rewrite /bwd tr_thick /= mxE; congr (_ * cexp _).
by rewrite -mulrBr rmorphM -!mulrA; congr (_ * (_ * _)); rewrite mulrA mulVf // mul1r.
Qed.

Lemma tr_H l z p : mode_H (tr l) (s * z) p = U *m mode_H l z p.
Proof.
rewrite !mode_HE mulmxA; congr (_ *m (_ + _)); apply/colP=> i; rewrite !mxE; [exact: tr_fwd|exact: tr_bwd].
Qed.

Lemma tr_E l z p : mode_E w2 (tr l) (s * z) p = U *m mode_E w1 l z p.
Proof.
rewrite !mode_EE -scalemxAr.
have -> : \col_m fwd (tr l) (s * z) p m = \col_m fwd l z p m by apply/colP=> i; rewrite !mxE; exact: tr_fwd.
have -> : \col_m bwd (tr l) (s * z) p m = \col_m bwd l z p m by apply/colP=> i; rewrite !mxE; exact: tr_bwd.
have -> : scale_cols (sl_phi (tr l)) (qinv (tr l)) = rc s *: (U *m scale_cols (sl_phi l) (qinv l)).
  apply/matrixP=> i j; rewrite !mxE mulr_suml mulr_sumr; apply: eq_bigr => k _; rewrite !mxE.
  by rewrite invfM invrK; cring.
have e : rc (s * w2) = rc s * rc w2 by rewrite rmorphM.
rewrite /= -scalemxAr -!scalemxAl scalerA -!mulmxA mulKmx // scalerA ws e.
by congr (_ *: _); rewrite expr2 !invfM [rc s * _]mulrA divff // mul1r mulrC.
Qed.

(** fields of l2 are the images of fields of l1 *)
Definition gcov l2 l1 p2 p1 : Prop := forall z,
  mode_H l2 (s * z) p2 = U *m mode_H l1 z p1 /\ mode_E w2 l2 (s * z) p2 = U *m mode_E w1 l1 z p1.

Lemma sim_gcov l1 l2 (A1 A2 : 'M[C]_n2) :
  thick0 l2 = s * thick0 l1 ->
  sl_Qeps l2 *m U = (rc s ^+ 2)^-1 *: (U *m sl_Qeps l1) ->
  A2 *m U = (rc s ^+ 2)^-1 *: (U *m A1) ->
  A1 *m sl_phi l1 = sl_phi l1 *m qsq l1 -> A2 *m sl_phi l2 = sl_phi l2 *m qsq l2 ->
  sl_phi l2 \in unitmx ->
  forall p1, exists p2, gcov l2 l1 p2 p1.
Proof.
move=> ht hQ hA h1 h2 hphi p1.
have [_ /(_ p1) [p2 hp]] : covers w2 l2 (tr l1).
  apply: (@change_covers _ w2 l2 (tr l1) A2) => //.
  - by rewrite tr_thick.
  - by rewrite /= scalemxAl -hQ mulmxK.
  - rewrite /= mulmxA hA -scalemxAl -mulmxA h1 mulmxA scalemxAr; congr (_ *m _).
    by rewrite /qsq; apply/matrixP=> i j; rewrite !mxE exprMn exprVn; case: (i == j); rewrite ?mulr1n ?mulr0n ?mulr0 // mulrC.
by exists p2 => z; rewrite -tr_H -tr_E; exact: hp.
Qed.

Definition lift_amp p : amp := (U *m p.1, U *m p.2).

Lemma gcov_chain l1 l2 ls1 ls2 p1 p2 ps1 :
  size ls2 = size ls1 ->
  (forall k, (k < size ls1)%N -> thick0 (nth l2 ls2 k) = s * thick0 (nth l1 ls1 k) /\
      forall q1, exists q2, gcov (nth l2 ls2 k) (nth l1 ls1 k) q2 q1) ->
  gcov l2 l1 p2 p1 -> thick0 l2 = s * thick0 l1 ->
  (ls1 <> [::] -> forall q, gcov (last l2 ls2) (last l1 ls1) (lift_amp q) q) ->
  chain w1 l1 p1 ls1 ps1 ->
  exists ps2, chain w2 l2 p2 ls2 ps2 /\ size ps2 = size ps1 /\ (ls1 <> [::] -> last p2 ps2 = lift_amp (last p1 ps1)) /\
   forall k, (k < size ls1)%N -> gcov (nth l2 ls2 k) (nth l1 ls1 k) (nth p2 ps2 k) (nth p1 ps1 k).
Proof.
elim: ls1 l1 l2 ls2 p1 p2 ps1 => [|k1 ls1 IH] l1 l2 [|k2 ls2] p1 p2 [|r1 ps1] //= hs hc hf ht hl.
  by move=> _; exists [::].
move=> [[mH mE] ch].
have sz : size ls2 = size ls1 by case: hs.
have [tk ck] := hc 0%N isT; rewrite /= in tk ck.
have hc' j : (j < size ls1)%N -> thick0 (nth k2 ls2 j) = s * thick0 (nth k1 ls1 j) /\
      forall q1, exists q2, gcov (nth k2 ls2 j) (nth k1 ls1 j) q2 q1.
  move=> hj; have := hc j.+1 hj; rewrite /= (set_nth_default k2) ?sz // [nth l1 ls1 j](set_nth_default k1) //.
have [r2 [fr lr]] : exists r2, gcov k2 k1 r2 r1 /\ (ls1 = [::] -> r2 = lift_amp r1).
  case E : ls1 => [|x y]; last by have [r2 hr] := ck r1; exists r2.
  exists (lift_amp r1); split=> //.
  have := hl _ r1; move: sz; rewrite E; case: (ls2) => //= _; exact.
have hl' : ls1 <> [::] -> forall q, gcov (last k2 ls2) (last k1 ls1) (lift_amp q) q by move=> _; apply: hl.
have [ps2 [cps [sps [lps fps]]]] := IH _ _ ls2 r1 r2 ps1 sz hc' fr tk hl' ch.
have sch : size ps1 = size ls1.
  by move: ch; clear; elim: ls1 k1 r1 ps1 => [|a t IH] k' r' [|b u] //= [_ /IH ->].
exists (r2 :: ps2); split; last first.
  rewrite /= sps; split=> //; split.
    move=> _; case E : ls1 lr lps sch => [|x y] lr lps sch; last by apply: lps.
    by move: sps sch; case: (ps1) => //; case: (ps2) => //= _ _; apply: lr.
  move=> -[|j] hj /=; first exact: fr.
  have := fps j hj.
  rewrite (set_nth_default l2) ?sz // [nth k1 ls1 j](set_nth_default l1) //.
  by rewrite [nth r2 ps2 j](set_nth_default p2) ?sps ?sch // [nth r1 ps1 j](set_nth_default p1) ?sch.
split=> //; split.
- rewrite ht; have [-> _] := hf (thick0 l1); rewrite mH; have := fr 0%Re; by rewrite Rmult_0_r => -[<- _].
- rewrite ht; have [_ ->] := hf (thick0 l1); rewrite mE; have := fr 0%Re; by rewrite Rmult_0_r => -[_ <-].
Qed.

Lemma gcov_solves l1 l2 ls1 ls2 a0 bN ps1 : ls1 <> [::] ->
  size ls2 = size ls1 ->
  (forall k, (k < size ls1)%N -> thick0 (nth l2 ls2 k) = s * thick0 (nth l1 ls1 k) /\
      forall q1, exists q2, gcov (nth l2 ls2 k) (nth l1 ls1 k) q2 q1) ->
  thick0 l2 = s * thick0 l1 ->
  (forall q, gcov l2 l1 (lift_amp q) q) ->
  (forall q, gcov (last l2 ls2) (last l1 ls1) (lift_amp q) q) ->
  solves w1 (l1 :: ls1) a0 bN ps1 ->
  exists ps2, solves w2 (l2 :: ls2) (U *m a0) (U *m bN) ps2 /\
   head (0, 0) ps2 = lift_amp (head (0, 0) ps1) /\ last (0, 0) ps2 = lift_amp (last (0, 0) ps1) /\
   forall k, (k <= size ls1)%N -> gcov (nth l2 (l2 :: ls2) k) (nth l1 (l1 :: ls1) k) (nth (0, 0) ps2 k) (nth (0, 0) ps1 k).
Proof.
move=> hn hs hc ht h0 hN [sol [ha hb]]; case: ps1 sol ha hb => [|p1 ps1] //= sol ha hb.
have [ps2 [cps [sps [lps fps]]]] := gcov_chain hs hc (h0 p1) ht (fun _ => hN) sol.
have sch : size ps1 = size ls1.
  by move: sol; clear; elim: ls1 l1 p1 ps1 => [|a t IH] k' r' [|b u] //= [_ /IH ->].
exists (lift_amp p1 :: ps2); rewrite /solves /= (lps hn); split; first by rewrite /= ha hb.
split=> //; split=> // -[|k] hk /=; first exact: h0.
have := fps k hk.
by rewrite (set_nth_default (0, 0)) ?sps ?sch // [nth p1 ps1 k](set_nth_default (0, 0)) ?sch.
Qed.

Lemma gcov_smatrix l1 l2 ls1 ls2 S1 S2 (a b : 'cV[C]_n2) : ls1 <> [::] ->
  size ls2 = size ls1 ->
  (forall k, (k < size ls1)%N -> thick0 (nth l2 ls2 k) = s * thick0 (nth l1 ls1 k) /\
      forall q1, exists q2, gcov (nth l2 ls2 k) (nth l1 ls1 k) q2 q1) ->
  thick0 l2 = s * thick0 l1 ->
  (forall q, gcov l2 l1 (lift_amp q) q) ->
  (forall q, gcov (last l2 ls2) (last l1 ls1) (lift_amp q) q) ->
  smatrix (l1 :: ls1) = Ok S1 -> smatrix (l2 :: ls2) = Ok S2 ->
  solve_ext S2 (U *m a) (U *m b) = lift_amp (solve_ext S1 a b).
Proof.
move=> hn hs hc ht h0 hN hS1 hS2.
have [ps1 hps1] := smatrix_exists w10 a b hS1.
have [ps2 [hps2 [eh [el _]]]] := gcov_solves hn hs hc ht h0 hN hps1.
have [a1 b1] := smatrix_sound w10 hS1 hps1.
have [a2 b2] := smatrix_sound w20 hS2 hps2.
by rewrite /solve_ext /lift_amp /= -a1 -b1 -a2 -b2 eh el.
Qed.

(** explicit image of the modes of a layer with phi = 1 *)
Lemma uni_gcov l1 l2 : sl_phi l1 = 1%:M -> sl_phi l2 = 1%:M ->
  thick0 l2 = s * thick0 l1 ->
  sl_Qeps l2 *m U = (rc s ^+ 2)^-1 *: (U *m sl_Qeps l1) ->
  (forall i j, U i j = 0 \/ sl_q l2 ord0 i = sl_q l1 ord0 j / rc s) ->
  forall q, gcov l2 l1 (lift_amp q) q.
Proof.
move=> f1 f2 ht hQ hq q z.
have ef i : fwd l2 (s * z) (lift_amp q) i = \sum_j U i j * fwd l1 z q j.
  rewrite /fwd mxE mulr_suml; apply: eq_bigr => j _; case: (hq i j) => [->|->]; first by rewrite !mul0r.
  rewrite -[X in X = _]mulrA; congr (_ * (_ * cexp _)); rewrite rmorphM -!mulrA; congr (_ * (_ * _)).
  by rewrite mulrA mulVf // mul1r.
have eb i : bwd l2 (s * z) (lift_amp q) i = \sum_j U i j * bwd l1 z q j.
  rewrite /bwd mxE mulr_suml; apply: eq_bigr => j _; case: (hq i j) => [->|->]; first by rewrite !mul0r.
  rewrite -[X in X = _]mulrA; congr (_ * (_ * cexp _)); rewrite ht -mulrBr rmorphM -!mulrA; congr (_ * (_ * _)).
  by rewrite mulrA mulVf // mul1r.
split.
- rewrite !mode_HE f1 f2 !mul1mx; apply/colP=> i; rewrite !mxE ef eb -big_split /=; apply: eq_bigr => j _.
  by rewrite !mxE mulrDr.
- rewrite !mode_EE f1 f2 -!mulmxA !scale_cols_mul !mul1mx -scalemxAr.
  have -> : vmul (qinv l2) (\col_m fwd l2 (s * z) (lift_amp q) m - \col_m bwd l2 (s * z) (lift_amp q) m)
     = rc s *: (U *m vmul (qinv l1) (\col_m fwd l1 z q m - \col_m bwd l1 z q m)).
    apply/colP=> i; rewrite !mxE ef eb -sumrB mulr_suml mulr_sumr; apply: eq_bigr => j _.
    rewrite !mxE -mulrBr; case: (hq i j) => [->|->]; first by rewrite !(mul0r, mulr0).
    by rewrite invfM invrK; cring.
  have e : rc (s * w2) = rc s * rc w2 by rewrite rmorphM.
  rewrite -scalemxAr mulmxA hQ -scalemxAl !scalerA -mulmxA ws e.
  by congr (_ *: _); rewrite expr2 !invfM [rc s * _]mulrA divff // mul1r mulrC.
Qed.
End Abstract.

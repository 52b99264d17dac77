(** One interface between two layers whose modes are decoupled: the S-matrix in
    closed form. Used for the Fresnel coefficients and for concrete examples. *)
From Coq Require Import Reals ZArith Lra.
From mathcomp Require Import all_ssreflect all_algebra.
From mathcomp Require Import complex.
From Verif Require Import RStruct Cplx Base Fourier_Model Sim_Model Sim_Spec Setup_Model SMat_Proofs.

Set Implicit Arguments.
Unset Strict Implicit.
Unset Printing Implicit Defensive.

Import Order.TTheory GRing.Theory Num.Theory.
Local Open Scope ring_scope.
Local Open Scope complex_scope.

Section Diag.
Variable nh : nat.
Notation n2 := (nh + nh)%N.
Implicit Types (a b d : 'I_n2 -> C) (l : slayer nh).

Definition dg a : 'M[C]_n2 := diag_mx (\row_i a i).

Lemma dg_eq a b : (forall i, a i = b i) -> dg a = dg b.
Proof. by move=> H; congr diag_mx; apply/rowP=> i; rewrite !mxE. Qed.
Lemma dgM a b : dg a *m dg b = dg (fun i => a i * b i).
Proof. by rewrite mulmx_diag; congr diag_mx; apply/rowP=> i; rewrite !mxE. Qed.
Lemma dgD a b : dg a + dg b = dg (fun i => a i + b i).
Proof. by rewrite -linearD; congr diag_mx; apply/rowP=> i; rewrite !mxE. Qed.
Lemma dgN a : - dg a = dg (fun i => - a i).
Proof. by rewrite -linearN; congr diag_mx; apply/rowP=> i; rewrite !mxE. Qed.
Lemma dgB a b : dg a - dg b = dg (fun i => a i - b i).
Proof. by rewrite dgN dgD. Qed.
Lemma dg1 : 1%:M = dg (fun _ => 1).
Proof. by rewrite -diag_const_mx; congr diag_mx; apply/rowP=> i; rewrite !mxE. Qed.
Lemma dg0 : 0 = dg (fun _ => 0).
Proof. by apply/matrixP=> i j; rewrite !mxE mul0rn. Qed.

Lemma dg_unit a : (forall i, a i != 0) -> dg a \in unitmx.
Proof.
move=> H; have [] // := @mulmx1_unit _ _ (dg a) (dg (fun i => (a i)^-1)).
by rewrite dgM dg1; apply: dg_eq => i; rewrite divff.
Qed.

Lemma solve_dg a m (B X : 'M[C]_(n2, m)) : (forall i, a i != 0) -> dg a *m X = B -> solve (dg a) B = Ok X.
Proof. by move=> H <-; rewrite solve_unit ?dg_unit // mulKmx ?dg_unit. Qed.

Record decoupled l d : Prop := Decoupled {
  dc_phi : sl_phi l = 1%:M; dc_Q : sl_Qeps l = dg d; dc_q : q_ok l; dc_d : forall i, d i != 0 }.

Definition adm l d (i : 'I_n2) : C := d i / sl_q l ord0 i.

Lemma q_neq0 l d : decoupled l d -> forall i, sl_q l ord0 i != 0.
Proof. by case=> _ _ /forallP. Qed.
Lemma adm_neq0 l d : decoupled l d -> forall i, adm l d i != 0.
Proof. by move=> H i; rewrite mulf_neq0 ?invr_eq0 ?(q_neq0 H) //; case: H. Qed.

Lemma M_dg l d : decoupled l d -> build_Mmatrix l = block_mx (dg (adm l d)) (- dg (adm l d)) 1%:M 1%:M.
Proof.
case=> hphi hQ hq _; rewrite /build_Mmatrix hphi hQ.
have -> : scale_cols 1%:M (qinv l) = dg (fun i => (sl_q l ord0 i)^-1).
  apply/matrixP=> i j; rewrite !mxE; case: (eqVneq i j) => [->|ij]; first by rewrite mul1r mulr1n.
  by rewrite mul0r mulr0n.
by rewrite dgM.
Qed.

Notation half := (2%:R^-1 : C).
Lemma h2 : (2%:R : C) != 0. Proof. by rewrite pnatr_eq0. Qed.

Lemma M_solve a b : (forall i, a i != 0) ->
  solve (block_mx (dg a) (- dg a) 1%:M 1%:M) (block_mx (dg b) (- dg b) 1%:M 1%:M) =
  Ok (block_mx (dg (fun i => half * (1 + b i / a i))) (dg (fun i => half * (1 - b i / a i)))
               (dg (fun i => half * (1 - b i / a i))) (dg (fun i => half * (1 + b i / a i)))).
Proof.
move=> H; set A := block_mx _ _ _ _.
have Au : A \in unitmx.
  have [] // := @mulmx1_unit _ _ A
     (block_mx (dg (fun i => half / a i)) (dg (fun _ => half)) (dg (fun i => - (half / a i))) (dg (fun _ => half))).
  rewrite /A mulmx_block !mul1mx !mulNmx !dgM !dgB !dgD.
  rewrite [RHS]scalar_mx_block dg1 dg0.
  have hh := h2.
  have e1 : half + half = 1 by rewrite [RHS]splitr div1r.
  congr (block_mx _ _ _ _); apply: dg_eq => i; rewrite ?subrr //.
  rewrite mulrN opprK mulrCA divff // mulr1 //.
rewrite solve_unit //; congr Ok; apply: (can_inj (mulKmx Au)); rewrite mulmxA mulmxV // mul1mx.
rewrite /A mulmx_block !mul1mx !mulNmx !dgM !dgB !dgD dgN dg1.
have hh := h2.
have e1 : half + half = 1 by rewrite [RHS]splitr div1r.
have e2 x y : half * (x + y) + half * (x - y) = x by rewrite -mulrDr addrACA subrr addr0 mulrDr -mulrDl e1 mul1r.
have e3 x y : half * (x - y) + half * (x + y) = x by rewrite addrC e2.
have e4 i c : a i * (half * (1 + c / a i)) = half * (a i + c) by rewrite mulrCA mulrDr mulr1 mulrCA divff ?mulr1.
have e5 i c : a i * (half * (1 - c / a i)) = half * (a i - c) by rewrite mulrCA mulrBr mulr1 mulrCA divff ?mulr1.
congr (block_mx _ _ _ _); apply: dg_eq => i; rewrite ?e2 ?e3 // e4 e5 -mulrBr.
- by rewrite opprD opprK addrACA subrr add0r mulrDr -mulrDl e1 mul1r.
- by rewrite opprD addrACA subrr add0r mulrDr -mulrDl e1 mul1r.
Qed.

(** Reflection and transmission of each decoupled mode. *)
Lemma two_layers l l' d d' : decoupled l d -> decoupled l' d' ->
  (forall i, adm l d i + adm l' d' i != 0) ->
  exists Sm, smatrix [:: l; l'] = Ok Sm /\
   S11 Sm = dg (fun i => 2%:R * adm l d i / (adm l d i + adm l' d' i) * phasor (sl_q l) (thick0 l) ord0 i) /\
   S21 Sm = dg (fun i => (adm l d i - adm l' d' i) / (adm l d i + adm l' d' i) * phasor (sl_q l) (thick0 l) ord0 i).
Proof.
move=> H H' hs; rewrite /smatrix /= /smat_step /build_Imatrix.
have a0 := adm_neq0 H; have q0 : q_ok l by case: H.
have q1 : q_ok l' by case: H'.
rewrite q0 q1 (M_dg H) (M_dg H') M_solve // ![bind (Ok _) _]/=.
rewrite block_mxKul block_mxKur block_mxKdl block_mxKdr !(mulmx0, mul0mx) subr0 !mul1mx.
set a := adm l d; set b := adm l' d'.
have A0 i : half * (1 + b i / a i) != 0.
  rewrite mulf_neq0 ?invr_eq0 ?h2 //.
  by rewrite -[X in X + _](divff (a0 i)) -/a -mulrDl mulf_neq0 ?invr_eq0 //; exact: a0.
rewrite (solve_dg (X := dg (fun i => 2%:R * a i / (a i + b i) * phasor (sl_q l) (thick0 l) ord0 i))) //; last first.
  rewrite mulmx1 dgM; congr diag_mx; apply/rowP=> i; rewrite mxE mulrA.
  have -> : half * (1 + b i / a i) * (2%:R * a i / (a i + b i)) = 1; last by rewrite mul1r.
  have := a0 i; have := hs i; rewrite -/a -/b; move: (a i) (b i) (2%:R : C) h2 => x y k /eqP h /eqP h' /eqP h0.
  by cfield; do !split.
rewrite [bind (Ok _) _]/= solve_unit ?dg_unit // [bind (Ok _) _]/=; eexists; split; first by [].
split=> //=; rewrite addr0 dgM; apply: dg_eq => i; rewrite mulrA; congr (_ * _).
have := a0 i; have := hs i; rewrite -/a -/b; move: (a i) (b i) (2%:R : C) h2 => x y k /eqP h /eqP h' /eqP h0.
by cfield; do !split.
Qed.
End Diag.

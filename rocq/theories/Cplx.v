(** Complex numbers over Coq's [R], the complex exponential and ring tactics.
    Infrastructure; the only modelled nannos code is [phasor]
    (nannos/simulation.py:855-856, [bk.exp(1j * q * z)]). *)
From Coq Require Import Reals Lra.
From mathcomp Require Import all_ssreflect all_algebra.
From mathcomp Require Import complex.
From Verif Require Import RStruct.

Set Implicit Arguments.
Unset Strict Implicit.
Unset Printing Implicit Defensive.

Import Order.TTheory GRing.Theory Num.Theory.
Local Open Scope ring_scope.
Local Open Scope complex_scope.

(** The field of complex numbers. *)
Notation C := (complex R_rcfType).

(** [ring] / [field] for C: [cring] and [cfield] first rewrite every mathcomp
    operation (whatever canonical path it uses) to the constants below. *)
Definition Cadd (x y : C) : C := x + y.
Definition Cmul (x y : C) : C := x * y.
Definition Copp (x : C) : C := - x.
Definition Csub (x y : C) : C := x - y.
Definition Cinv (x : C) : C := x^-1.
Definition Cdiv (x y : C) : C := x / y.
Definition C0 : C := 0.
Definition C1 : C := 1.

Lemma C_ring_theory : ring_theory C0 C1 Cadd Cmul Csub Copp (@eq C).
Proof.
split; rewrite /C0 /C1 /Cadd /Cmul /Csub /Copp.
- exact: add0r.
- exact: addrC.
- exact: addrA.
- exact: mul1r.
- exact: mulrC.
- exact: mulrA.
- exact: mulrDl.
- by [].
- exact: subrr.
Qed.

Lemma C_field_theory : field_theory C0 C1 Cadd Cmul Csub Copp Cdiv Cinv (@eq C).
Proof.
split; first exact: C_ring_theory.
- by apply/eqP; exact: oner_neq0.
- by [].
- by move=> x /eqP xn0; rewrite /Cmul /Cinv mulVf.
Qed.

Add Ring Cring : C_ring_theory.
Add Field Cfield : C_field_theory.

Lemma Cnat2 : (2%:R : C) = Cadd C1 C1. Proof. by rewrite mulr2n. Qed.

Ltac cfold :=
  repeat match goal with
  | |- context [@GRing.exp ?V ?a 2] => progress change (@GRing.exp V a 2) with (Cmul a a)
  | |- context [@GRing.natmul ?V ?a 2] => progress change (@GRing.natmul V a 2) with (Cadd a a)
  | |- context [@GRing.add ?V ?a ?b] => progress change (@GRing.add V a b) with (Cadd a b)
  | |- context [@GRing.mul ?V ?a ?b] => progress change (@GRing.mul V a b) with (Cmul a b)
  | |- context [@GRing.opp ?V ?a] => progress change (@GRing.opp V a) with (Copp a)
  | |- context [@GRing.inv ?V ?a] => progress change (@GRing.inv V a) with (Cinv a)
  | |- context [@GRing.zero ?V] => progress change (@GRing.zero V) with C0
  | |- context [@GRing.one ?V] => progress change (@GRing.one V) with C1
  end;
  try match goal with |- @eq _ ?a ?b => change (@eq C a b) end.

(** Identify matrix entries, conjugates etc. up to conversion and make them atoms. *)
Ltac catoms :=
  repeat match goal with
  | |- context [@fun_of_matrix ?T ?m ?n ?A ?i ?j] =>
      let x := fresh "x" in set x := (@fun_of_matrix _ m n A i j); clearbody x
  | |- context [@conjc ?T ?a] =>
      let x := fresh "x" in set x := (@conjc _ a); clearbody x
  end.

Ltac cring := cfold; try ring; catoms; ring.
Ltac cfield := cfold; field.

(** Identities in the additive group of matrices: expand products, make them
    atoms, and compare entries. *)
Ltac mxabs :=
  rewrite ?(mulmxDl, mulmxDr, mulmxBl, mulmxBr, mulNmx, mulmxN, mul1mx, mulmx1,
            mul0mx, mulmx0, mulmxA);
  repeat match goal with
  | |- context [@mulmx ?T ?m ?n ?k ?A ?B] =>
      let x := fresh "X" in set x := (@mulmx _ m n k A B); clearbody x
  | |- context [@invmx ?T ?n ?A] =>
      let x := fresh "X" in set x := (@invmx _ n A); clearbody x
  end.
Ltac mxadd := mxabs; apply/matrixP=> i j; rewrite !mxE; cring.

(** The same for goals over R. *)
Ltac rfold :=
  repeat match goal with
  | |- context [@GRing.exp ?V ?a 2] => progress change (@GRing.exp V a 2) with (Rmult a a)
  | |- context [@GRing.natmul ?V ?a 2] => progress change (@GRing.natmul V a 2) with (Rplus a a)
  | |- context [@GRing.add ?V ?a ?b] => progress change (@GRing.add V a b) with (Rplus a b)
  | |- context [@GRing.mul ?V ?a ?b] => progress change (@GRing.mul V a b) with (Rmult a b)
  | |- context [@GRing.opp ?V ?a] => progress change (@GRing.opp V a) with (Ropp a)
  | |- context [@GRing.zero ?V] => progress change (@GRing.zero V) with R0
  | |- context [@GRing.one ?V] => progress change (@GRing.one V) with R1
  end;
  try match goal with |- @eq _ ?a ?b => change (@eq R a b) end.
Ltac rring := rfold; ring.

(** Complex exponential. *)
Definition cexp (z : C) : C :=
  let: x +i* y := z in (exp x * cos y)%Re +i* (exp x * sin y)%Re.

Lemma cexp0 : cexp 0 = 1.
Proof.
rewrite /cexp /= exp_0 cos_0 sin_0; apply/eqP; rewrite eq_complex /=.
by apply/andP; split; apply/eqP; [rewrite Rmult_1_l|rewrite Rmult_0_r].
Qed.

Lemma cexpD z w : cexp (z + w) = cexp z * cexp w.
Proof.
case: z => a b; case: w => c d.
apply/eqP; rewrite eq_complex /=; apply/andP; split; apply/eqP.
- rfold; rewrite exp_plus cos_plus; ring.
- rfold; rewrite exp_plus sin_plus; ring.
Qed.

Lemma cexp_neq0 z : cexp z != 0.
Proof.
apply/eqP => H; have : cexp z * cexp (- z) = 1 by rewrite -cexpD subrr cexp0.
by rewrite H mul0r => /eqP; rewrite eq_sym oner_eq0.
Qed.

Lemma cexpN z : cexp (- z) = (cexp z)^-1.
Proof.
apply: (mulfI (cexp_neq0 z)); rewrite mulfV ?cexp_neq0 //.
by rewrite -cexpD subrr cexp0.
Qed.

Lemma cexp_conj z : cexp z^*%C = (cexp z)^*%C.
Proof.
case: z => a b; apply/eqP; rewrite eq_complex /=; apply/andP; split; apply/eqP.
- by rfold; rewrite cos_neg.
- by rfold; rewrite sin_neg; ring.
Qed.

Lemma cexp_mulrn z n : cexp (z *+ n) = cexp z ^+ n.
Proof. by elim: n => [|n IHn]; rewrite ?mulr0n ?cexp0 // mulrSr cexpD IHn exprSr. Qed.


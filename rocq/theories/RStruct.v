(** Mathematical Components structures on Coq's real numbers, up to a real
    closed field.  Pure infrastructure: nothing here models nannos code.
    It lets the rest of the development use the complex numbers [R[i]] of
    mathcomp-real-closed with Coq's real analysis (exp, cos, sin). *)
From Coq Require Import Reals Lra Epsilon FunctionalExtensionality.
From Coq Require Import ClassicalEpsilon.
From mathcomp Require Import all_ssreflect all_algebra.

Set Implicit Arguments.
Unset Strict Implicit.
Unset Printing Implicit Defensive.

Import Order.TTheory GRing.Theory Num.Theory.

Delimit Scope R_scope with Re.
Delimit Scope Z_scope with Zc.
Local Open Scope R_scope.

Definition eqr (r1 r2 : R) : bool :=
  if Req_EM_T r1 r2 is left _ then true else false.

Lemma eqrP : Equality.axiom eqr.
Proof. by move=> r1 r2; rewrite /eqr; case: Req_EM_T => H; constructor. Qed.

Definition R_eqMixin := EqMixin eqrP.
Canonical R_eqType := Eval hnf in EqType R R_eqMixin.

Definition pickR (P : pred R) (n : nat) : option R :=
  let x := epsilon (inhabits 0) P in if P x then Some x else None.

Lemma pickR_some P n x : pickR P n = Some x -> P x.
Proof. by rewrite /pickR; case: (boolP (P _)) => // Px [<-]. Qed.

Lemma pickR_ex (P : pred R) : (exists x : R, P x) -> exists n, pickR P n.
Proof.
by rewrite /pickR; move=> /(epsilon_spec (inhabits 0)) -> ; exists 0%N.
Qed.

Lemma pickR_ext (P Q : pred R) : P =1 Q -> pickR P =1 pickR Q.
Proof.
move=> PEQ n; rewrite /pickR; set u := epsilon _ _; set v := epsilon _ _.
suff -> : u = v by rewrite PEQ.
by congr epsilon; apply: functional_extensionality => x; rewrite PEQ.
Qed.

Definition R_choiceMixin : choiceMixin R :=
  Choice.Mixin pickR_some pickR_ex pickR_ext.
Canonical R_choiceType := Eval hnf in ChoiceType R R_choiceMixin.

Lemma RplusA : associative Rplus.
Proof. by move=> *; rewrite Rplus_assoc. Qed.

Definition R_zmodMixin := ZmodMixin RplusA Rplus_comm Rplus_0_l Rplus_opp_l.
Canonical R_zmodType := Eval hnf in ZmodType R R_zmodMixin.

Lemma RmultA : associative Rmult.
Proof. by move=> *; rewrite Rmult_assoc. Qed.

Lemma R1_neq_0 : R1 != R0.
Proof. by apply/eqP/R1_neq_R0. Qed.

Definition R_ringMixin := RingMixin RmultA Rmult_1_l Rmult_1_r
  Rmult_plus_distr_r Rmult_plus_distr_l R1_neq_0.
Canonical R_ringType := Eval hnf in RingType R R_ringMixin.
Canonical R_comRingType := Eval hnf in ComRingType R Rmult_comm.

Definition Rinvx r := if (r != 0) then / r else r.
Definition unit_R r := r != 0.

Lemma RmultRinvx : {in unit_R, left_inverse 1 Rinvx Rmult}.
Proof.
move=> r; rewrite -topredE /unit_R /Rinvx => /= rNZ /=.
by rewrite rNZ Rinv_l //; apply/eqP.
Qed.

Lemma RinvxRmult : {in unit_R, right_inverse 1 Rinvx Rmult}.
Proof.
move=> r; rewrite -topredE /unit_R /Rinvx => /= rNZ /=.
by rewrite rNZ Rinv_r //; apply/eqP.
Qed.

Lemma intro_unit_R x y : y * x = 1 /\ x * y = 1 -> unit_R x.
Proof.
move=> [yx_eq1 _]; apply: contra_eqN yx_eq1 => /eqP ->.
by rewrite Rmult_0_r eq_sym R1_neq_0.
Qed.

Lemma Rinvx_out : {in predC unit_R, Rinvx =1 id}.
Proof. by move=> x; rewrite inE /= /Rinvx -if_neg => ->. Qed.

Definition R_unitRingMixin :=
  UnitRingMixin RmultRinvx RinvxRmult intro_unit_R Rinvx_out.
Canonical R_unitRing := Eval hnf in UnitRingType R R_unitRingMixin.
Canonical R_comUnitRingType := Eval hnf in [comUnitRingType of R].

Lemma R_idomainMixin x y : x * y = 0 -> (x == 0) || (y == 0).
Proof.
(do 2 case: (boolP (_ == _))=> // /eqP)=> yNZ xNZ xy0.
by case: (Rmult_integral_contrapositive_currified _ _ xNZ yNZ).
Qed.
Canonical R_idomainType := Eval hnf in IdomainType R R_idomainMixin.

Lemma R_fieldMixin : GRing.Field.mixin_of [unitRingType of R].
Proof. by done. Qed.
Definition R_fieldIdomainMixin := FieldIdomainMixin R_fieldMixin.
Canonical R_fieldType := FieldType R R_fieldMixin.

(** order *)
Definition Rleb (r1 r2 : R) : bool := if Rle_dec r1 r2 is left _ then true else false.
Definition Rltb (r1 r2 : R) : bool := Rleb r1 r2 && (r1 != r2).

Lemma RlebP r1 r2 : reflect (r1 <= r2) (Rleb r1 r2).
Proof. by rewrite /Rleb; apply: (iffP idP); case: Rle_dec. Qed.

Lemma RltbP r1 r2 : reflect (r1 < r2) (Rltb r1 r2).
Proof.
rewrite /Rltb; apply: (iffP idP).
- by case/andP=> /RlebP le /eqP ne; lra.
- by move=> lt; apply/andP; split; [apply/RlebP; lra|apply/eqP; lra].
Qed.

Lemma Rleb_norm_add x y : Rleb (Rabs (x + y)) (Rabs x + Rabs y).
Proof. by apply/RlebP/Rabs_triang. Qed.

Lemma addr_Rgtb0 x y : Rltb 0 x -> Rltb 0 y -> Rltb 0 (x + y).
Proof. by move=> /RltbP ? /RltbP ?; apply/RltbP; lra. Qed.

Lemma Rnorm0_eq0 x : Rabs x = 0 -> x = 0.
Proof. by move=> H; case: (x == 0) /eqP => // /Rabs_no_R0. Qed.

Lemma Rleb_leVge x y : Rleb 0 x -> Rleb 0 y -> (Rleb x y) || (Rleb y x).
Proof.
move=> /RlebP ? /RlebP ?.
case: (Rle_dec x y) => [/RlebP->//|?].
by apply/orP; right; apply/RlebP; lra.
Qed.

Lemma RnormM : {morph Rabs : x y / x * y}.
Proof. exact: Rabs_mult. Qed.

Lemma Rleb_def x y : (Rleb x y) = (Rabs (y - x) == y - x).
Proof.
apply/(sameP (RlebP _ _))/(iffP eqP); last first.
  by move=> ?; rewrite Rabs_right; lra.
by move: (Rabs_pos (y - x)) => ? ?; lra.
Qed.

Lemma Rltb_def x y : (Rltb x y) = (y != x) && (Rleb x y).
Proof. by rewrite /Rltb andbC eq_sym. Qed.

Definition R_numMixin := NumMixin Rleb_norm_add addr_Rgtb0 Rnorm0_eq0
                                  Rleb_leVge RnormM Rleb_def Rltb_def.
Canonical R_porderType := POrderType ring_display R R_numMixin.
Canonical R_numDomainType := NumDomainType R R_numMixin.
Canonical R_normedZmodType := NormedZmodType R R R_numMixin.

Lemma RleP (x y : R) : reflect (x <= y) (x <= y)%O.
Proof. exact: RlebP. Qed.
Lemma RltP (x y : R) : reflect (x < y) (x < y)%O.
Proof. exact: RltbP. Qed.

Canonical R_numFieldType := [numFieldType of R].

Lemma R_total : totalPOrderMixin R_porderType.
Proof.
move=> x y; case: (Rle_dec x y) => H; first by apply/orP; left; apply/RleP.
by apply/orP; right; apply/RleP; lra.
Qed.

Canonical R_latticeType := LatticeType R R_total.
Canonical R_distrLatticeType := DistrLatticeType R R_total.
Canonical R_orderType := OrderType R R_total.
Canonical R_realDomainType := [realDomainType of R].
Canonical R_realFieldType := [realFieldType of R].

(** Bridges between the ring operations of mathcomp and Coq's [R]. *)
Lemma R_addE (x y : R) : (x + y)%Re = GRing.add x y. Proof. by []. Qed.
Lemma R_oppE (x : R) : (- x)%Re = GRing.opp x. Proof. by []. Qed.
Lemma R_mulE (x y : R) : (x * y)%Re = GRing.mul x y. Proof. by []. Qed.
Lemma R_subE (x y : R) : (x - y)%Re = (GRing.add x (GRing.opp y)). Proof. by []. Qed.
Lemma R_zeroE : 0%Re = GRing.zero R_zmodType. Proof. by []. Qed.
Lemma R_oneE : 1%Re = GRing.one R_ringType. Proof. by []. Qed.
Lemma R_invE (x : R) : x <> 0 -> (/ x)%Re = GRing.inv x.
Proof. by move=> /eqP xn0; rewrite /GRing.inv /= /Rinvx xn0. Qed.
Lemma R_expE (x : R) n : (x ^ n)%Re = GRing.exp x n.
Proof. by elim: n => [|n IHn] //=; rewrite GRing.exprS -IHn. Qed.
Lemma R_natE n : INR n = GRing.natmul (GRing.one R_ringType) n.
Proof. by elim: n => [|n IHn] //; rewrite S_INR IHn GRing.mulrSr. Qed.

(** Real closed field: intermediate value theorem for polynomials. *)
Lemma Rcontinuity_poly (p : {poly R}) : continuity (fun x => p.[x])%R.
Proof.
elim/poly_ind: p => [|p c IHp] x.
  have -> : (fun x : R => (0 : {poly R}).[x]%R) = (fun _ => 0).
    by apply: functional_extensionality => y; rewrite horner0.
  by apply: continuity_const.
have -> : (fun y : R => (p * 'X + c%:P).[y]%R) =
   (fun y => (fun y => p.[y]%R) y * id y + (fun _ => c) y).
  by apply: functional_extensionality => y; rewrite hornerMXaddC.
apply: continuity_pt_plus; last exact: continuity_pt_const.
apply: continuity_pt_mult; first exact: IHp.
exact: derivable_continuous_pt (derivable_pt_id x).
Qed.

Lemma R_real_closed_axiom : Num.real_closed_axiom R_numDomainType.
Proof.
move=> p a b /RleP leab /andP[/RleP pa0 /RleP pb0].
have pa : p.[a]%R <= 0 := pa0; have pb : 0 <= p.[b]%R := pb0.
clear pa0 pb0.
case: (Req_EM_T p.[a]%R 0) => [pa0|pan0].
  exists a; last by rewrite /root pa0 eqxx.
  by apply/andP; split; apply/RleP => //; lra.
case: (Req_EM_T p.[b]%R 0) => [pb0|pbn0].
  exists b; last by rewrite /root pb0 eqxx.
  by apply/andP; split; apply/RleP => //; lra.
have lt_ab : a < b.
  case: (Req_EM_T a b) => [eab|]; last by lra.
  by move: pa pb pan0 pbn0; rewrite eab; lra.
have pa' : p.[a]%R < 0 by move: pa pan0; lra.
have pb' : 0 < p.[b]%R by move: pb pbn0; lra.
have [z [[az zb] pz]] := IVT (fun x => p.[x]%R) a b (@Rcontinuity_poly p) lt_ab pa' pb'.
exists z; last by rewrite /root pz eqxx.
by apply/andP; split; apply/RleP.
Qed.

Canonical R_rcfType := RcfType R R_real_closed_axiom.

(** Two simulations related by a symmetry, in terms of their patterns. *)
From Coq Require Import Reals ZArith Lra.
From mathcomp Require Import all_ssreflect all_algebra all_fingroup.
From mathcomp Require Import complex.
From Verif Require Import RStruct Cplx Cderiv Base Fourier_Model Fourier_Spec Sim_Model Sim_Spec Setup_Model.
From Verif Require Import SMat_Proofs Modes_Proofs Maxwell_Proofs.
From Verif Require Import Fourier_Proofs Grid_Spec Grid_Proofs Energy_Spec Energy_Proofs Energy_Proofs2 Basis_Proofs Run_Proofs Run_Proofs2.
From Verif Require Import Symm_Proofs Symm_Proofs2 Symm_Proofs3 Symm_Proofs4 Symm_Proofs5.

Set Implicit Arguments.
Unset Strict Implicit.
Unset Printing Implicit Defensive.

Import Order.TTheory GRing.Theory Num.Theory.
Local Open Scope ring_scope.
Local Open Scope complex_scope.

Section Master.
Variable nh : nat.
Notation n2 := (nh + nh)%N.
Variable tau : 'S_nh.
Variable ph : 'I_nh -> C.
Hypothesis ph1 : forall i, ph i * conj (ph i) = 1.
Variables o00 o01 o10 o11 : R.
Hypothesis c0 : (o00 * o00 + o10 * o10 = 1)%Re.
Hypothesis c1 : (o01 * o01 + o11 * o11 = 1)%Re.
Hypothesis c01 : (o00 * o01 + o10 * o11 = 0)%Re.
Variable d : R.
Hypotheses (d1 : (d * d = 1)%Re) (d00 : o11 = (d * o00)%Re) (d01 : (- o10 = d * o01)%Re).
Variables (s e : R).
Hypothesis s0 : (0 < s)%Re.
Hypothesis ee : (e * e = 1)%Re.
Variables Nx1 Ny1 Nx2 Ny2 : nat.
Hypotheses (Nx10 : (0 < Nx1)%N) (Ny10 : (0 < Ny1)%N) (Nx20 : (0 < Nx2)%N) (Ny20 : (0 < Ny2)%N).
Variables (h1 h2 : 'I_nh -> order).
Variable g : 'I_Nx2 * 'I_Ny2 -> 'I_Nx1 * 'I_Ny1.
Hypothesis gb : bijective g.
Variable cw : C.
Hypothesis cw1 : conj cw * cw = 1.
Hypothesis hg : forall i x y, wave (h2 i).1 (h2 i).2 x y =
  cw * conj (ph i) * wave (h1 (tau i)).1 (h1 (tau i)).2 (g (x, y)).1 (g (x, y)).2.
Variables (form1 : formulation_t Nx1 Ny1) (form2 : formulation_t Nx2 Ny2).
Variables eig1 eig2 : forall m, 'M[C]_m -> 'rV[C]_m * 'M[C]_m.
Hypothesis eig1_ok : forall m (A : 'M[C]_m), A *m (eig1 A).2 = (eig1 A).2 *m diag_mx (eig1 A).1.
Hypothesis eig2_ok : forall m (A : 'M[C]_m), A *m (eig2 A).2 = (eig2 A).2 *m diag_mx (eig2 A).1.
Variables (pw1 pw2 : planewave) (rec1 rec2 : 'M[R]_2).
Variables (e0 eN : C).
Notation w1 := (sim_omega pw1).
Notation w2 := (sim_omega pw2).
Notation kx1 := (sim_kx pw1 rec1 h1 e0).
Notation ky1 := (sim_ky pw1 rec1 h1 e0).
Notation kx2 := (sim_kx pw2 rec2 h2 e0).
Notation ky2 := (sim_ky pw2 rec2 h2 e0).
Hypothesis ws : w1 = s * w2.
Hypothesis hkx : forall i, kx2 ord0 i = rc e / rc s * (rc o00 * kx1 ord0 (tau i) + rc o01 * ky1 ord0 (tau i)).
Hypothesis hky : forall i, ky2 ord0 i = rc e / rc s * (rc o10 * kx1 ord0 (tau i) + rc o11 * ky1 ord0 (tau i)).
Variables (i1 i2 : 'I_nh).
Hypothesis hi : tau i2 = i1.
Hypothesis ha : forall a1 a2, pw_a0 pw1 = Ok a1 -> pw_a0 pw2 = Ok a2 ->
  rc a2.1 = ph i2 * (rc o00 * rc a1.1 + rc o01 * rc a1.2) /\
  rc a2.2 = ph i2 * (rc o10 * rc a1.1 + rc o11 * rc a1.2).
Hypothesis hf : incident_flux pw2 e0 = incident_flux pw1 e0.
Notation pull := (pull g).

Variable P : 'M[C]_(Nx2, Ny2) -> 'M[C]_(Nx1, Ny1) -> Prop.
Hypothesis hP : forall u2 u1, P u2 u1 -> u2 = pull u1.

Definition form_moved : Prop :=
  match form2, form1 with
  | Original, Original => True
  | Tangent1D, Tangent1D => o01 = 0%Re /\ o10 = 0%Re
  | TangentLike tan2, TangentLike tan1 => forall u2 u1 s t, P u2 u1 -> tan2 u2 = Ok s -> tan1 u1 = Ok t ->
      turned o00 o01 o10 o11 g t.1 t.2 s.1 s.2
  | _, _ => False
  end.
Definition eps_moved (eps2 : eps_t Nx2 Ny2) (eps1 : eps_t Nx1 Ny1) : Prop :=
  match eps2, eps1 with
  | EpsUniform e2, EpsUniform e1 => e2 = e1
  | EpsGrid u2, EpsGrid u1 => P u2 u1
  | EpsTensorGrid u2, EpsTensorGrid u1 => form1 = Original Nx1 Ny1 /\ tensor_moved o00 o01 o10 o11 g u2 u1
  | _, _ => False
  end.
Hypothesis hform : form_moved.
Variables (l1 : layer_in Nx1 Ny1) (rest1 : seq (layer_in Nx1 Ny1)).
Variables (l2 : layer_in Nx2 Ny2) (rest2 : seq (layer_in Nx2 Ny2)).
Hypotheses (he1 : li_eps l1 = EpsUniform Nx1 Ny1 e0).
Hypotheses (heN1 : li_eps (last l1 rest1) = EpsUniform Nx1 Ny1 eN).
Hypothesis hsz : size rest2 = size rest1.
Hypothesis hlay : forall k, (k <= size rest1)%N ->
  li_thick (nth l2 (l2 :: rest2) k) = omap (Rmult s) (li_thick (nth l1 (l1 :: rest1) k)) /\
  eps_moved (li_eps (nth l2 (l2 :: rest2) k)) (li_eps (nth l1 (l1 :: rest1) k)).

Lemma m_eps eps2 eps1 : rc w2 != 0 -> eps_moved eps2 eps1 ->
  rel_eps tau ph o00 o01 o10 o11 w1 w2 kx1 ky1 kx2 ky2 h1 h2 form1 form2 eps2 eps1.
Proof.
move=> w20; have w10 : rc w1 != 0.
  have e1 : rc w1 = rc s * rc w2 by rewrite ws rmorphM.
  by rewrite e1 mulf_neq0 //; apply/eqP=> -[]; exact: Rgt_not_eq.
case: eps2 => [e2|u2|u2|e2]; case: eps1 => [e1|u1|u1|e1] //=.
- by move=> ->; exact: rel_uniform.
- move=> hu; have eu := hP hu; move: hform; rewrite /form_moved; case: form2 => [||tan2]; case: form1 => [||tan1] //.
  + by move=> ?; rewrite eu; exact: (rel_original ph1 _ _ _ _ Nx10 Ny10 Nx20 Ny20 gb cw1 hg w10 w20).
  + by move=> [z01 z10]; rewrite eu; exact: (rel_tangent1d ph1 _ _ Nx10 Ny10 Nx20 Ny20 gb cw1 hg w10 w20 z01 z10).
  + move=> ht; rewrite eu; apply: (rel_tangent ph1 c0 c1 c01 Nx10 Ny10 Nx20 Ny20 gb cw1 hg w10 w20).
    by rewrite -eu => t v ht1 hv; exact: ht hu hv ht1.
- move=> [ef ht]; move: hform; rewrite /form_moved ef; case: form2 => // ?.
  exact: (rel_tensor ph1 c0 c1 c01 Nx10 Ny10 Nx20 Ny20 gb cw1 hg w10 w20 ht).
Qed.

Lemma m_first : li_eps l2 = EpsUniform Nx2 Ny2 e0.
Proof. by have [_] := hlay (leq0n _); rewrite /= he1; case: (li_eps l2) => //= e2 ->. Qed.
Lemma m_last : li_eps (last l2 rest2) = EpsUniform Nx2 Ny2 eN.
Proof.
have [_] := hlay (leqnn _); rewrite -lastE heN1 -hsz -lastE.
by case: (li_eps (last l2 rest2)) => //= e2 ->.
Qed.

Theorem master_eff r1 r2 :
  run_efficiencies eig1 pw1 rec1 h1 form1 (l1 :: rest1) i1 = Ok r1 ->
  run_efficiencies eig2 pw2 rec2 h2 form2 (l2 :: rest2) i2 = Ok r2 ->
  forall i, r2.1 i ord0 = r1.1 (tau i) ord0 /\ r2.2 i ord0 = r1.2 (tau i) ord0.
Proof.
move=> H1 H2; have [_ [_ [_ [_ [_ [_ [w20 _]]]]]]] := run_effP H2.
apply: (sim_eff ph1 c0 c1 c01 d1 d00 d01 s0 ee eig1_ok eig2_ok ws hkx hky hi ha hf he1 m_first heN1 m_last hsz _ H1 H2).
by move=> k hk; have [ht he] := hlay hk; split=> //; apply: m_eps.
Qed.

Theorem master_field k z F1 F2 :
  run_field eig1 pw1 rec1 h1 form1 (l1 :: rest1) i1 k z = Ok F1 ->
  run_field eig2 pw2 rec2 h2 form2 (l2 :: rest2) i2 k (s * z) = Ok F2 ->
  moved tau ph o00 o01 o10 o11 d e F2 F1.
Proof.
move=> H1 H2; have [_ [_ [_ [_ [_ [_ /gff_omega w20]]]]]] := run_fieldP H2.
apply: (sim_field ph1 c0 c1 c01 d1 d00 d01 s0 ee eig1_ok eig2_ok ws hkx hky hi ha he1 m_first heN1 m_last hsz _ H1 H2).
by move=> j hj; have [ht he] := hlay hj; split=> //; apply: m_eps.
Qed.
End Master.

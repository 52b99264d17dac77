(** The "opt" tangent field: the minimiser is the truncated Fourier series. *)
From Coq Require Import Reals ZArith Lra Lia.
From mathcomp Require Import all_ssreflect all_algebra fingroup perm.
From mathcomp Require Import complex.
From Verif Require Import RStruct Cplx Base Fourier_Model Fourier_Spec Fourier_Proofs Sim_Model Filter_Model Filter_Proofs Tangent_Model Opt_Model Opt_Spec.
From Verif Require Import Energy_Proofs Energy_Proofs2 Tangent_Proofs Grid_Spec Grid_Proofs Recip_Spec Symm_Proofs10 Opt_Proofs.

Set Implicit Arguments.
Unset Strict Implicit.
Unset Printing Implicit Defensive.

Import Order.TTheory GRing.Theory Num.Theory.
Local Open Scope ring_scope.
Local Open Scope complex_scope.

Lemma natc k : (k%:R : C) = rc (INR k).
Proof. by elim: k => [//|k IH]; rewrite mulrSr IH S_INR; apply/eqP; rewrite eq_complex /= addr0 !eqxx. Qed.

Lemma rcM' (a b : R) : rc (a * b) = rc a * rc b.
Proof. by apply/eqP; rewrite eq_complex /= !mul0r mulr0 subr0 addr0 !eqxx. Qed.
Lemma rcB' (a b : R) : rc (a - b) = rc a - rc b.
Proof. by apply/eqP; rewrite eq_complex /= subrr !eqxx. Qed.

Lemma real_rc (z : C) : conj z = z -> z = rc (complex.Re z).
Proof.
case: z => a b [] e; apply/eqP; rewrite eq_complex /= eqxx /=; apply/eqP.
by move: e; rfold; lra.
Qed.

Section Min.
Variables (nh : nat) (h : 'I_nh -> order) (n : nat).
Hypothesis n0 : (0 < n)%N.
Hypothesis hres : resolved h n n.
Hypothesis hok : amps_ok h n.
Hypothesis hopp : opposite_closed h.

Lemma h_inj : injective h.
Proof.
move=> i j e; apply/eqP/negP => /negP nij; case: (hres nij).
by rewrite e !Z.sub_diag; split; apply: Zmod_0_l.
Qed.

Lemma negation : exists tau : 'S_nh, forall i, h (tau i) = ((- (h i).1)%Zc, (- (h i).2)%Zc).
Proof.
have qi : injective (fun o : order => ((- o.1)%Zc, (- o.2)%Zc) : order).
  by move=> [a b] [c d] /= [h1 h2]; congr pair; apply: Z.opp_inj.
by have [tau [h1 _]] := reindex_orders qi h_inj hopp; exists tau.
Qed.

Section G.
Variable g : 'M[C]_n.
Hypothesis greal : forall x y, conj (g x y) = g x y.

Let c : 'cV[C]_nh := \col_i coef g (h i).1 (h i).2.

Lemma bandE x y : band h g x y = cell_value h c x y.
Proof. by rewrite mxE; apply: eq_bigr => i _; rewrite mxE. Qed.

Lemma band_coef k : coef (band h g) (h k).1 (h k).2 = coef g (h k).1 (h k).2.
Proof.
have := parseval n0 n0 hres c (delta_mx k ord0).
rewrite [X in _ = X](bigD1 k) //= big1 ?addr0 => [|i ik]; last by rewrite !mxE (negPf ik) conj_nat mulr0.
rewrite !mxE !eqxx conj_nat mulr1 => <-; rewrite /coef /mean; congr (_ / _).
apply: eq_bigr => x _; apply: eq_bigr => y _; rewrite [in RHS]mxE bandE; congr (_ * _).
rewrite /cell_value (bigD1 k) //= big1 ?addr0 => [|i ik]; last by rewrite !mxE (negPf ik) mul0r.
by rewrite mxE !eqxx mul1r wave_conj.
Qed.

Lemma band_real x y : conj (band h g x y) = band h g x y.
Proof.
have [tau ht] := negation; rewrite !mxE conj_sum (reindex_inj (@perm_inj _ tau)).
apply: eq_bigr => i _; rewrite conjM coef_conj // wave_conj ht /=.
by rewrite !Z.opp_involutive.
Qed.

Lemma band_orth k : \sum_x \sum_y (band h g x y - g x y) * wave (h k).1 (h k).2 x y = 0.
Proof.
have nn := NxNy_neq0 n0 n0.
have e : \sum_x \sum_y (band h g x y - g x y) * wave (- (h k).1) (- (h k).2) x y = 0.
  have := band_coef k; rewrite /coef => /(mulIf (invr_neq0 nn)) /eqP; rewrite -subr_eq0 => /eqP; apply: etrans.
  rewrite -sumrB; apply: eq_bigr => x _; rewrite -sumrB; apply: eq_bigr => y _; exact: mulrBl.
apply: etrans (conj_nat 0); apply: etrans (f_equal conj e); rewrite conj_sum; apply: eq_bigr => x _.
by rewrite conj_sum; apply: eq_bigr => y _; rewrite conjM wave_conj conjD conjN band_real greal !Z.opp_involutive.
Qed.

Variable scale : nat.
Hypothesis s0 : (0 < scale)%N.
Let kappa : R := (INR scale / INR (n * n))%Re.
Let w (i : 'I_nh) (t : 'I_n * 'I_n) : C := wave (h i).1 (h i).2 t.1 t.2.

Lemma nn_pos : (0 < INR (n * n))%Re.
Proof. by apply: lt_0_INR; apply/ssrnat.ltP; rewrite muln_gt0 n0. Qed.

Lemma kappa_pos : (0 < kappa)%Re.
Proof. by apply: Rdiv_lt_0_compat nn_pos; apply: lt_0_INR; apply/ssrnat.ltP. Qed.

Lemma kappaE : scale%:R / (n * n)%:R = rc kappa.
Proof.
have p := nn_pos; have nn : ((n * n)%:R : C) != 0 := NxNy_neq0 n0 n0.
apply: (mulIf nn); rewrite divfK // !natc -rcM'; congr (rc _).
by rewrite /kappa; change (INR scale = INR scale / INR (n * n) * INR (n * n))%Re; field; lra.
Qed.

Lemma amps_fit (a : 'rV[C]_nh) x y : complex.Re (amps h n scale a x y) = fit w kappa (a ord0) (x, y).
Proof. by rewrite ampsE // kappaE Re_rcM. Qed.

Lemma sq_errE (a : 'rV[C]_nh) :
  sq_err h scale a g = err w (fun t => complex.Re (g t.1 t.2)) kappa (a ord0).
Proof.
rewrite /sq_err pair_bigA; apply: eq_bigr => -[x y] _ /=; rewrite amps_fit.
rewrite {1}(real_rc (greal x y)) /abs2; set u := fit _ _ _ _; set v := complex.Re (g x y).
by rewrite /=; rfold; ring.
Qed.

(** The amplitudes of the truncated series. *)
Definition best : 'rV[C]_nh := \row_i (coef g (h i).1 (h i).2 / rc kappa).

Lemma best_fit t : fit w kappa (best ord0) t = complex.Re (band h g t.1 t.2).
Proof.
have k0 : rc kappa != 0 by apply/eqP => -[] e; have := kappa_pos; rewrite e; exact: Rlt_irrefl.
rewrite /fit -Re_rcM mxE; congr complex.Re; rewrite mulr_sumr; apply: eq_bigr => i _.
by rewrite mxE mulrA mulrC [rc _ * _]mulrC divfK // mulrC.
Qed.

Lemma band_orth' i : \sum_t rc (complex.Re (band h g t.1 t.2) - complex.Re (g t.1 t.2)) * w i t = 0.
Proof.
apply: etrans (band_orth i); rewrite pair_bigA; apply: eq_bigr => -[x y] _ /=; congr (_ * _).
by rewrite rcB' -real_rc ?band_real // -real_rc // greal.
Qed.

Lemma best_min a : (sq_err h scale best g <= sq_err h scale a g)%Re.
Proof. by rewrite !sq_errE; apply: best_is_min best_fit band_orth' _. Qed.

Lemma min_best a : (sq_err h scale a g <= sq_err h scale best g)%Re ->
  forall x y, complex.Re (amps h n scale a x y) = complex.Re (band h g x y).
Proof.
rewrite !sq_errE => hle x y; rewrite amps_fit.
exact: (min_is_best best_fit band_orth' hle (x, y)).
Qed.
End G.

Section Pair.
Variables gx gy : 'M[C]_n.
Hypothesis xreal : forall x y, conj (gx x y) = gx x y.
Hypothesis yreal : forall x y, conj (gy x y) = gy x y.
Variable scale : nat.
Hypothesis s0 : (0 < scale)%N.
Notation obj := (objective h scale gx gy).

Lemma n2_pos : (0 < INR (2 * (n * n)))%Re.
Proof. by apply: lt_0_INR; apply/ssrnat.ltP; rewrite !muln_gt0 n0. Qed.

Lemma objective_le c d : (obj c <= obj d)%Re <->
  (sq_err h scale c.1 gx + sq_err h scale c.2 gy <= sq_err h scale d.1 gx + sq_err h scale d.2 gy)%Re.
Proof.
have p := n2_pos; have q := Rinv_0_lt_compat _ p; rewrite /objective /Rdiv; split=> H.
- exact: Rmult_le_reg_r H.
- by apply: Rmult_le_compat_r H; lra.
Qed.

Lemma attained c : (obj (best gx scale, best gy scale) <= obj c)%Re.
Proof. by apply/objective_le; apply: Rplus_le_compat; exact: best_min. Qed.

Lemma minimum c : (forall d, (obj c <= obj d)%Re) ->
  (forall x y, complex.Re (amps h n scale c.1 x y) = complex.Re (band h gx x y)) /\
  (forall x y, complex.Re (amps h n scale c.2 x y) = complex.Re (band h gy x y)).
Proof.
move=> hc; split; apply: min_best => //.
- by have /objective_le /= := hc (best gx scale, c.2); lra.
- by have /objective_le /= := hc (c.1, best gy scale); lra.
Qed.
End Pair.
End Min.

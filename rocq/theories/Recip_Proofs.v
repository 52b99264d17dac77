(** Reciprocity: the bilinear form of two solutions is the same at every height. *)
From Coq Require Import Reals ZArith Lra.
From mathcomp Require Import all_ssreflect all_algebra fingroup perm.
From mathcomp Require Import complex.
From Verif Require Import RStruct Cplx Cderiv Base Fourier_Model Fourier_Spec Sim_Model Sim_Spec Setup_Model.
From Verif Require Import SMat_Proofs SMat_Proofs2 SMat_Proofs3 Maxwell_Spec Modes_Proofs Maxwell_Proofs.
From Verif Require Import Fourier_Proofs Energy_Spec Energy_Proofs Energy_Proofs2 Symm_Proofs2 Symm_Proofs3.

Set Implicit Arguments.
Unset Strict Implicit.
Unset Printing Implicit Defensive.

Import Order.TTheory GRing.Theory Num.Theory.
Local Open Scope ring_scope.
Local Open Scope complex_scope.

Definition one_ph nh : 'I_nh -> C := fun _ => 1.

Lemma one_ph1 nh (i : 'I_nh) : one_ph i * conj (one_ph i) = 1.
Proof. by rewrite /one_ph mul1r; exact: (conj_nat 1). Qed.

Section Bil.
Variable nh : nat.
Notation n2 := (nh + nh)%N.
Variable tau : 'S_nh.
Notation J := (um tau (@one_ph nh)).
Notation U := (Um tau (@one_ph nh) 1%Re 0%Re 0%Re 1%Re).
Implicit Types (l : slayer nh) (p : amp nh).

Definition T (i : 'I_n2) : 'I_n2 :=
  match split i with inl k => lshift nh (tau k) | inr k => rshift nh (tau k) end.

Let u1 : (1 * 1 + 0 * 0 = 1)%Re. Proof. lra. Qed.
Let u2 : (0 * 0 + 1 * 1 = 1)%Re. Proof. lra. Qed.
Let u3 : (1 * 0 + 0 * 1 = 0)%Re. Proof. lra. Qed.

Lemma U_unit : U \in unitmx.
Proof. by apply: Um_unit u1 u2 u3; exact: one_ph1. Qed.

Lemma U_up (v : 'cV[C]_n2) i : up (U *m v) i = up v (tau i).
Proof. by rewrite Um_up /one_ph; rewrite !mul1r mul0r addr0. Qed.
Lemma U_dn (v : 'cV[C]_n2) i : dn (U *m v) i = dn v (tau i).
Proof. by rewrite Um_dn /one_ph; rewrite !mul1r mul0r add0r. Qed.

Lemma T_l k : T (lshift nh k) = lshift nh (tau k).
Proof. by rewrite /T (_ : split (lshift nh k) = inl k) // -[RHS]unsplitK. Qed.
Lemma T_r k : T (rshift nh k) = rshift nh (tau k).
Proof. by rewrite /T (_ : split (rshift nh k) = inr k) // -[RHS]unsplitK. Qed.

Lemma U_T (v : 'cV[C]_n2) i : (U *m v) i ord0 = v (T i) ord0.
Proof.
case: (split_ordP i) => k ->; rewrite ?T_l ?T_r.
- by rewrite -/(up (U *m v) k) U_up.
- by rewrite -/(dn (U *m v) k) U_dn.
Qed.

Definition bf (u v : 'cV[C]_n2) : C := \sum_i u i ord0 * v (T i) ord0.

Lemma bf_mx u v : bf u v = (u^T *m (U *m v)) ord0 ord0.
Proof. by rewrite mxE; apply: eq_bigr => i _; rewrite U_T mxE. Qed.

Lemma bfE u v : bf u v = \sum_i (up u i * up v (tau i) + dn u i * dn v (tau i)).
Proof.
rewrite /bf big_split_ord /= -big_split; apply: eq_bigr => i _ /=.
by rewrite T_l T_r.
Qed.

Definition adj (A1 A2 : 'M[C]_n2) : Prop := A1^T *m U = U *m A2.

Lemma bf_adj A1 A2 u v : adj A1 A2 -> bf (A1 *m u) v = bf u (A2 *m v).
Proof. by move=> h; rewrite !bf_mx trmx_mul -mulmxA (mulmxA A1^T) h -mulmxA. Qed.

Lemma bfZl c u v : bf (c *: u) v = c * bf u v.
Proof. by rewrite /bf mulr_sumr; apply: eq_bigr => i _; rewrite mxE mulrA. Qed.
Lemma bfZr c u v : bf u (c *: v) = c * bf u v.
Proof. by rewrite /bf mulr_sumr; apply: eq_bigr => i _; rewrite mxE mulrCA. Qed.
Lemma bfDl u u' v : bf (u + u') v = bf u v + bf u' v.
Proof. by rewrite /bf -big_split; apply: eq_bigr => i _; rewrite mxE mulrDl. Qed.
Lemma bfDr u v v' : bf u (v + v') = bf u v + bf u v'.
Proof. by rewrite /bf -big_split; apply: eq_bigr => i _; rewrite mxE mulrDr. Qed.
Lemma bfNl u v : bf (- u) v = - bf u v.
Proof. by rewrite -scaleN1r bfZl mulN1r. Qed.
Lemma bfNr u v : bf u (- v) = - bf u v.
Proof. by rewrite -scaleN1r bfZr mulN1r. Qed.

Variable omega : R.
Hypothesis omega_neq0 : rc omega != 0.

(** Paired layers: the operators of the second are the transposes of those of the first. *)
Definition paired l1 l2 : Prop :=
  thick0 l1 = thick0 l2 /\ q_ok l1 /\ q_ok l2 /\ adj (sl_Qeps l1) (sl_Qeps l2) /\
  exists P1 P2, adj P1 P2 /\ P1 *m sl_Qeps l1 *m sl_phi l1 = sl_phi l1 *m qsq l1 /\
    P2 *m sl_Qeps l2 *m sl_phi l2 = sl_phi l2 *m qsq l2.

Definition W l1 l2 p1 p2 z : C :=
  bf (mode_E omega l1 z p1) (mode_H l2 z p2) - bf (mode_H l1 z p1) (mode_E omega l2 z p2).

Lemma cderiv0_const (f : R -> C) : (forall z, cderiv f z 0) -> forall x y, f x = f y.
Proof.
move=> hd x y; apply/eqP; rewrite eq_complex; apply/andP; split; apply/eqP.
- by apply: (deriv0_const (f := fun t => complex.Re (f t))) => z; case: (hd z).
- by apply: (deriv0_const (f := fun t => complex.Im (f t))) => z; case: (hd z).
Qed.

Lemma cderiv_sub (f g : R -> C) z d e : cderiv f z d -> cderiv g z e -> cderiv (fun t => f t - g t) z (d - e).
Proof.
move=> hf hg; have := cderiv_add hf (cderiv_scale (-1) hg).
by rewrite mulN1r; apply: cderiv_ext => t; rewrite mulN1r.
Qed.

Lemma bf_deriv (f g : R -> 'cV[C]_n2) z df dg : vderiv f z df -> vderiv g z dg ->
  cderiv (fun t => bf (f t) (g t)) z (bf df (g z) + bf (f z) dg).
Proof.
move=> hf hg.
have hd i : cderiv (fun t => f t i ord0 * g t (T i) ord0) z
   (df i ord0 * g z (T i) ord0 + f z i ord0 * dg (T i) ord0).
  by apply: cderiv_mul; [exact: hf|exact: hg].
by have := cderiv_sum (index_enum _) hd; rewrite big_split.
Qed.

Lemma W_const l1 l2 p1 p2 z z' : paired l1 l2 -> W l1 l2 p1 p2 z = W l1 l2 p1 p2 z'.
Proof.
move=> [_ [q1 [q2 [hQ [P1 [P2 [hP [m1 m2]]]]]]]].
apply: (cderiv0_const (f := W l1 l2 p1 p2)) => t.
have dE1 := mode_E_deriv omega p1 t q1; have dE2 := mode_E_deriv omega p2 t q2.
have dH1 := mode_H_deriv omega_neq0 p1 t q1 m1; have dH2 := mode_H_deriv omega_neq0 p2 t q2 m2.
have k1 := bf_deriv dE1 dH2; have k2 := bf_deriv dH1 dE2.
have := cderiv_sub k1 k2; rewrite !bfZl !bfZr (bf_adj _ _ hQ) (bf_adj _ _ hP).
by rewrite [X in _ - X]addrC subrr.
Qed.

Lemma W_chain l1 l2 p1 p2 ls1 ls2 ps1 ps2 : List.Forall2 paired (l1 :: ls1) (l2 :: ls2) ->
  chain omega l1 p1 ls1 ps1 -> chain omega l2 p2 ls2 ps2 ->
  forall z z', W l1 l2 p1 p2 z = W (last l1 ls1) (last l2 ls2) (last p1 ps1) (last p2 ps2) z'.
Proof.
elim: ls1 l1 l2 p1 p2 ls2 ps1 ps2 => [|l1' ls1 IH] l1 l2 p1 p2 [|l2' ls2] ps1 ps2 hF.
- by case: ps1 => //; case: ps2 => // _ _ z z' /=; apply: W_const; inversion hF.
- by inversion hF; inversion H4.
- by inversion hF; inversion H4.
case: ps1 => [//|p1' ps1]; case: ps2 => [//|p2' ps2].
move=> [[mH1 mE1] c1] [[mH2 mE2] c2] z z'.
have hp : paired l1 l2 by inversion hF.
have ht : thick0 l1 = thick0 l2 by case: hp.
rewrite (W_const p1 p2 z (thick0 l1) hp) {1}/W mH1 mE1 ht mH2 mE2.
by rewrite -/(W l1' l2' p1' p2' 0); apply: IH c1 c2 0 z'; inversion hF.
Qed.
End Bil.

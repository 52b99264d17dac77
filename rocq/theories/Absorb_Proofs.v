(** Poynting's theorem for the computed fields. *)
From Coq Require Import Reals ZArith Lra Ranalysis FunctionalExtensionality.
From mathcomp Require Import all_ssreflect all_algebra.
From mathcomp Require Import complex.
From Verif Require Import RStruct Cplx Cderiv Base Fourier_Model Fourier_Spec Sim_Model Sim_Spec Setup_Model.
From Verif Require Import SMat_Proofs SMat_Proofs2 SMat_Proofs3 Maxwell_Spec Modes_Proofs Maxwell_Proofs.
From Verif Require Import Fourier_Proofs Energy_Spec Energy_Proofs Energy_Proofs2 Energy_Proofs3 Run_Proofs Flux_Proofs.
From Verif Require Import Grid_Model Grid_Spec Grid_Proofs Stress_Proofs Passive_Spec Passive_Proofs Absorb_Spec.

Set Implicit Arguments.
Unset Strict Implicit.
Unset Printing Implicit Defensive.

Import Order.TTheory GRing.Theory Num.Theory.
Local Open Scope ring_scope.
Local Open Scope complex_scope.

(** ** The fundamental theorem of calculus, for a derivative known pointwise *)
Lemma ftc (f d : R -> R) a b : (a <= b)%Re -> (forall z, derivable_pt_lim f z (d z)) -> continuity d ->
  integral d a b (f b - f a).
Proof.
move=> ab hd hc.
have der : derivable f by move=> z; exists (d z); exact: hd.
have e : derive f der = d.
  by apply: functional_extensionality=> z; rewrite /derive; apply: derive_pt_eq_0; exact: hd.
have hc' : continuity (derive f der) by rewrite e.
have pr : Riemann_integrable d a b by apply: continuity_implies_RiemannInt => // x _; exact: hc.
exists pr; move: pr; rewrite -e => pr.
exact: (FTC_Riemann (mkC1 hc') pr).
Qed.

Lemma integral_unique f a b v v' : integral f a b v -> integral f a b v' -> v = v'.
Proof. by move=> [p <-] [p' <-]; exact: RiemannInt_P5. Qed.

Lemma cderiv_cont (f : R -> C) : (forall z, exists d, cderiv f z d) -> continuity (fun z => complex.Im (f z)).
Proof.
move=> h z; have [d [_ hd]] := h z.
by apply: derivable_continuous_pt; exists (complex.Im d).
Qed.

Section Abstract.
Variable nh : nat.
Variable omega : R.
Hypothesis w0 : rc omega != 0.
Variables kx ky : 'rV[C]_nh.
Hypothesis kx_real : forall i, conj (kx ord0 i) = kx ord0 i.
Hypothesis ky_real : forall i, conj (ky ord0 i) = ky ord0 i.
Variable M : 'M[C]_nh.
Hypothesis uM : M \in unitmx.
Variable F : R -> fields nh.
Hypothesis hF : forall z, maxwell_at omega kx ky F (M *m f_ex (F z)) (M *m f_ey (F z)) (M *m f_ez (F z)) z.
Notation w := (rc omega).
Notation Kx := (diag_mx kx).
Notation Ky := (diag_mx ky).
Notation ex z := (f_ex (F z)).
Notation ey z := (f_ey (F z)).
Notation ez z := (f_ez (F z)).
Notation hx z := (f_hx (F z)).
Notation hy z := (f_hy (F z)).
Notation hz z := (f_hz (F z)).

Definition work z : C := dot (M *m ex z) (ex z) + dot (M *m ey z) (ey z) + dot (M *m ez z) (ez z).

Lemma fluxE (G : fields nh) : total_flux G = complex.Re (dot (f_ex G) (f_hy G) - dot (f_ey G) (f_hx G)).
Proof.
rewrite /total_flux /order_flux -Re_sum; congr complex.Re.
by rewrite /dot -sumrB.
Qed.

Lemma flux_deriv z : derivable_pt_lim (fun t => total_flux (F t)) z (- (omega * complex.Im (work z)))%Re.
Proof.
have [D1 [D2 [D3 [D4 _]]]] := derivs w0 uM hF z.
have [hRe _] := cderiv_sub (cderiv_dot D1 D4) (cderiv_dot D2 D3).
have -> : (fun t => total_flux (F t)) = (fun t => complex.Re (dot (ex t) (hy t) - dot (ey t) (hx t))).
  by apply: functional_extensionality=> t; rewrite fluxE.
apply: derivable_pt_lim_eq hRe.
have ci : conj 'i = - 'i by apply/eqP; rewrite eq_complex /= oppr0 !eqxx.
rewrite !(dotZl, dotZr) ci !(dotDl, dotDr, dotN, dotNr, dotZl, dotZr) rc_conj.
rewrite (dot_herm (ez z) (hy z) (herm_diag kx_real)) (dot_herm (ez z) (hx z) (herm_diag ky_real)).
rewrite -(dot_herm (ex z) (hz z) (herm_diag ky_real)) -(dot_herm (ey z) (hz z) (herm_diag kx_real)).
have e1 : dot (ez z) (Kx *m hy z) = dot (ez z) (Ky *m hx z) - w * dot (ez z) (M *m ez z).
  by rewrite (wdz hF) opprB addrC subrK.
have e2 : dot (Ky *m ex z) (hz z) = dot (Kx *m ey z) (hz z) - w * dot (hz z) (hz z).
  by rewrite -[w * _]dotZl (hzE hF) dotDl dotN opprD opprK addrA subrr add0r.
have [a ->] : exists a, dot (hx z) (hx z) = rc a by exists (complex.Re (dot (hx z) (hx z))); apply: realP; rewrite -dotC.
have [b ->] : exists a, dot (hy z) (hy z) = rc a by exists (complex.Re (dot (hy z) (hy z))); apply: realP; rewrite -dotC.
have [c e3] : exists a, dot (hz z) (hz z) = rc a by exists (complex.Re (dot (hz z) (hz z))); apply: realP; rewrite -dotC.
rewrite e1 e2 e3 /work ![dot _ (M *m _)]dotC.
move: (dot (ez z) (Ky *m hx z)) (dot (Kx *m ey z) (hz z)) => [p1 p2] [q1 q2].
move: (dot (M *m ex z) (ex z)) (dot (M *m ey z) (ey z)) (dot (M *m ez z) (ez z)) => [x1 x2] [y1 y2] [z1 z2] /=.
by rfold; ring.
Qed.

Lemma work_cont : continuity (fun z => complex.Im (work z)).
Proof.
apply: cderiv_cont => z; have [D1 [D2 [_ [_ [_ [_ D3]]]]]] := derivs w0 uM hF z.
by eexists; apply: cderiv_add; [apply: cderiv_add|]; apply: cderiv_dot; try (apply: vderiv_mul); eassumption.
Qed.

Lemma poynting_theorem a b : (a <= b)%Re ->
  integral (fun z => omega * complex.Im (work z))%Re a b (total_flux (F a) - total_flux (F b)).
Proof.
move=> ab.
have hc : continuity (fun z => omega * complex.Im (work z))%Re.
  by apply: continuity_mult; [exact: continuity_const|exact: work_cont].
have -> : (total_flux (F a) - total_flux (F b) = - total_flux (F b) - - total_flux (F a))%Re by ring.
apply: (@ftc (fun z => - total_flux (F z))%Re) => // z.
have -> : (omega * complex.Im (work z))%Re = Ropp (- (omega * complex.Im (work z)))%Re by ring.
exact: derivable_pt_lim_opp (flux_deriv z).
Qed.
End Abstract.

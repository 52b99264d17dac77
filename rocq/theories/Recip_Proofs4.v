(** Reciprocity: stacks. *)
From Coq Require Import Reals ZArith Lra.
From mathcomp Require Import all_ssreflect all_algebra fingroup perm.
From mathcomp Require Import complex.
From Verif Require Import RStruct Cplx Cderiv Base Fourier_Model Fourier_Spec Sim_Model Sim_Spec Setup_Model.
From Verif Require Import SMat_Proofs SMat_Proofs2 SMat_Proofs3 Maxwell_Spec Modes_Proofs Maxwell_Proofs.
From Verif Require Import Fourier_Proofs Energy_Spec Energy_Proofs Energy_Proofs2 Energy_Proofs3 Symm_Proofs2 Symm_Proofs3 Symm_Proofs5.
From Verif Require Import Recip_Spec Recip_Proofs Recip_Proofs2 Recip_Proofs3.

Set Implicit Arguments.
Unset Strict Implicit.
Unset Printing Implicit Defensive.

Import Order.TTheory GRing.Theory Num.Theory.
Local Open Scope ring_scope.
Local Open Scope complex_scope.

(** ** A solution read from below *)
Section Flip.
Variables (nh : nat) (omega : R).
Implicit Types (l : slayer nh) (p : amp nh).

Definition swap p : amp nh := (p.2, p.1).

Lemma swap_H l z p : mode_H l z (swap p) = mode_H l (thick0 l - z) p.
Proof.
rewrite /mode_H; apply: eq_bigr => m _; congr (_ *: _); rewrite addrC /fwd /bwd /=.
by rewrite opprB addrCA subrr addr0.
Qed.

Lemma swap_E l z p : mode_E omega l z (swap p) = - mode_E omega l (thick0 l - z) p.
Proof.
rewrite /mode_E -sumrN; apply: eq_bigr => m _; rewrite -scaleNr -mulNr opprB; congr ((_ / _) *: _).
by rewrite /fwd /bwd /= subKr.
Qed.

Lemma swap_matched l l' p p' : matched omega l l' p p' -> matched omega l' l (swap p') (swap p).
Proof.
move=> [hH hE]; rewrite /matched !swap_H !swap_E.
have -> : (thick0 l' - thick0 l')%Re = 0%Re by ring.
have -> : (thick0 l - 0)%Re = thick0 l by ring.
by rewrite hH hE.
Qed.

Lemma chain_catrev l p ls ps acc pacc : chain omega l p ls ps -> chain omega l (swap p) acc pacc ->
  is_solution omega (catrev ls (l :: acc)) (catrev (map swap ps) (swap p :: pacc)).
Proof.
elim: ls l p ps acc pacc => [|l' ls IH] l p [|p' ps] acc pacc //= [hm hc] ha.
by apply: IH => //; split=> //; apply: swap_matched.
Qed.

Lemma chain_rev l p ls ps : chain omega l p ls ps ->
  is_solution omega (rev (l :: ls)) (rev (map swap (p :: ps))).
Proof. by move=> hc; rewrite /rev /=; apply: chain_catrev. Qed.
End Flip.

Lemma mapr_rcons (A B : Type) (f : A -> res B) s x r : mapr f (rcons s x) = Ok r ->
  exists r' y, r = rcons r' y /\ mapr f s = Ok r' /\ f x = Ok y.
Proof.
elim: s r => [|a s IH] r /=.
- by move=> H; ubind H y hy; case: H => <-; exists [::], y.
- move=> H; ubind H b hb; ubind H bs hbs; case: H => <-.
  have [r' [y [-> [h1 h2]]]] := IH _ hbs.
  by exists (b :: r'), y; rewrite hb /= h1.
Qed.

Lemma mapr_rev (A B : Type) (f : A -> res B) s r : mapr f (rev s) = Ok r -> mapr f s = Ok (rev r).
Proof.
elim: s r => [|a s IH] r; first by move=> [<-].
rewrite rev_cons => H; have [r' [y [-> [h1 h2]]]] := mapr_rcons H.
by rewrite /= h2 /= (IH _ h1) /= rev_rcons.
Qed.

Lemma Forall2_last (A B : Type) (P : A -> B -> Prop) a b s t :
  List.Forall2 P (a :: s) (b :: t) -> P (last a s) (last b t).
Proof.
elim: s a b t => [|a' s IH] a b [|b' t] H.
- by inversion H.
- by inversion H as [|? ? ? ? h1 h2]; inversion h2.
- by inversion H as [|? ? ? ? h1 h2]; inversion h2.
- by inversion H as [|? ? ? ? h1 h2]; apply: (IH _ _ _ h2).
Qed.

Section Stack.
Variables (Nx Ny nh : nat).
Hypotheses (Nx0 : (0 < Nx)%N) (Ny0 : (0 < Ny)%N).
Variables eig1 eig2 : forall m, 'M[C]_m -> 'rV[C]_m * 'M[C]_m.
Hypothesis eig1_ok : forall m (A : 'M[C]_m), A *m (eig1 A).2 = (eig1 A).2 *m diag_mx (eig1 A).1.
Hypothesis eig2_ok : forall m (A : 'M[C]_m), A *m (eig2 A).2 = (eig2 A).2 *m diag_mx (eig2 A).1.
Variable omega : R.
Hypothesis omega_neq0 : rc omega != 0.
Variable h : 'I_nh -> order.
Variable form : formulation_t Nx Ny.
Hypothesis hform : plain_form form.
Variable tau : 'S_nh.
Hypothesis htau : forall i, h (tau i) = ((- (h i).1)%Zc, (- (h i).2)%Zc).
Variables kx1 ky1 kx2 ky2 : 'rV[C]_nh.
Hypothesis hkx : forall i, kx2 ord0 (tau i) = - kx1 ord0 i.
Hypothesis hky : forall i, ky2 ord0 (tau i) = - ky1 ord0 i.
Notation n2 := (nh + nh)%N.
Notation f1 := (fun li : layer_in Nx Ny => solve_layer eig1 omega kx1 ky1 h form (li_thick li) 1 (li_eps li)).
Notation f2 := (fun li : layer_in Nx Ny => solve_layer eig2 omega kx2 ky2 h form (li_thick li) 1 (li_eps li)).

Lemma stack_paired ls st1 st2 : (forall l, List.In l ls -> reciprocal (li_eps l)) ->
  mapr f1 ls = Ok st1 -> mapr f2 ls = Ok st2 ->
  (forall l, List.In l st1 -> q_ok l) -> (forall l, List.In l st2 -> q_ok l) ->
  List.Forall2 (paired tau) st1 st2.
Proof.
elim: ls st1 st2 => [|l ls IH] st1 st2 hr; first by move=> [<-] [<-] _ _; constructor.
move=> H1 H2; have [s1 [ss1 [-> [h1 m1]]]] := mapr_cons H1; have [s2 [ss2 [-> [h2 m2]]]] := mapr_cons H2.
move=> q1 q2.
constructor.
- apply: (layer_paired Nx0 Ny0 eig1_ok eig2_ok omega_neq0 hform htau hkx hky (hr l (or_introl erefl)) h1 h2).
  + by apply: q1; left.
  + by apply: q2; left.
- by apply: IH m1 m2 _ _ => *; [apply: hr|apply: q1|apply: q2]; right.
Qed.

Variables (l0 : layer_in Nx Ny) (rest : seq (layer_in Nx Ny)) (e0 eN : C).
Hypothesis he0 : li_eps l0 = EpsUniform Nx Ny e0.
Hypothesis heN : li_eps (last l0 rest) = EpsUniform Nx Ny eN.
Hypothesis hrec : forall l, List.In l (l0 :: rest) -> reciprocal (li_eps l).
Variables (s1 s2 : slayer nh) (ss1 ss2 : seq (slayer nh)).
Hypothesis hst1 : mapr f1 (l0 :: rest) = Ok (s1 :: ss1).
Hypothesis hst2 : mapr f2 (l0 :: rest) = Ok (s2 :: ss2).
Hypothesis hq1 : forall l, List.In l (s1 :: ss1) -> q_ok l.
Hypothesis hq2 : forall l, List.In l (s2 :: ss2) -> q_ok l.
Variables (p1 p2 : amp nh) (ps1 ps2 : seq (amp nh)).
Hypothesis hc1 : chain omega s1 p1 ss1 ps1.
Hypothesis hc2 : chain omega s2 p2 ss2 ps2.

Definition wt e (l : slayer nh) i : C :=
  cexp ('i * qu omega kx1 ky1 e i * rc (thick0 l)) / (rc omega * qu omega kx1 ky1 e i).

Lemma recip_sum :
  \sum_i (be omega kx1 ky1 tau e0 i p1.1 p2.2 - be omega kx1 ky1 tau e0 i p1.2 p2.1) * wt e0 s1 i =
  \sum_i (be omega kx1 ky1 tau eN i (last p1 ps1).1 (last p2 ps2).2 - be omega kx1 ky1 tau eN i (last p1 ps1).2 (last p2 ps2).1)
     * wt eN (last s1 ss1) i.
Proof.
have hF := stack_paired hrec hst1 hst2 hq1 hq2.
have [b1 [bs1 [[eb1 es1] [t1 _]]]] := mapr_cons hst1; rewrite -eb1 he0 in t1.
have [b2 [bs2 [[eb2 es2] [t2 _]]]] := mapr_cons hst2; rewrite -eb2 he0 in t2.
have n1 := mapr_last hst1; have n2' := mapr_last hst2; rewrite /= heN in n1 n2'.
have ht : thick0 s1 = thick0 s2 by inversion hF as [|? ? ? ? hp]; case: hp.
have htN : thick0 (last s1 ss1) = thick0 (last s2 ss2).
  by case: (Forall2_last hF).
have := W_chain omega_neq0 hF hc1 hc2 0 0.
rewrite (W_uniform hkx hky t1 t2 p1 p2 ht) (W_uniform hkx hky n1 n2' _ _ htN).
have two : (2%:R : C) != 0 by rewrite pnatr_eq0.
move=> /(mulfI two) H; under eq_bigr do rewrite /wt mulrA; rewrite H.
by under [RHS]eq_bigr do rewrite /wt mulrA.
Qed.
End Stack.

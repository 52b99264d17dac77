(** The scattering matrix does not depend on which eigenvectors the eigensolver
    returns; replacing a layer by one with the same field space. *)
From Coq Require Import Reals ZArith Lra.
From mathcomp Require Import all_ssreflect all_algebra.
From mathcomp Require Import complex.
From Verif Require Import RStruct Cplx Cderiv Base Fourier_Model Fourier_Spec Sim_Model Sim_Spec Setup_Model.
From Verif Require Import SMat_Proofs SMat_Proofs2 SMat_Proofs3 Maxwell_Spec Modes_Proofs Maxwell_Proofs.
From Verif Require Import Fourier_Proofs Energy_Spec Energy_Proofs Energy_Proofs2 Energy_Proofs3.

Set Implicit Arguments.
Unset Strict Implicit.
Unset Printing Implicit Defensive.

Import Order.TTheory GRing.Theory Num.Theory.
Local Open Scope ring_scope.
Local Open Scope complex_scope.

Lemma diag_comm m (d e : 'rV[C]_m) (W : 'M[C]_m) : diag_mx d *m W = W *m diag_mx e ->
  forall i j, d ord0 i * W i j = W i j * e ord0 j.
Proof.
move=> H i j; have := congr1 (fun M : 'M[C]_m => M i j) H.
by rewrite mul_diag_mx mul_mx_diag !mxE.
Qed.

Lemma phase_alg (a : C) (t z : R) : 'i * - a * rc t + 'i * a * rc z = 'i * - a * rc (t - z).
Proof. by rewrite rmorphB mulrBr mulrN !mulNr opprK. Qed.
Lemma phase_alg' (a : C) (t z : R) : 'i * - a * rc t + 'i * a * rc (t - z) = 'i * - a * rc z.
Proof. by rewrite rmorphB mulrBr mulrN !mulNr addKr. Qed.

Section Basis.
Variable nh : nat.
Variable omega : R.
Hypothesis omega_neq0 : rc omega != 0.
Notation n2 := (nh + nh)%N.
Notation slayer := (slayer nh).
Notation amp := (amp nh).
Implicit Types (l : slayer) (p : amp).

(** Every field of l' is a field of l. *)
Definition covers l l' : Prop := thick0 l = thick0 l' /\ forall p', exists p, forall z,
  mode_H l z p = mode_H l' z p' /\ mode_E omega l z p = mode_E omega l' z p'.

Lemma covers_refl l : covers l l.
Proof. by split=> // p; exists p. Qed.

Section Change.
Variables (l l' : slayer) (A : 'M[C]_n2).
Hypothesis ht : thick0 l = thick0 l'.
Hypothesis hQ : sl_Qeps l = sl_Qeps l'.
Hypothesis hA : A *m sl_phi l = sl_phi l *m qsq l.
Hypothesis hA' : A *m sl_phi l' = sl_phi l' *m qsq l'.
Hypothesis hphi : sl_phi l \in unitmx.
Hypotheses (hq : q_ok l) (hq' : q_ok l').
Let V := invmx (sl_phi l) *m sl_phi l'.
Let q i := sl_q l ord0 i.
Let q' i := sl_q l' ord0 i.

Lemma phiV : sl_phi l' = sl_phi l *m V.
Proof. by rewrite /V mulmxA mulmxV // mul1mx. Qed.

Lemma V_comm : qsq l *m V = V *m qsq l'.
Proof.
apply: (can_inj (mulKmx hphi)); by rewrite mulmxA -hA -mulmxA -phiV hA' [in LHS]phiV -mulmxA.
Qed.

Lemma V_entry i j : V i j = 0 \/ q' j = q i \/ q' j = - q i.
Proof.
have := diag_comm V_comm i j; rewrite [(\row__ _) _ _]mxE [(\row__ _) _ _ in RHS]mxE -/(q i) -/(q' j) => H.
have : V i j * ((q' j - q i) * (q' j + q i)) = 0.
  transitivity (V i j * (q' j) ^+ 2 - q i ^+ 2 * V i j); last by rewrite H subrr.
  by cring.
move/eqP; rewrite !mulf_eq0 => /orP [/eqP ->|/orP [|]]; first by left.
- by rewrite subr_eq0 => /eqP ->; right; left.
- by rewrite addr_eq0 => /eqP ->; right; right.
Qed.


(** phase factors across the layer *)
Let ph j := cexp ('i * q' j * rc (thick0 l')).
Definition conv_amp (p' : amp) : amp :=
  (\col_i \sum_j V i j * (if q' j == q i then p'.1 j ord0 else ph j * p'.2 j ord0),
   \col_i \sum_j V i j * (if q' j == q i then p'.2 j ord0 else ph j * p'.1 j ord0)).

Lemma conv_fwd p' z i : fwd l z (conv_amp p') i =
  \sum_j V i j * (if q' j == q i then fwd l' z p' j else bwd l' z p' j).
Proof.
rewrite /fwd mxE mulr_suml; apply: eq_bigr => j _; rewrite -[X in X = _]mulrA; case: eqP => [e|hn].
  by rewrite -/(q i) -/(q' j) e.
case: (V_entry i j) => [->|[//|e]]; first by rewrite !mul0r.
congr (_ * _); rewrite /bwd mulrAC mulrC; congr (_ * _); rewrite /ph -cexpD -/(q' j) -/(q i); congr cexp.
by rewrite e (phase_alg (q i)).
Qed.

Lemma conv_bwd p' z i : bwd l z (conv_amp p') i =
  \sum_j V i j * (if q' j == q i then bwd l' z p' j else fwd l' z p' j).
Proof.
rewrite /bwd mxE mulr_suml; apply: eq_bigr => j _; rewrite -[X in X = _]mulrA; case: eqP => [e|hn].
  by rewrite -/(q i) -/(q' j) e ht.
case: (V_entry i j) => [->|[//|e]]; first by rewrite !mul0r.
congr (_ * _); rewrite /fwd mulrAC mulrC; congr (_ * _); rewrite /ph -cexpD -/(q' j) -/(q i) ht; congr cexp.
by rewrite e (phase_alg' (q i)).
Qed.

Lemma conv_H p' z : mode_H l z (conv_amp p') = mode_H l' z p'.
Proof.
rewrite !mode_HE phiV -mulmxA; congr (_ *m _); apply/colP => i.
rewrite mxE [X in X + _]mxE [X in _ + X]mxE conv_fwd conv_bwd mxE -big_split; apply: eq_bigr => j _ /=.
by rewrite -mulrDr !mxE; case: ifP => _ //; rewrite addrC.
Qed.

Lemma conv_E p' z : mode_E omega l z (conv_amp p') = mode_E omega l' z p'.
Proof.
rewrite !mode_EE -hQ; congr (_ *: _); rewrite -!mulmxA; congr (_ *m _).
rewrite !scale_cols_mul phiV -mulmxA; congr (_ *m _); apply/colP => i.
rewrite mxE [X in X * _]mxE [X in (X + _) * _]mxE [X in (_ + X) * _]mxE [X in (_ - X) * _]mxE conv_fwd conv_bwd [RHS]mxE -sumrB mulr_suml; apply: eq_bigr => j _ /=.
have := V_entry i j; move: (V i j) => v hv; rewrite -mulrBr -mulrA !mxE -/(q i) -/(q' j).
case: eqP => [-> //|hn]; case: hv => [->|[//|e]]; first by rewrite !mul0r.
by rewrite e invrN mulrN -mulNr opprB.
Qed.

Lemma change_covers : covers l l'.
Proof. by split=> // p'; exists (conv_amp p') => z; split; [apply: conv_H|apply: conv_E]. Qed.

End Change.

(** Transporting solutions of a stack. *)
Lemma covers_chain l l' ls ls' p p' ps' :
  size ls = size ls' ->
  (forall k, (k < size ls)%N -> covers (nth l ls k) (nth l ls' k)) ->
  (forall z, mode_H l z p = mode_H l' z p' /\ mode_E omega l z p = mode_E omega l' z p') ->
  thick0 l = thick0 l' ->
  (ls <> [::] -> last l ls = last l' ls') -> (ls = [::] -> l = l' /\ p = p') ->
  chain omega l' p' ls' ps' ->
  exists ps, chain omega l p ls ps /\ size ps = size ps' /\ last p ps = last p' ps' /\
   forall k z, (k < size ls)%N -> mode_H (nth l ls k) z (nth p ps k) = mode_H (nth l ls' k) z (nth p ps' k) /\
     mode_E omega (nth l ls k) z (nth p ps k) = mode_E omega (nth l ls' k) z (nth p ps' k).
Proof.
elim: ls l l' ls' p p' ps' => [|k ls IH] l l' [|k' ls'] p p' [|r' ps'] //= hs hc hf ht hl hn.
  by move=> _; exists [::]; have [_ ->] := hn erefl.
move=> [[mH mE] ch].
have ck : covers k k' by apply: (hc 0%N).
have hc' j : (j < size ls)%N -> covers (nth k ls j) (nth k ls' j).
  move=> hj; have := hc j.+1 hj; rewrite /= (set_nth_default k) // [X in covers _ X](set_nth_default k) //.
  by case: hs => <-.
have [r [fr lr]] : exists r, (forall z, mode_H k z r = mode_H k' z r' /\ mode_E omega k z r = mode_E omega k' z r')
   /\ (ls = [::] -> k = k' /\ r = r').
  case E : ls => [|k2 ls2]; last by have [_ /(_ r') [r hr]] := ck; exists r.
  have : last k ls = last k' ls' by apply: hl.
  move: hs; rewrite E; case: {hc hc' hl IH ch} ls' => [|//] /= _ -> ; by exists r'.
have hs' : size ls = size ls' by case: hs.
have hl' : ls <> [::] -> last k ls = last k' ls'.
  by move=> _; apply: hl.
have [ps [cps [sps [lps fps]]]] := IH _ _ ls' r r' ps' hs' hc' fr (proj1 ck) hl' lr ch.
have sch : size ps' = size ls'.
  by move: ch; clear; elim: ls' k' r' ps' => [|a s IH] k' r' [|b t] //= [_ /IH ->].
exists (r :: ps); split; last first.
  rewrite /= sps; split=> //; split=> // -[|j] z /= hj; first exact: fr.
  have := fps j z hj.
  rewrite (set_nth_default l) // [nth k ls' j](set_nth_default l) -?hs' //.
  rewrite [nth r ps j](set_nth_default p) ?sps ?sch -?hs' //.
  by rewrite [nth r ps' j](set_nth_default p) ?sch -?hs'.
split=> //; split.
- have [-> _] := hf (thick0 l); have [-> _] := fr 0; by rewrite ht.
- have [_ ->] := hf (thick0 l); have [_ ->] := fr 0; by rewrite ht.
Qed.

Lemma covers_solves l ls ls' a0 bN ps' :
  size ls = size ls' ->
  (forall k, (k < size ls)%N -> covers (nth l ls k) (nth l ls' k)) ->
  last l ls = last l ls' ->
  solves omega (l :: ls') a0 bN ps' ->
  exists ps, solves omega (l :: ls) a0 bN ps /\ head (0, 0) ps = head (0, 0) ps' /\ last (0, 0) ps = last (0, 0) ps' /\
   forall k z, (k <= size ls)%N ->
     mode_H (nth l (l :: ls) k) z (nth (0, 0) ps k) = mode_H (nth l (l :: ls') k) z (nth (0, 0) ps' k) /\
     mode_E omega (nth l (l :: ls) k) z (nth (0, 0) ps k) = mode_E omega (nth l (l :: ls') k) z (nth (0, 0) ps' k).
Proof.
move=> hs hc hl [sol [ha hb]]; case: ps' sol ha hb => [|p' ps'] //= sol ha hb.
have [//|//|//|//|ps [cps [sps [lps fps]]]] := @covers_chain l l ls ls' p' p' ps' hs hc _ _ _ _ sol.
have sch : size ps' = size ls'.
  by move: sol; clear; elim: ls' l p' ps' => [|a s IH] k' r' [|b t] //= [_ /IH ->].
exists (p' :: ps); rewrite /solves /= lps; split; first by split.
split=> //; split=> // -[|k] z //= hk; have := fps k z hk.
rewrite (set_nth_default (0, 0)) ?sps ?sch -?hs //.
by rewrite [nth p' ps' k](set_nth_default (0, 0)) ?sch -?hs.
Qed.

Lemma mx_ext m k (M N : 'M[C]_(m, k)) : (forall v : 'cV[C]_k, M *m v = N *m v) -> M = N.
Proof.
move=> H; apply/matrixP => i j; have := H (delta_mx j ord0).
by rewrite -!colE => /colP /(_ i); rewrite !mxE.
Qed.

Lemma covers_smatrix l ls ls' S S' :
  size ls = size ls' ->
  (forall k, (k < size ls)%N -> covers (nth l ls k) (nth l ls' k)) ->
  last l ls = last l ls' ->
  smatrix (l :: ls) = Ok S -> smatrix (l :: ls') = Ok S' -> S = S'.
Proof.
move=> hs hc hl hS hS'.
have key (a b : 'cV[C]_n2) : S11 S *m a + S12 S *m b = S11 S' *m a + S12 S' *m b /\
               S21 S *m a + S22 S *m b = S21 S' *m a + S22 S' *m b.
  have [ps' hps'] := smatrix_exists omega_neq0 a b hS'.
  have [ps [hps [eh [el _]]]] := covers_solves hs hc hl hps'.
  have [<- <-] := smatrix_sound omega_neq0 hS hps.
  have [<- <-] := smatrix_sound omega_neq0 hS' hps'.
  by rewrite eh el.
have e1 : S11 S = S11 S' by apply: mx_ext => v; have [+ _] := key v 0; rewrite !mulmx0 !addr0.
have e2 : S21 S = S21 S' by apply: mx_ext => v; have [_ +] := key v 0; rewrite !mulmx0 !addr0.
have e3 : S12 S = S12 S' by apply: mx_ext => v; have [+ _] := key 0 v; rewrite !mulmx0 !add0r.
have e4 : S22 S = S22 S' by apply: mx_ext => v; have [_ +] := key 0 v; rewrite !mulmx0 !add0r.
by case: S S' e1 e2 e3 e4 {hS hS' key} => ? ? ? ? [? ? ? ?] /= -> -> -> ->.
Qed.

End Basis.

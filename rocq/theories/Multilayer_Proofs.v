(** Stacks of homogeneous layers: one order and one polarisation at a time. *)
From Coq Require Import Reals ZArith Lra.
From mathcomp Require Import all_ssreflect all_algebra.
From mathcomp Require Import complex.
From Verif Require Import RStruct Cplx Base Fourier_Model Sim_Model Sim_Spec Setup_Model SMat_Proofs.
From Verif Require Import Maxwell_Spec Modes_Proofs Energy_Spec Energy_Proofs Energy_Proofs2 Energy_Proofs3.
From Verif Require Import Orders_Model Orders_Proofs Passive_Proofs Recip_Proofs3 Optics_Spec Multilayer_Spec.

Set Implicit Arguments.
Unset Strict Implicit.
Unset Printing Implicit Defensive.

Import Order.TTheory GRing.Theory Num.Theory.
Local Open Scope ring_scope.
Local Open Scope complex_scope.

Lemma two_neq0 : (2%:R : C) != 0. Proof. by rewrite pnatr_eq0. Qed.
Lemma i_neq0 : ('i : C) != 0. Proof. by apply/eqP=> -[/eqP]; rewrite oner_eq0. Qed.
Lemma i_sq : ('i : C) * 'i = -1.
Proof. by apply/eqP; rewrite eq_complex /=; apply/andP; split; apply/eqP; rfold; ring. Qed.

(** A wave pair through a layer *)
Lemma transfer (q n f b : C) (d : R) : n != 0 ->
  let X := cexp ('i * q * rc d) in let del := q * rc d in
  let H0 := f + b * X in let E0 := (f - b * X) / n in
  let Hd := f * X + b in let Ed := (f * X - b) / n in
  E0 = ccos del * Ed - 'i * csin del / n * Hd /\ H0 = - 'i * n * csin del * Ed + ccos del * Hd.
Proof.
move=> n0 X del H0 E0 Hd Ed.
have X0 : X != 0 by exact: cexp_neq0.
have e1 : cexp ('i * del) = X by rewrite /X /del mulrA.
have e2 : cexp (- ('i * del)) = X^-1 by rewrite cexpN e1.
rewrite /ccos /csin e1 e2 /E0 /H0 /Ed /Hd; clear E0 H0 Ed Hd e1 e2 del; clearbody X.
move: X0 n0 two_neq0 i_neq0 => /eqP X0 /eqP n0; rewrite Cnat2 => /eqP t0 /eqP I0.
by split; cfield; (do !split) => //; exact: t0.
Qed.

Section Order.
Variables (Nx Ny nh : nat).
Variable eig : forall m, 'M[C]_m -> 'rV[C]_m * 'M[C]_m.
Variable omega : R.
Hypothesis omega_neq0 : rc omega != 0.
Variables kx ky : 'rV[C]_nh.
Variable h : 'I_nh -> order.
Variable form : formulation_t Nx Ny.
Variable i : 'I_nh.
Notation n2 := (nh + nh)%N.
Notation w2 := (omega2 omega).
Notation sol := (fun li : layer_in Nx Ny => solve_layer eig omega kx ky h form (li_thick li) 1 (li_eps li)).
Notation qu e := (qu omega kx ky e i).

(** A component of the tangential vectors of order [i] that is an eigenvector of Q
    in every homogeneous medium *)
Variables al be : C.
Definition comp (v : 'cV[C]_n2) : C := al * up v i + be * dn v i.
Variable kap : C -> C.
Hypothesis kapP : forall e t l v, e != 0 ->
  solve_layer eig omega kx ky h form t 1 (EpsUniform Nx Ny e) = Ok l ->
  comp (sl_Qeps l *m v) = kap e * comp v.
Definition et (e : C) : C := rc omega * qu e / kap e.

Lemma compD u v : comp (u + v) = comp u + comp v.
Proof. by rewrite /comp /up /dn !mxE; cring. Qed.
Lemma compB u v : comp (u - v) = comp u - comp v.
Proof. by rewrite /comp /up /dn !mxE; cring. Qed.
Lemma comp0 : comp 0 = 0.
Proof. by rewrite /comp /up /dn !mxE; cring. Qed.

Section L.
Variables (t : option R) (e : C) (l : slayer nh).
Hypothesis hl : solve_layer eig omega kx ky h form t 1 (EpsUniform Nx Ny e) = Ok l.
Hypothesis hq : q_ok l.
Hypothesis kn : kap e != 0.

Lemma ue : e != 0.
Proof. by move: hl; rewrite /solve_layer /build_matrix; case: eqP => //= /eqP. Qed.
Lemma uq : qu e != 0.
Proof. by have [_ [<- _]] := u_data hl; move/forallP: hq; apply. Qed.
Lemma ut : thick0 l = odflt 0 t.
Proof. by move: hl; rewrite /solve_layer /build_matrix (negPf ue) /= => -[<-]. Qed.
Lemma en : et e != 0.
Proof. by rewrite /et !mulf_neq0 ?invr_eq0 // uq. Qed.

Lemma comp_tr z p : comp (trp l z p).1 = comp p.1 * cexp ('i * qu e * rc z) /\
  comp (trp l z p).2 = comp p.2 * cexp ('i * qu e * rc (thick0 l - z)).
Proof.
have [_ [q1 [q2 _]]] := u_data hl.
by split; rewrite /comp /up /dn !mxE /fwd /bwd q1 q2; cring.
Qed.

Lemma comp_H z p : comp (mode_H l z p) =
  comp p.1 * cexp ('i * qu e * rc z) + comp p.2 * cexp ('i * qu e * rc (thick0 l - z)).
Proof. by rewrite (u_H hl) compD; have [-> ->] := comp_tr z p. Qed.

Lemma comp_E z p : comp (mode_E omega l z p) =
  (comp p.1 * cexp ('i * qu e * rc z) - comp p.2 * cexp ('i * qu e * rc (thick0 l - z))) / et e.
Proof.
rewrite {1}/comp; have [-> ->] := u_E hl z p i.
have [<- <-] := comp_tr z p; rewrite -compB.
move: ((trp l z p).1 - (trp l z p).2) => v.
rewrite !mulrA -mulrDl -/(comp (sl_Qeps l *m v)) (kapP v ue hl) /et.
move: omega_neq0 uq kn => /eqP a /eqP b /eqP c.
by cfield; do !split.
Qed.

Lemma through p :
  let del := qu e * rc (thick0 l) in
  comp (mode_E omega l 0 p) = ccos del * comp (mode_E omega l (thick0 l) p)
     - 'i * csin del / et e * comp (mode_H l (thick0 l) p) /\
  comp (mode_H l 0 p) = - 'i * et e * csin del * comp (mode_E omega l (thick0 l) p)
     + ccos del * comp (mode_H l (thick0 l) p).
Proof.
have := transfer (qu e) (comp p.1) (comp p.2) (thick0 l) en.
rewrite /= !comp_H !comp_E !subr0 !subrr !mulr0 cexp0 !mulr1; exact.
Qed.
End L.

Definition mk (ed : C * R) : layer_in Nx Ny := LayerIn (Some ed.2) (EpsUniform Nx Ny ed.1).

Fixpoint asm (ls : seq (C * R)) (eN : C) : C * C :=
  match ls with
  | [::] => (1, et eN)
  | (e, d) :: ls' =>
      let f := asm ls' eN in
      let delta := qu e * rc d in
      (ccos delta * f.1 - 'i * csin delta / et e * f.2,
       - 'i * et e * csin delta * f.1 + ccos delta * f.2)
  end.

Variables (tN : option R) (eN : C).
Hypothesis knz : forall e t l, solve_layer eig omega kx ky h form t 1 (EpsUniform Nx Ny e) = Ok l ->
  q_ok l -> kap e != 0.

Lemma top mid : forall l st p ps,
  mapr sol ([seq mk ed | ed <- mid] ++ [:: LayerIn tN (EpsUniform Nx Ny eN)]) = Ok (l :: st) ->
  (forall l', l' = l \/ List.In l' st -> q_ok l') ->
  chain omega l p st ps -> (last p ps).2 = 0 ->
  let X := comp (last p ps).1 / et eN in
  et eN != 0 /\
  comp (mode_E omega l 0 p) = (asm mid eN).1 * X /\ comp (mode_H l 0 p) = (asm mid eN).2 * X.
Proof.
elim: mid => [|[e d] mid IH] l st p ps.
- rewrite [_ ++ _]/= => hm hq.
  have [l1 [st1 [[e1 e2] [h1 h2]]]] := mapr_cons hm; subst l1 st1.
  move: h2 => -[?]; subst st; case: ps => [|? ?] // _ hp X.
  have ql : q_ok l by apply: hq; left.
  have kn := knz h1 ql; have en0 := en h1 ql kn.
  split=> //; rewrite (comp_E h1 ql kn) (comp_H h1) /= /X /= hp comp0 !mul0r subr0 addr0 mulr0 cexp0 mulr1 mul1r.
  by rewrite mulrCA divff // mulr1.
- rewrite [_ ++ _]/= => hm hq.
  have [l1 [st1 [[e1 e2] [h1 h2]]]] := mapr_cons hm; subst l1 st1.
  case: st hm hq h2 => [|l' st] hm hq h2.
    by move: h2; case: (mid) => [|a s] h2; have [? [? [? _]]] := mapr_cons h2.
  case: ps => [|p' ps] //= [[mH mE] hc] hp.
  have [en0 [iE iH]] := IH l' st p' ps h2 (fun l'' hl'' => hq l'' (or_intror (match hl'' with or_introl a => or_introl (esym a) | or_intror b => or_intror b end))) hc hp.
  have ql : q_ok l by apply: hq; left.
  have kn := knz h1 ql.
  split=> //; have [tE tH] := through h1 ql kn p.
  have hd : thick0 l = d by rewrite (ut h1).
  rewrite tE tH mH mE iE iH hd; clear.
  by split; rewrite ?mulrBl ?mulrDl -!mulrA.
Qed.

Lemma whole t0 e0 mid l0 l st p0 p ps :
  solve_layer eig omega kx ky h form t0 1 (EpsUniform Nx Ny e0) = Ok l0 ->
  mapr sol ([seq mk ed | ed <- mid] ++ [:: LayerIn tN (EpsUniform Nx Ny eN)]) = Ok (l :: st) ->
  (forall l', l' = l0 \/ List.In l' (l :: st) -> q_ok l') ->
  chain omega l0 p0 (l :: st) (p :: ps) -> (last p ps).2 = 0 ->
  let X := comp (last p ps).1 / et eN in let f := asm mid eN in
  [/\ et e0 != 0, et eN != 0,
   2%:R * (comp p0.1 * cexp ('i * qu e0 * rc (thick0 l0))) = (et e0 * f.1 + f.2) * X &
   2%:R * comp p0.2 = (f.2 - et e0 * f.1) * X].
Proof.
move=> h0 hm hq [[mH mE] hc] hp X f.
have q0 : q_ok l0 by apply: hq; left.
have k0 := knz h0 q0; have e0n := en h0 q0 k0.
have [en0 [iE iH]] : et eN != 0 /\ comp (mode_E omega l 0 p) = f.1 * X /\ comp (mode_H l 0 p) = f.2 * X.
  apply: (top hm _ hc hp) => l' hl'; apply: hq; right; case: hl' => [->|?]; [by left|by right].
split=> //.
- rewrite [RHS]mulrDl -[et e0 * f.1 * X]mulrA -iE -iH -mE -mH (comp_E h0 q0 k0) (comp_H h0) subrr mulr0 cexp0 mulr1.
  by move: e0n => /eqP e0n; cfield.
- rewrite [RHS]mulrBl -[et e0 * f.1 * X]mulrA -iE -iH -mE -mH (comp_E h0 q0 k0) (comp_H h0) subrr mulr0 cexp0 mulr1.
  by move: e0n => /eqP e0n; cfield.
Qed.
End Order.

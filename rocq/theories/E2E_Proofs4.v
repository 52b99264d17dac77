(** Reciprocity of whole simulations. *)
From Coq Require Import Reals ZArith String Lra Lia Permutation.
From Verif Require Lattice_Model Lattice_Spec Lattice_Proofs3 Init_Model Init_Proofs Init_Proofs2 Props_Init.
From mathcomp Require Import all_ssreflect all_algebra.
From mathcomp Require Import complex.
From Verif Require Import RStruct Cplx Base Fourier_Model Fourier_Spec Sim_Model Setup_Model E2E_Model Energy_Spec Recip_Spec E2E_Spec.
From Verif Require Import Fourier_Proofs Props_Recip E2E_Proofs E2E_Proofs2.

Set Implicit Arguments.
Unset Strict Implicit.
Unset Printing Implicit Defensive.

Import Order.TTheory GRing.Theory Num.Theory.
Local Open Scope ring_scope.
Local Open Scope complex_scope.

Section Recip.
Variables (Nx Ny : nat).
Hypotheses (Nx0 : (0 < Nx)%N) (Ny0 : (0 < Ny)%N).
Variable eig : forall m, 'M[C]_m -> 'rV[C]_m * 'M[C]_m.
Hypothesis eig_ok : forall m (A : 'M[C]_m), A *m (eig A).2 = (eig A).2 *m diag_mx (eig A).1.
Variable argsort : seq R -> seq nat.
Hypothesis hsort : Lattice_Model.argsort_ok argsort.
Variable tan : string -> 'M[C]_(Nx, Ny) -> res ('M[C]_(Nx, Ny) * 'M[C]_(Nx, Ny)).
Variable lattices : nat -> Lattice_Model.lattice.
Variables (l0 : user_layer Nx Ny) (rest : seq (user_layer Nx Ny)) (nh : Z) (form : string).
Notation lat := (lattices (ul_lat l0)).
Hypothesis hgen : Lattice_Proofs3.generates lat.
Hypothesis hnh : enough l0 rest nh.
Notation simulate := (simulate eig argsort tan lattices).
Hypothesis hform : form = "original"%string \/ (form = "tangent"%string /\ Lattice_Model.lt_is1D lat = true).
Variable e0 : R.
Hypothesis e0p : (0 < e0)%Re.
Hypothesis he0 : li_eps (ul_body l0) = EpsUniform Nx Ny (rc e0).
Hypothesis hrec : forall l, List.In l (l0 :: rest) -> reciprocal (li_eps (ul_body l)).
Variables pa pb pc pd : planewave.
Hypothesis lam : (0 < pw_lambda pa)%Re.
Hypothesis cth : (0 < cos (pw_theta pa))%Re.
Hypotheses (hab : crossed pb pa) (hcd : crossed pd pc).

(** All runs of a simulation whose construction is accepted. *)
Lemma runs_of s pw out : Init_Model.sim_init argsort lattices (List.map (@to_py Nx Ny) (l0 :: rest)) nh form = Ok s ->
  simulate (l0 :: rest) pw nh form = Ok out ->
  exists n (i0 : 'I_n) (r : effs n) (G := Init_Model.sim_harmonics s),
   [/\ n = Z.to_nat (Init_Model.sim_nh s) /\ val i0 = Init_Model.sim_index0 s, size G = n,
       [/\ injective (@harm n G), opposite_closed (@harm n G) & harm G i0 = (0%Zc, 0%Zc)],
       run_efficiencies eig pw (recip_mx (Init_Model.sim_recip s)) (harm G)
         (choose_form tan form (Lattice_Model.lt_is1D lat)) (List.map (@ul_body Nx Ny) (l0 :: rest)) i0 = Ok r &
       out = listing G r].
Proof.
move=> hs /simulateP [s' [n [i0 [r [hs' [hn sz] hi hr ho]]]]].
rewrite hs in hs'; case: hs' => es; subst s'.
have hl := layers_lattice hs (or_introl erefl : List.In l0 (l0 :: rest)).
have hg : Lattice_Proofs3.generates (Init_Model.sim_lattice s) by rewrite hl.
have [w1 [w2 [w3 [w4 [w5 [w6 _]]]]]] := Init_Proofs2.init_facts hsort _ _ _ hs hg (enoughP hnh).
exists n, i0, r => G; split=> //; last by rewrite -hl -w6.
split; [exact: harm_inj|exact: harm_opp|].
by have [_] := nth_errorP (0%Zc, 0%Zc) w5; rewrite /harm hi.
Qed.

Lemma zeroth_line n (G : seq order) (i0 : 'I_n) (r : effs n) x : injective (@harm n G) -> harm G i0 = (0%Zc, 0%Zc) ->
  List.In ((0%Zc, 0%Zc), x) (listing G r) -> x.1 = r.1 i0 ord0 /\ x.2 = r.2 i0 ord0.
Proof. by move=> hinj h0 /in_listing [i [hi -> ->]]; rewrite (hinj i i0) // hi h0. Qed.

Lemma sim_reflection (eN : C) outa outb outc outd xa xb xc xd :
  li_eps (ul_body (last l0 rest)) = EpsUniform Nx Ny eN -> reversed pc pa ->
  simulate (l0 :: rest) pa nh form = Ok outa -> simulate (l0 :: rest) pb nh form = Ok outb ->
  simulate (l0 :: rest) pc nh form = Ok outc -> simulate (l0 :: rest) pd nh form = Ok outd ->
  List.In ((0%Zc, 0%Zc), xa) outa -> List.In ((0%Zc, 0%Zc), xb) outb ->
  List.In ((0%Zc, 0%Zc), xc) outc -> List.In ((0%Zc, 0%Zc), xd) outd ->
  (xa.1 + xb.1 = xc.1 + xd.1)%Re.
Proof.
move=> heN hac Ha; have [s [_ [_ [_ [hs _ _ _ _]]]]] := simulateP Ha; move: Ha.
move=> /(runs_of hs) [n [i0 [ra [[en hi] sz [hinj hopp h0] hra ->]]]].
move=> /(runs_of hs) [n2 [i2 [rb [[en2 hi2] _ _ hrb ->]]]].
move=> /(runs_of hs) [n3 [i3 [rc' [[en3 hi3] _ _ hrc ->]]]].
move=> /(runs_of hs) [n4 [i4 [rd [[en4 hi4] _ _ hrd ->]]]].
have e2 : n = n2 by rewrite en en2.
have e3 : n = n3 by rewrite en en3.
have e4 : n = n4 by rewrite en en4.
clear en en2 en3 en4; destruct e2, e3, e4.
have ei2 : i2 = i0 by apply: val_inj; rewrite /= hi hi2.
have ei3 : i3 = i0 by apply: val_inj; rewrite /= hi hi3.
have ei4 : i4 = i0 by apply: val_inj; rewrite /= hi hi4.
subst i2 i3 i4.
move=> /(zeroth_line hinj h0) [-> _] /(zeroth_line hinj h0) [-> _] /(zeroth_line hinj h0) [-> _] /(zeroth_line hinj h0) [-> _].
have heN' : li_eps (last (ul_body l0) (List.map (@ul_body Nx Ny) rest)) = EpsUniform Nx Ny eN by rewrite map_last.
exact: (C81_reflection Nx0 Ny0 eig_ok (plain tan hform) hinj hopp h0 e0p he0
  (bodies_all (P := fun l => reciprocal (li_eps l)) hrec) lam cth hab hcd heN' hac hra hrb hrc hrd).
Qed.

(** the same orders for the stack upside down *)
Lemma rev_map (ls : seq (user_layer Nx Ny)) : List.map (@ul_body Nx Ny) (rev ls) = rev (List.map (@ul_body Nx Ny) ls).
Proof. exact: map_rev. Qed.
Lemma all_rev_py (f : Init_Model.pylayer -> bool) (ls : seq (user_layer Nx Ny)) :
  List.forallb f (List.map (@to_py Nx Ny) (rev ls)) = List.forallb f (List.map (@to_py Nx Ny) ls).
Proof.
have E (s : seq (user_layer Nx Ny)) : List.forallb f (List.map (@to_py Nx Ny) s) = all (fun l => f (to_py l)) s by elim: s => //= a s ->.
by rewrite !E all_rev.
Qed.

Lemma init_rev s s' :
  Init_Model.sim_init argsort lattices (List.map (@to_py Nx Ny) (l0 :: rest)) nh form = Ok s ->
  Init_Model.sim_init argsort lattices (List.map (@to_py Nx Ny) (rev (l0 :: rest))) nh form = Ok s' ->
  [/\ Init_Model.sim_harmonics s' = Init_Model.sim_harmonics s, Init_Model.sim_nh s' = Init_Model.sim_nh s,
      Init_Model.sim_recip s' = Init_Model.sim_recip s, Init_Model.sim_index0 s' = Init_Model.sim_index0 s &
      Init_Model.sim_form s' = Init_Model.sim_form s /\ Init_Model.sim_lattice s' = Init_Model.sim_lattice s].
Proof.
move=> H H'; have in0 : List.In l0 (rev (l0 :: rest)).
  by rewrite rev_cons -cats1; elim: (rev rest) => /= [|a t IH]; [left|right].
have L : Init_Model.sim_lattice s = lat := layers_lattice H (or_introl erefl : List.In l0 (l0 :: rest)).
have L' : Init_Model.sim_lattice s' = lat := layers_lattice H' in0.
have [a [t [G [n [m [r [_ [_ [_ [_ hx]]]]]]]]]] := Init_Proofs.sim_init_inv _ _ _ _ _ H.
have [a' [t' [G' [n' [m' [r' [_ [_ [_ [_ hx']]]]]]]]]] := Init_Proofs.sim_init_inv _ _ _ _ _ H'.
move: hx hx' => [_ [hg [_ [_ [_ [hr es]]]]]] [_ [hg' [_ [_ [_ [hr' es']]]]]].
subst s s'; cbn in L, L' |- *; rewrite L in hg hr; rewrite L' all_rev_py in hg' hr'.
rewrite hg in hg'; case: hg' => <- <-; rewrite hr in hr'; case: hr' => <-.
by rewrite L L'.
Qed.

Lemma sim_transmission (eN : R) outa outb outc outd xa xb xc xd :
  (0 < eN)%Re -> li_eps (ul_body (last l0 rest)) = EpsUniform Nx Ny (rc eN) ->
  (0 < cos (pw_theta pc))%Re -> reversed_below e0 eN pc pa ->
  simulate (l0 :: rest) pa nh form = Ok outa -> simulate (l0 :: rest) pb nh form = Ok outb ->
  simulate (rev (l0 :: rest)) pc nh form = Ok outc -> simulate (rev (l0 :: rest)) pd nh form = Ok outd ->
  List.In ((0%Zc, 0%Zc), xa) outa -> List.In ((0%Zc, 0%Zc), xb) outb ->
  List.In ((0%Zc, 0%Zc), xc) outc -> List.In ((0%Zc, 0%Zc), xd) outd ->
  (xa.2 + xb.2 = xc.2 + xd.2)%Re.
Proof.
move=> eNp heN cthc hac Ha; have [s [_ [_ [_ [hs _ _ _ _]]]]] := simulateP Ha; move: Ha.
move=> /(runs_of hs) [n [i0 [ra [[en hi] sz [hinj hopp h0] hra ->]]]].
move=> /(runs_of hs) [n2 [i2 [rb [[en2 hi2] _ _ hrb ->]]]].
move=> /simulateP [s3 [n3 [i3 [rc' [hs3 [en3 _] hi3 hrc ->]]]]].
move=> /simulateP [s4 [n4 [i4 [rd [hs4 [en4 _] hi4 hrd ->]]]]].
have hl := layers_lattice hs (or_introl erefl : List.In l0 (l0 :: rest)).
have hg : Lattice_Proofs3.generates (Init_Model.sim_lattice s) by rewrite hl.
have [_ [_ [_ [_ [_ [w6 _]]]]]] := Init_Proofs2.init_facts hsort _ _ _ hs hg (enoughP hnh).
have [x1 x2 x3 x4 [x5 x6]] := init_rev hs hs3; have [y1 y2 y3 y4 [y5 y6]] := init_rev hs hs4.
rewrite x1 x3 x5 x6 w6 hl rev_map in hrc; rewrite y1 y3 y5 y6 w6 hl rev_map in hrd; rewrite x1 y1.
rewrite x2 in en3; rewrite y2 in en4; rewrite x4 in hi3; rewrite y4 in hi4.
have e2 : n = n2 by rewrite en en2.
have e3 : n = n3 by rewrite en en3.
have e4 : n = n4 by rewrite en en4.
clear en en2 en3 en4; destruct e2, e3, e4.
have ei2 : i2 = i0 by apply: val_inj; rewrite /= hi hi2.
have ei3 : i3 = i0 by apply: val_inj; rewrite /= hi hi3.
have ei4 : i4 = i0 by apply: val_inj; rewrite /= hi hi4.
subst i2 i3 i4.
move=> /(zeroth_line hinj h0) [_ ->] /(zeroth_line hinj h0) [_ ->] /(zeroth_line hinj h0) [_ ->] /(zeroth_line hinj h0) [_ ->].
have heN' : li_eps (last (ul_body l0) (List.map (@ul_body Nx Ny) rest)) = EpsUniform Nx Ny (rc eN) by rewrite map_last.
exact: (C82_transmission Nx0 Ny0 eig_ok (plain tan hform) hinj hopp h0 e0p he0
  (bodies_all (P := fun l => reciprocal (li_eps l)) hrec) lam cth hab hcd eNp heN' cthc hac hra hrb hrc hrd).
Qed.
End Recip.

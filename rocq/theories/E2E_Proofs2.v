(** The theorems about runs, restated for whole simulations. *)
From Coq Require Import Reals ZArith String Lra Lia Permutation.
From Verif Require Lattice_Model Lattice_Spec Lattice_Proofs3 Init_Model Init_Proofs Init_Proofs2 Props_Init.
From mathcomp Require Import all_ssreflect all_algebra.
From mathcomp Require Import complex.
From Verif Require Import RStruct Cplx Base Fourier_Model Fourier_Spec Sim_Model Setup_Model E2E_Model Energy_Spec Recip_Spec
  Passive_Spec Symm_Spec E2E_Spec.
From Verif Require Import Fourier_Proofs Run_Proofs2 Props_Energy Props_Passive Props_Symm Props_Recip E2E_Proofs.

Set Implicit Arguments.
Unset Strict Implicit.
Unset Printing Implicit Defensive.

Import Order.TTheory GRing.Theory Num.Theory.
Local Open Scope ring_scope.
Local Open Scope complex_scope.

Section Sim.
Variables (Nx Ny : nat).
Hypotheses (Nx0 : (0 < Nx)%N) (Ny0 : (0 < Ny)%N).
Variable eig : forall m, 'M[C]_m -> 'rV[C]_m * 'M[C]_m.
Hypothesis eig_ok : forall m (A : 'M[C]_m), A *m (eig A).2 = (eig A).2 *m diag_mx (eig A).1.
Variable argsort : seq R -> seq nat.
Hypothesis hsort : Lattice_Model.argsort_ok argsort.
Variable tan : string -> 'M[C]_(Nx, Ny) -> res ('M[C]_(Nx, Ny) * 'M[C]_(Nx, Ny)).
Variable lattices : nat -> Lattice_Model.lattice.
Variables (l0 : user_layer Nx Ny) (rest : seq (user_layer Nx Ny)) (nh : Z) (form : string).
Notation lat := (lattices (ul_lat l0)).
Hypothesis hgen : Lattice_Proofs3.generates lat.
Definition enough : Prop := (1 <= nh)%Zc \/ List.Forall (fun l => is_uniform (li_eps (ul_body l))) (l0 :: rest).
Hypothesis hnh : enough.
Notation simulate pw := (simulate eig argsort tan lattices (l0 :: rest) pw nh form).
Notation bodies := (List.map (@ul_body Nx Ny) (l0 :: rest)).

Lemma enoughP : (1 <= nh)%Zc \/ List.forallb Init_Model.pl_uniform (List.map (@to_py Nx Ny) (l0 :: rest)) = true.
Proof.
case: hnh => h; [by left|right].
by rewrite uniform_py; move: h; elim: (l0 :: rest) => //= l ls IH h; inversion h; subst; apply/andP; split=> //; exact: IH.
Qed.

(** A finished simulation is a run on a well formed set of orders. *)
Lemma simulate_run pw out : simulate pw = Ok out ->
  exists s n (i0 : 'I_n) (r : effs n) (G := Init_Model.sim_harmonics s),
   [/\ Init_Model.sim_init argsort lattices (List.map (@to_py Nx Ny) (l0 :: rest)) nh form = Ok s /\
       Z.of_nat n = Init_Model.sim_nh s, size G = n,
       [/\ List.NoDup G, List.In (0%Zc, 0%Zc) G, Lattice_Spec.negation_closed G & harm G i0 = (0%Zc, 0%Zc)],
       run_efficiencies eig pw (recip_mx (Init_Model.sim_recip s)) (harm G)
         (choose_form tan form (Lattice_Model.lt_is1D lat)) bodies i0 = Ok r &
       out = listing G r].
Proof.
move=> /simulateP [s [n [i0 [r [hs [hn sz] hi hr ho]]]]].
have hl := layers_lattice hs (or_introl erefl : List.In l0 (l0 :: rest)).
have hg : Lattice_Proofs3.generates (Init_Model.sim_lattice s) by rewrite hl.
have [w1 [w2 [w3 [w4 [w5 [w6 _]]]]]] := Init_Proofs2.init_facts hsort _ _ _ hs hg enoughP.
exists s, n, i0, r => G; split=> //.
- by split=> //; rewrite hn w4; lia.
- split=> //; have [_] := nth_errorP (0%Zc, 0%Zc) w5.
  by rewrite /harm hi.
- by rewrite -hl -w6.
Qed.

Lemma sim_orders pw out : simulate pw = Ok out ->
  [/\ List.NoDup (orders_of out), List.In (0%Zc, 0%Zc) (orders_of out) & Lattice_Spec.negation_closed (orders_of out)].
Proof.
move=> /simulate_run [s [n [i0 [r [_ sz [w1 w2 w3 _] _ ->]]]]].
by rewrite /orders_of listing_fst.
Qed.

Variable pw : planewave.
Hypothesis lam : (0 < pw_lambda pw)%Re.
Hypothesis cth : (0 < cos (pw_theta pw))%Re.
Variables e0 : R.
Hypothesis e0p : (0 < e0)%Re.
Hypothesis he0 : li_eps (ul_body l0) = EpsUniform Nx Ny (rc e0).
(** 'original', or 'tangent' on a 1D lattice *)
Hypothesis hform : form = "original"%string \/ (form = "tangent"%string /\ Lattice_Model.lt_is1D lat = true).

Lemma plain : plain_form (choose_form tan form (Lattice_Model.lt_is1D lat)).
Proof. by case: hform => [->|[-> ->]]. Qed.

Lemma map_last (l : user_layer Nx Ny) ls : last (ul_body l) (List.map (@ul_body Nx Ny) ls) = ul_body (last l ls).
Proof. by elim: ls l => //= a ls IH l. Qed.

Lemma bodies_all (P : layer_in Nx Ny -> Prop) : (forall l, List.In l (l0 :: rest) -> P (ul_body l)) ->
  forall l, List.In l (ul_body l0 :: List.map (@ul_body Nx Ny) rest) -> P l.
Proof. by move=> h l /(@List.in_map_iff _ _ _ (l0 :: rest)) [x [<- hx]]; apply: h. Qed.

Lemma refl_sum n G (r : effs n) : reflected (listing G r) = \sum_i r.1 i ord0.
Proof. exact: (listing_sum G fst r). Qed.
Lemma trans_sum n G (r : effs n) : transmitted (listing G r) = \sum_i r.2 i ord0.
Proof. exact: (listing_sum G snd r). Qed.

Variable eN : R.
Hypothesis heN : li_eps (ul_body (last l0 rest)) = EpsUniform Nx Ny (rc eN).

Lemma sim_energy out : (forall l, List.In l (l0 :: rest) -> lossless (li_eps (ul_body l))) ->
  simulate pw = Ok out ->
  (reflected out + transmitted out = 1)%Re /\
  forall o x, List.In (o, x) out -> (0 <= x.1 <= 1)%Re /\ (0 <= x.2 <= 1)%Re.
Proof.
move=> hl /simulate_run [s [n [i0 [r [_ sz [w1 w2 w3 w4] hr ->]]]]].
rewrite refl_sum trans_sum.
have heN' : li_eps (last (ul_body l0) (List.map (@ul_body Nx Ny) rest)) = EpsUniform Nx Ny (rc eN) by rewrite map_last.
have hl' := bodies_all (P := fun l => lossless (li_eps l)) hl.
split; first exact: (C28_energy Nx0 Ny0 eig_ok lam cth w4 e0p he0 heN' hr plain hl').
move=> o x /in_listing [i [_ -> ->]].
have [g1 [g2 _]] := C29_nonneg lam cth w4 e0p he0 heN' hr i.
by have [b1 [b2 _]] := C29_at_most_one Nx0 Ny0 eig_ok lam cth w4 e0p he0 heN' hr i plain hl'.
Qed.

Lemma sim_passive out : (forall l, List.In l (l0 :: rest) -> passive (li_eps (ul_body l)) /\ thick_ok (ul_body l)) ->
  simulate pw = Ok out ->
  (reflected out + transmitted out <= 1)%Re /\
  forall o x, List.In (o, x) out -> (0 <= x.1 <= 1)%Re /\ (0 <= x.2 <= 1)%Re.
Proof.
move=> hl /simulate_run [s [n [i0 [r [_ sz [w1 w2 w3 w4] hr ->]]]]].
rewrite refl_sum trans_sum.
have heN' : li_eps (last (ul_body l0) (List.map (@ul_body Nx Ny) rest)) = EpsUniform Nx Ny (rc eN) by rewrite map_last.
have hl' := bodies_all (P := fun l => passive (li_eps l) /\ thick_ok l) hl.
split; first exact: (C73_no_gain Nx0 Ny0 eig_ok lam e0p he0 plain hl' cth w4 hr).
move=> o x /in_listing [i [_ -> ->]].
exact: (C73_bounds Nx0 Ny0 eig_ok lam e0p he0 plain hl' cth w4 hr _ heN').
Qed.
End Sim.

(** ** Two eigensolvers, two sorting routines *)
Section Two.
Variables (Nx Ny : nat).
Hypotheses (Nx0 : (0 < Nx)%N) (Ny0 : (0 < Ny)%N).
Variables eig1 eig2 : forall m, 'M[C]_m -> 'rV[C]_m * 'M[C]_m.
Hypothesis eig1_ok : forall m (A : 'M[C]_m), A *m (eig1 A).2 = (eig1 A).2 *m diag_mx (eig1 A).1.
Hypothesis eig2_ok : forall m (A : 'M[C]_m), A *m (eig2 A).2 = (eig2 A).2 *m diag_mx (eig2 A).1.
Variables as1 as2 : seq R -> seq nat.
Hypothesis hs1 : Lattice_Model.argsort_ok as1.
Hypothesis hs2 : Lattice_Model.argsort_ok as2.
Variable tan : string -> 'M[C]_(Nx, Ny) -> res ('M[C]_(Nx, Ny) * 'M[C]_(Nx, Ny)).
Variable lattices : nat -> Lattice_Model.lattice.
Variables (l0 : user_layer Nx Ny) (rest : seq (user_layer Nx Ny)) (nh : Z) (form : string) (pw : planewave).
Hypothesis hgen : Lattice_Proofs3.generates (lattices (ul_lat l0)).
Hypothesis hnh : enough l0 rest nh.
Variables e0 eN : C.
Hypothesis he0 : li_eps (ul_body l0) = EpsUniform Nx Ny e0.
Hypothesis heN : li_eps (ul_body (last l0 rest)) = EpsUniform Nx Ny eN.
Hypothesis hten : form = "original"%string \/ forall l, List.In l (l0 :: rest) -> forall u, li_eps (ul_body l) <> EpsTensorGrid u.

Lemma run_no_tensor nh' eig rec (h : 'I_nh' -> order) f ls i0 r : run_efficiencies (Nx := Nx) (Ny := Ny) eig pw rec h f ls i0 = Ok r ->
  forall l, List.In l ls -> forall u, li_eps l <> EpsTensorUniform Nx Ny u.
Proof.
case: ls => // l1 ls; rewrite /run_efficiencies => H; ubind H e he; ubind H a ha; ubind H st hst.
move: hst {H he}; rewrite /solve_stack; elim: (l1 :: ls) st => //= l ls' IH st H; ubind H b hb; ubind H st' hst'.
by move=> k [<-|hk] u; [move=> e'; move: hb; rewrite /solve_layer e' | exact: (IH _ hst')].
Qed.

Lemma sim_same out1 out2 :
  simulate eig1 as1 tan lattices (l0 :: rest) pw nh form = Ok out1 ->
  simulate eig2 as2 tan lattices (l0 :: rest) pw nh form = Ok out2 -> Permutation out1 out2.
Proof.
move=> /(simulate_run hs1 hgen hnh) [s1 [n1 [i1 [r1 [[hi1 en1] sz1 [p1 p2 p3 p4] hr1 ->]]]]].
move=> /(simulate_run hs2 hgen hnh) [s2 [n2 [i2 [r2 [[hi2 en2] sz2 [q1 q2 q3 q4] hr2 ->]]]]].
have := Init_Proofs2.init_same hs1 hs2 lattices (List.map (@to_py Nx Ny) (l0 :: rest)) nh form.
rewrite hi1 hi2 => -[_ [_ [_ [hp [hn hrec]]]]].
have e : n1 = n2 by apply: Nat2Z.inj; rewrite en1 en2 hn.
destruct e; rewrite -hrec in hr2.
set G1 := Init_Model.sim_harmonics s1 in hp p1 p2 p3 p4 hr1 sz1 *.
set G2 := Init_Model.sim_harmonics s2 in hp q1 q2 q3 q4 hr2 sz2 *.
have hinj := @harm_inj n1 G2 sz2 q1.
have hh : forall i : 'I_n1, exists j, @harm n1 G1 j = harm G2 i.
  by move=> i; apply: (harm_in sz1); apply: (Permutation_in _ (Permutation_sym hp)); exact: in_harm.
have hh' : forall i : 'I_n1, exists j, @harm n1 G2 j = harm G1 i.
  by move=> i; apply: (harm_in sz2); apply: (Permutation_in _ hp); exact: in_harm.
have heN' : li_eps (last (ul_body l0) (List.map (@ul_body Nx Ny) rest)) = EpsUniform Nx Ny eN by rewrite map_last.
have hten' : choose_form tan form (Lattice_Model.lt_is1D (lattices (ul_lat l0))) = Original Nx Ny \/
   List.Forall (fun l => forall u, li_eps l <> EpsTensorGrid u) (ul_body l0 :: List.map (@ul_body Nx Ny) rest).
  case: hten => [->|h]; first by left.
  by right; apply/List.Forall_forall; exact: (bodies_all (P := fun l => forall u, li_eps l <> EpsTensorGrid u) h).
have hun := run_no_tensor hr1.
have K i j : harm G1 j = harm G2 i -> r2.1 i ord0 = r1.1 j ord0 /\ r2.2 i ord0 = r1.2 j ord0.
  by apply: (C80_reorder Nx0 Ny0 eig1_ok eig2_ok he0 heN' hinj hh _ hten' hun hr1 hr2); rewrite p4 q4.
apply: NoDup_Permutation.
- by apply: (List.NoDup_map_inv fst); rewrite listing_fst.
- by apply: (List.NoDup_map_inv fst); rewrite listing_fst.
move=> [o x]; split=> /in_listing [i [<- e1 e2]].
- have [j ej] := hh' i; have [k1 k2] := K j i (esym ej).
  by have := listing_in G2 r2 j; rewrite ej k1 k2 -e1 -e2 -surjective_pairing.
- have [j ej] := hh i; have [k1 k2] := K i j ej.
  by have := listing_in G1 r1 j; rewrite ej -k1 -k2 -e1 -e2 -surjective_pairing.
Qed.
End Two.

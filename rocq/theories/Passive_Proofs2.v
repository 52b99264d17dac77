(** Media without gain: runs. *)
From Coq Require Import Reals ZArith Lra.
From mathcomp Require Import all_ssreflect all_algebra.
From mathcomp Require Import complex.
From Verif Require Import RStruct Cplx Cderiv Base Fourier_Model Fourier_Spec Sim_Model Sim_Spec Setup_Model.
From Verif Require Import SMat_Proofs SMat_Proofs2 SMat_Proofs3 Maxwell_Spec Modes_Proofs Maxwell_Proofs.
From Verif Require Import Fourier_Proofs Energy_Spec Energy_Proofs Energy_Proofs2 Energy_Proofs3 Run_Proofs Flux_Proofs.
From Verif Require Import Grid_Model Grid_Spec Grid_Proofs Stress_Proofs Passive_Spec Passive_Proofs.

Set Implicit Arguments.
Unset Strict Implicit.
Unset Printing Implicit Defensive.

Import Order.TTheory GRing.Theory Num.Theory.
Local Open Scope ring_scope.
Local Open Scope complex_scope.

Section Runs.
Variables (Nx Ny nh : nat).
Hypotheses (Nx0 : (0 < Nx)%N) (Ny0 : (0 < Ny)%N).
Variable eig : forall m, 'M[C]_m -> 'rV[C]_m * 'M[C]_m.
Hypothesis eig_ok : forall m (A : 'M[C]_m), A *m (eig A).2 = (eig A).2 *m diag_mx (eig A).1.
Variable pw : planewave.
Hypothesis lam : (0 < pw_lambda pw)%Re.
Variables (rec : 'M[R]_2) (h : 'I_nh -> order) (form : formulation_t Nx Ny) (i0 : 'I_nh).
Notation w := (sim_omega pw).
Notation run_field := (run_field eig pw rec h form).
Variables (l0 : layer_in Nx Ny) (rest : seq (layer_in Nx Ny)) (e0 : R).
Hypothesis e0p : (0 < e0)%Re.
Hypothesis he0 : li_eps l0 = EpsUniform Nx Ny (rc e0).
Hypothesis hf : plain_form form.
Hypothesis hpass : forall l, List.In l (l0 :: rest) -> passive (li_eps l) /\ thick_ok l.

Lemma passive_stack st : solve_stack eig pw rec h form (rc e0) (l0 :: rest) = Ok st ->
  forall l, List.In l st -> passive_modes l /\ (0 <= thick0 l)%Re.
Proof.
move=> hst l hin; have [li [hli hs]] := mapr_in hst hin.
have [ekx eky] := sim_kE pw rec h e0p; move: hs; rewrite ekx eky => hs.
have rr (k : 'rV[R]_nh) i : conj (map_mx (real_complex R_rcfType) k ord0 i) = map_mx (real_complex R_rcfType) k ord0 i.
  by rewrite mxE; apply: rc_conj.
have [hp ht] := hpass hli.
have [hm e] := passive_layer (k0_pos lam) (rr _) (rr _) eig_ok Nx0 Ny0 hf hp hs.
split=> //; move: ht; rewrite /thick_ok /thick0 e; case: (li_thick li) => //= _; right; reflexivity.
Qed.

Lemma run_flux_decr k k' z z' F F' l : List.nth_error (l0 :: rest) k = Some l ->
  below k k' (odflt 0%Re (li_thick l)) z z' ->
  run_field (l0 :: rest) i0 k z = Ok F -> run_field (l0 :: rest) i0 k' z' = Ok F' ->
  (total_flux F' <= total_flux F)%Re.
Proof.
move=> hk hb hF hF'; have w0 := w_neq0 lam.
have [a [st [h2 [h3 h4]]]] := field_st he0 hF.
have [a' [st' [h2' [h3' h4']]]] := field_st he0 hF'.
have ea : a' = a by move: h2'; rewrite h2 => -[].
subst a'; have es : st' = st by move: h3'; rewrite h3 => -[].
subst st'.
have [x [ps [hl [hps [hq [uniq ->]]]]]] := gff_flux w0 h4.
have [x' [ps' [hl' [hps' [_ [_ ->]]]]]] := gff_flux w0 h4'.
have e := uniq _ hps'; subst ps'.
have hall := passive_stack h3.
have hx : thick0 x = odflt 0%Re (li_thick l).
  have [li [hli hs]] := mapr_nth' h3 hl; have e : li = l by move: hli; rewrite hk => -[].
  subst li; rewrite /thick0.
  have [_ [hp _]] : True /\ passive (li_eps l) /\ thick_ok l by split=> //; apply: hpass; exact: List.nth_error_In hk.
  have [ekx eky] := sim_kE pw rec h e0p; move: hs; rewrite ekx eky => hs.
  have rr (v : 'rV[R]_nh) i : conj (map_mx (real_complex R_rcfType) v ord0 i) = map_mx (real_complex R_rcfType) v ord0 i.
    by rewrite mxE; apply: rc_conj.
  by have [_ ->] := passive_layer (k0_pos lam) (rr _) (rr _) eig_ok Nx0 Ny0 hf hp hs.
case: hps => sol _.
clear h3' h4 h4' hps' uniq; case: st hl hl' hq h3 hall sol => [|y sx] hl hl' hq h3 hall; first by case: (k) hl.
case: ps => [|q px] // sol.
apply: (chain_decr (k0_pos lam) _ sol hl hl'); last by rewrite hx.
by move=> sl hin; split; [exact: hq|exact: hall].
Qed.

Hypothesis cth : (0 < cos (pw_theta pw))%Re.
Hypothesis hi0 : h i0 = (0%Zc, 0%Zc).
Variable r : effs nh.
Hypothesis hr : run_efficiencies eig pw rec h form (l0 :: rest) i0 = Ok r.

Lemma run_sum_le : ((total r).1 + (total r).2 <= 1)%Re.
Proof.
move: hr; rewrite /run_efficiencies he0 [scalar_eps _]/= [bind _ _]/= => H; ubind H a ha; ubind H st hst.
have [s0 [ss [e1 [h0 hss]]]] := mapr_cons hst; subst st; rewrite /= he0 in h0.
have [ekx eky] := sim_kE pw rec h e0p; rewrite ekx eky in h0.
have hi i : (0 < gam2 w (rkx pw rec h e0) (rky pw rec h e0) e0 i)%Re \/ (up (sim_a0 i0 a) i = 0 /\ dn (sim_a0 i0 a) i = 0).
  case: (i =P i0) => [->|/eqP ni].
  - left; rewrite i0_gam //; have k0 := k0_pos lam; do !(apply: Rmult_lt_0_compat => //).
  - by right; rewrite /up /dn /sim_a0 col_mxEu col_mxEd !mxE (negPf ni).
have fp := flux_pos cth e0p.
have hall l : s0 = l \/ List.In l ss -> q_ok l /\ passive_modes l /\ (0 <= thick0 l)%Re.
  move=> hin; split; last by apply: (passive_stack hst).
  have [Sm [hS _]] := eff_out h0 hi H.
  by apply: (smatrix_q hS); case: hin => [->|]; [left|right].
have := passive_balance (k0_pos lam) h0 fp hi H hall.
have -> : \sum_i ff w (rkx pw rec h e0) (rky pw rec h e0) e0 (sim_a0 i0 a) i = incident_flux pw (rc e0).
  rewrite (bigD1 i0) //= big1 ?addr0 ?(i0_flux lam cth hi0 e0p ha h0) // => i ni.
  by apply: ff_zero; rewrite /up /dn /sim_a0 ?col_mxEu ?col_mxEd mxE (negPf ni).
rewrite divff; last by apply/eqP; apply: Rgt_not_eq.
by move/RleP.
Qed.
End Runs.

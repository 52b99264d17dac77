(** Media without gain (property C73). *)
From Coq Require Import Reals ZArith Lra.
From mathcomp Require Import all_ssreflect all_algebra.
From mathcomp Require Import complex.
From Verif Require Import RStruct Cplx Cderiv Base Fourier_Model Fourier_Spec Sim_Model Sim_Spec Setup_Model.
From Verif Require Import Energy_Spec Passive_Spec.
From Verif Require Import SMat_Proofs SMat_Proofs2 SMat_Proofs3 Fourier_Proofs Energy_Proofs Energy_Proofs2 Energy_Proofs3.
From Verif Require Import Run_Proofs Diag_Proofs Orders_Proofs Aniso_Proofs Demo_Proofs Flux_Proofs.
From Verif Require Import Passive_Proofs Passive_Proofs2.

Set Implicit Arguments.
Unset Strict Implicit.
Unset Printing Implicit Defensive.

Import Order.TTheory GRing.Theory Num.Theory.
Local Open Scope ring_scope.
Local Open Scope complex_scope.

Section Runs.
Variables (Nx Ny nh : nat).
Hypotheses (Nx0 : (0 < Nx)%N) (Ny0 : (0 < Ny)%N).
(** the eigensolver, with its contract *)
Variable eig : forall m, 'M[C]_m -> 'rV[C]_m * 'M[C]_m.
Hypothesis eig_ok : forall m (A : 'M[C]_m), A *m (eig A).2 = (eig A).2 *m diag_mx (eig A).1.
Variable pw : planewave.
Hypothesis lam : (0 < pw_lambda pw)%Re.
Variables (rec : 'M[R]_2) (h : 'I_nh -> order) (form : formulation_t Nx Ny) (i0 : 'I_nh).
Notation run_eff := (run_efficiencies eig pw rec h form).
Notation run_field := (run_field eig pw rec h form).
(** superstrate: uniform and lossless; below it anything without gain *)
Variables (l0 : layer_in Nx Ny) (rest : seq (layer_in Nx Ny)) (e0 : R).
Hypothesis e0p : (0 < e0)%Re.
Hypothesis he0 : li_eps l0 = EpsUniform Nx Ny (rc e0).
Hypothesis hf : plain_form form.
Hypothesis hpass : forall l, List.In l (l0 :: rest) -> passive (li_eps l) /\ thick_ok l.

(** The flux never grows going down inside a layer ... *)
Theorem C73_flux_in_layer k z z' F F' : (z <= z')%Re ->
  run_field (l0 :: rest) i0 k z = Ok F -> run_field (l0 :: rest) i0 k z' = Ok F' ->
  (total_flux F' <= total_flux F)%Re.
Proof.
move=> hz hF; case e : (List.nth_error (l0 :: rest) k) => [l|].
  move=> hF'; apply: (run_flux_decr Nx0 Ny0 eig_ok lam e0p he0 hf hpass e _ hF hF').
  by right.
have [a [st [_ [h3 h4]]]] := field_st he0 hF.
move: h4; rewrite /get_field_fourier; case hl: (List.nth_error st k) => [l|] //.
by have [li [hli _]] := mapr_nth' h3 hl; rewrite e in hli.
Qed.

(** ... or from a layer to one below it. *)
Theorem C73_flux_down k k' l z z' F F' : (k < k')%N -> List.nth_error (l0 :: rest) k = Some l ->
  (z <= odflt 0 (li_thick l))%Re -> (0 <= z')%Re ->
  run_field (l0 :: rest) i0 k z = Ok F -> run_field (l0 :: rest) i0 k' z' = Ok F' ->
  (total_flux F' <= total_flux F)%Re.
Proof.
move=> hk hl hz hz'; apply: (run_flux_decr Nx0 Ny0 eig_ok lam e0p he0 hf hpass hl).
by left.
Qed.

Hypothesis cth : (0 < cos (pw_theta pw))%Re.
Hypothesis hi0 : h i0 = (0%Zc, 0%Zc).
Variable r : effs nh.
Hypothesis hr : run_eff (l0 :: rest) i0 = Ok r.

Theorem C73_no_gain : (\sum_i r.1 i ord0 + \sum_i r.2 i ord0 <= 1)%Re.
Proof. exact: (run_sum_le Nx0 Ny0 eig_ok lam e0p he0 hf hpass cth hi0 hr). Qed.

(** With a lossless substrate each efficiency is between 0 and 1. *)
Theorem C73_bounds eN i : li_eps (last l0 rest) = EpsUniform Nx Ny (rc eN) ->
  (0 <= r.1 i ord0 <= 1)%Re /\ (0 <= r.2 i ord0 <= 1)%Re.
Proof.
move=> heN; have g j := run_ge0 lam cth hi0 e0p he0 heN hr j.
have P1 : forall j : 'I_nh, true -> 0 <= r.1 j ord0 by move=> j _; apply/RleP; have [] := g j.
have P2 : forall j : 'I_nh, true -> 0 <= r.2 j ord0 by move=> j _; apply/RleP; have [_ []] := g j.
have one (v : 'cV[R]_nh) : (forall j : 'I_nh, true -> 0 <= v j ord0) -> (v i ord0 <= \sum_j v j ord0)%Re.
  by move=> hv; apply/RleP; rewrite (bigD1 i) //= ler_addl; apply: sumr_ge0 => j _; apply: hv.
have S1 : (0 <= \sum_j r.1 j ord0)%Re by apply/RleP; apply: sumr_ge0.
have S2 : (0 <= \sum_j r.2 j ord0)%Re by apply/RleP; apply: sumr_ge0.
have o1 := one _ P1; have o2 := one _ P2; have [p1 [p2 _]] := g i.
move: C73_no_gain S1 S2 o1 o2 p1 p2; move: (\sum_i _ : R) (\sum_i _ : R) (r.1 i ord0 : R) (r.2 i ord0 : R) => x y u v.
by rfold => *; lra.
Qed.
End Runs.
Print Assumptions C73_flux_in_layer.
Print Assumptions C73_flux_down.
Print Assumptions C73_no_gain.
Print Assumptions C73_bounds.

(** Case: vacuum above a medium of permittivity 2i. *)
Notation w := (sim_omega demo_pw).
Definition lossy : C := Complex 0%Re 2%Re.
Definition lossy_layers Nx Ny : seq (layer_in Nx Ny) :=
  [:: LayerIn (Some 1%Re) (EpsUniform Nx Ny (rc (1 * 1)%Re)); LayerIn (Some 1%Re) (EpsUniform Nx Ny lossy)].
Definition lossy_medium (q : C) : slayer 1 :=
  SLayer (Some 1%Re) (\row_i q) 1%:M (dg (fun _ => omega2 w)) (inl lossy).

Lemma lossy_neq0 : lossy != 0.
Proof. by apply/eqP => /(congr1 (@complex.Im R)) /= H; have : (2 <> 0)%Re by lra. Qed.

Lemma lossy_solve Nx Ny form : exists q, q * q = omega2 w * lossy /\
  solve_layer demo_eig w 0 0 demo_h form (Some 1%Re) 1 (EpsUniform Nx Ny lossy) = Ok (lossy_medium q).
Proof.
have w0 := demo_w; exists (csqrt (lossy * 1 * omega2 w)); split.
  by rewrite -expr2 /csqrt sqr_sqrtc mulr1 mulrC.
rewrite /solve_layer /build_matrix.
rewrite (negPf lossy_neq0).
rewrite !diag0 oppr0 K00 subr0 bindE [bt_Qeps _]/=; congr (Ok (SLayer _ _ _ _ _)).
- apply/rowP=> i; rewrite [RHS]mxE.
  by case: (split_ordP i) => k ->; rewrite ?row_mxEl ?row_mxEr mxE [kx in kx ^+ 2]mxE expr0n !subr0.
- by rewrite two_block scaledg; apply: dg_eq => i; rewrite /two; case: ifP; rewrite mulr1.
Qed.

Lemma lossy_smatrix q e : q * q = omega2 w * lossy -> exists Sm, smatrix [:: medium 1 e; lossy_medium q] = Ok Sm.
Proof.
move=> hq; have p1 : (0 < 1)%Re by lra.
have l0 := lossy_neq0.
have q0 : q != 0 by apply/eqP=> e0; move/eqP: hq; rewrite e0 mul0r eq_sym mulf_eq0 (negPf l0) orbF; apply/negP; exact: w2n.
have d0 := medium_dec e p1.
have d1 : decoupled (lossy_medium q) (fun=> omega2 w).
  by split=> // [|i]; [apply/forallP=> i; rewrite mxE|exact: w2n].
have [i|Sm [hS _]] := two_layers d0 d1; last by exists Sm.
rewrite medium_adm // /adm mxE; apply/eqP=> H.
have e1 : rc (w / 1)%Re = rc w by congr (real_complex R_rcfType _); rfold; field.
have wn : rc w != 0 by apply/eqP=> -[]; apply: Rgt_not_eq; exact: demo_w.
have hqw : q = - rc w.
  move: H; rewrite e1 /omega2 => H.
  have : rc w * (q + rc w) = 0.
    have -> : rc w * (q + rc w) = (rc w + rc w * rc w / q) * q by rewrite [RHS]mulrDl divfK // mulrDr.
    by move: H; rewrite -rmorphM => ->; rewrite mul0r.
  by move/eqP; rewrite mulf_eq0 (negPf wn) addr_eq0 => /eqP.
have : omega2 w * (lossy - 1) = 0 by rewrite mulrBr -hq hqw mulr1 mulrNN /omega2 -rmorphM subrr.
move/eqP; rewrite mulf_eq0 (negPf w2n) subr_eq0 => /eqP /(congr1 (@complex.Im R)) /= H1.
by have : (2 <> 0)%Re by lra.
Qed.

Example C73_case Nx Ny (form : formulation_t Nx Ny) :
  (forall l, List.In l (lossy_layers Nx Ny) -> passive (li_eps l) /\ thick_ok l) /\
  (exists r, run_efficiencies demo_eig demo_pw demo_rec demo_h form (lossy_layers Nx Ny) ord0 = Ok r) /\
  (forall k z, (k < 2)%N -> exists F, run_field demo_eig demo_pw demo_rec demo_h form (lossy_layers Nx Ny) ord0 k z = Ok F).
Proof.
split; first by move=> l [<-|[<-|[]]]; split; rewrite /passive /thick_ok /lossy; cbn [li_eps li_thick complex.Im]; [right|left|left|left]; rfold; try lra; reflexivity.
have p1 : (0 < 1)%Re by lra.
have [q [hq hs]] := lossy_solve form; have [Sm hS] := lossy_smatrix (inl (rc (1 * 1)%Re)) hq.
split.
  rewrite /run_efficiencies /lossy_layers [scalar_eps _]/= bindE demo_a0 bindE.
  rewrite /solve_stack; have [-> ->] := demo_k (rc (1 * 1)%Re).
  rewrite /= medium_uniform // hs !bindE.
  by apply: eff_ok hS => /=; rewrite ?cos_0; lra.
move=> k z hk; rewrite /run_field /lossy_layers [scalar_eps _]/= bindE demo_a0 bindE.
rewrite /solve_stack; have [-> ->] := demo_k (rc (1 * 1)%Re).
rewrite /= medium_uniform // hs !bindE.
have w0 : rc w != 0 by apply/eqP=> -[]; apply: Rgt_not_eq; exact: demo_w.
have [ps hps] := smatrix_exists w0 (sim_a0 ord0 (0%Re, 1%Re)) 0 hS.
have [p hp] : exists p, get_amplitudes [:: medium 1 (inl (rc (1 * 1)%Re)); lossy_medium q] k (sim_a0 ord0 (0%Re, 1%Re)) 0 = Ok p.
  eexists; apply: (get_amplitudes_complete w0 hS hps) => //.
  by case: k hk => [|[|k]] // _; [left|right; left].
have hqk l : List.In l [:: medium 1 (inl (rc (1 * 1)%Re)); lossy_medium q] -> q_ok l := fun hin => in_q hS hin.
have nz (x : R) : (0 < x)%Re -> rc x != 0 by move=> ?; apply/eqP=> -[]; exact: Rgt_not_eq.
rewrite /get_field_fourier hp.
case: k hk {hp} => [|[|k]] // _; cbn [List.nth_error bind translate sl_thick medium lossy_medium].
- rewrite /field_of (hqk _ (or_introl erefl)) (negPf w0) /=.
  by rewrite (negPf (nz _ _)); [eexists|lra].
- rewrite /field_of (hqk _ (or_intror (or_introl erefl))) (negPf w0) /=.
  by rewrite (negPf lossy_neq0); eexists.
Qed.

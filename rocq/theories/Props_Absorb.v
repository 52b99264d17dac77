(** Absorbed power (property C87). *)
From Coq Require Import Reals ZArith Lra.
From mathcomp Require Import all_ssreflect all_algebra.
From mathcomp Require Import complex.
From Verif Require Import RStruct Cplx Base Fourier_Model Fourier_Spec Sim_Model Sim_Spec Setup_Model.
From Verif Require Import Energy_Spec Grid_Model Grid_Spec Absorb_Spec.
From Verif Require Import SMat_Proofs SMat_Proofs2 SMat_Proofs3 Energy_Proofs Energy_Proofs2 Run_Proofs Diag_Proofs Orders_Proofs
  Flux_Proofs Aniso_Proofs Demo_Proofs Passive_Proofs Absorb_Proofs Absorb_Proofs2 Props_Passive.

Set Implicit Arguments.
Unset Strict Implicit.
Unset Printing Implicit Defensive.

Import Order.TTheory GRing.Theory Num.Theory.
Local Open Scope ring_scope.
Local Open Scope complex_scope.

Section Runs.
Variables (Nx Ny nh : nat).
Hypotheses (Nx0 : (0 < Nx)%N) (Ny0 : (0 < Ny)%N).
(** the eigensolver, with its contract *)
Variable eig : forall m, 'M[C]_m -> 'rV[C]_m * 'M[C]_m.
Hypothesis eig_ok : forall m (A : 'M[C]_m), A *m (eig A).2 = (eig A).2 *m diag_mx (eig A).1.
Variable pw : planewave.
Hypothesis lam : (0 < pw_lambda pw)%Re.
Variables (rec : 'M[R]_2) (h : 'I_nh -> order) (i0 : 'I_nh).
(** distinct orders are distinguished by the grid *)
Hypothesis hres : resolved h Nx Ny.
Notation run_field := (run_field eig pw rec h (Original Nx Ny)).
Variables (l0 : layer_in Nx Ny) (rest : seq (layer_in Nx Ny)) (e0 : R).
Hypothesis e0p : (0 < e0)%Re.
Hypothesis he0 : li_eps l0 = EpsUniform Nx Ny (rc e0).
Hypothesis hiso : forall l, List.In l (l0 :: rest) -> isotropic (li_eps l).

(** ** C87 *)
(** Poynting's theorem: between two heights of a layer the power flow decreases by the
    integral of omega Im(eps) |E|^2, averaged over the points of the grid. *)
Theorem C87_layer k l z F0 : List.nth_error (l0 :: rest) k = Some l ->
  run_field (l0 :: rest) i0 k z = Ok F0 ->
  exists F, (forall z, run_field (l0 :: rest) i0 k z = Ok (F z)) /\
  forall a b, (a <= b)%Re ->
    integral (fun z => sim_omega pw * loss h (eps_im (li_eps l)) (F z))%Re a b (total_flux (F a) - total_flux (F b)).
Proof. by move=> hk; exact: (layer_absorbs Nx0 Ny0 eig_ok lam hres e0p he0 hk (hiso (List.nth_error_In _ _ hk))). Qed.

(** 1 - R - T is the power absorbed in the layers between the outer two. *)
Theorem C87_absorption (eN : R) r (t : nat -> R) (F : nat -> R -> fields nh) (A : nat -> R) :
  (0 < cos (pw_theta pw))%Re -> h i0 = (0%Zc, 0%Zc) -> (0 < size rest)%N ->
  li_eps (last l0 rest) = EpsUniform Nx Ny (rc eN) ->
  run_efficiencies eig pw rec h (Original Nx Ny) (l0 :: rest) i0 = Ok r ->
  (forall k l, List.nth_error (l0 :: rest) k = Some l -> li_thick l = Some (t k) /\ (0 <= t k)%Re) ->
  (forall k z, (k <= size rest)%N -> run_field (l0 :: rest) i0 k z = Ok (F k z)) ->
  (forall k l, (0 < k < size rest)%N -> List.nth_error (l0 :: rest) k = Some l ->
     integral (fun z => sim_omega pw * loss h (eps_im (li_eps l)) (F k z))%Re 0 (t k) (A k)) ->
  (incident_flux pw (rc e0) * (1 - \sum_i r.1 i ord0 - \sum_i r.2 i ord0) = \sum_(1 <= k < size rest) A k)%Re.
Proof.
move=> cth hi0 s0 heN hr ht hF hA.
exact: (stack_absorbs Nx0 Ny0 eig_ok lam hres e0p he0 cth hi0 heN hr hiso ht hF hA s0).
Qed.
End Runs.
Print Assumptions C87_layer.
Print Assumptions C87_absorption.

(** Case: a slab of permittivity 2i in vacuum. *)
Notation w := (sim_omega demo_pw).
Definition slab_layers Nx Ny : seq (layer_in Nx Ny) :=
  [:: LayerIn (Some 1%Re) (EpsUniform Nx Ny (rc (1 * 1)%Re)); LayerIn (Some 1%Re) (EpsUniform Nx Ny lossy);
      LayerIn (Some 1%Re) (EpsUniform Nx Ny (rc (1 * 1)%Re))].

Lemma lossy_root q : q * q = omega2 w * lossy -> exists s : R, (s = 1 \/ s = -1)%Re /\ q = rc (s * w)%Re * Complex 1 1.
Proof.
move=> hq; have : q * q = (rc w * Complex 1 1) * (rc w * Complex 1 1).
  by rewrite hq /omega2 /lossy; apply/eqP; rewrite eq_complex /=; apply/andP; split; apply/eqP; rfold; ring.
move/eqP; rewrite -!expr2 eqf_sqr => /orP [/eqP ->|/eqP ->].
- by exists 1%Re; split; [left|rewrite Rmult_1_l].
- exists (-1)%Re; split; [by right|].
  by apply/eqP; rewrite eq_complex /=; apply/andP; split; apply/eqP; rfold; ring.
Qed.

Lemma resonance (s a : R) (nu f : C) : (s = 1 \/ s = -1)%Re -> (0 < a)%Re -> nu = rc s * Complex 1 1 ->
  f = cexp ('i * (rc (s * a)%Re * Complex 1 1) * rc 1%Re) ->
  1 + nu != 0 /\ (1 + nu) * (1 + nu) != f * f * ((nu - 1) * (nu - 1)).
Proof.
move=> hs ha -> ->; rewrite -cexpD.
have -> : 'i * (rc (s * a)%Re * Complex 1 1) * rc 1%Re + 'i * (rc (s * a)%Re * Complex 1 1) * rc 1%Re =
  Complex (- (2 * (s * a)))%Re (2 * (s * a))%Re :> C.
  by apply/eqP; rewrite eq_complex /=; apply/andP; split; apply/eqP; rfold; ring.
have cs := sin2_cos2 (2 * (s * a)).
have [x1 x2] : (s = 1 -> exp (- (2 * (s * a))) < 1)%Re /\ (s = -1 -> 1 < exp (- (2 * (s * a))))%Re.
  split=> ->.
  - by have := @exp_increasing (- (2 * (1 * a))) 0 ltac:(lra); rewrite exp_0.
  - by have := @exp_increasing 0 (- (2 * (-1 * a))) ltac:(lra); rewrite exp_0.
rewrite /cexp; cbn [complex.Re complex.Im].
have Xp := exp_pos (- (2 * (s * a))).
move: (exp _) (cos _) (sin _) cs x1 x2 Xp => X c d; rewrite /Rsqr => cs x1 x2 Xp.
case: hs => e; subst s; split; apply/eqP => H;
  have := congr1 (@complex.Re R) H; have := congr1 (@complex.Im R) H; rewrite /=; rfold => h1 h2.
- lra.
- have k1 : (X * c = -3)%Re by lra.
  have k2 : (X * d = -4)%Re by lra.
  have k3 : (X * X = (X * c) * (X * c) + (X * d) * (X * d))%Re by transitivity (X * X * (d * d + c * c))%Re; [rewrite cs; ring|ring].
  by have := x1 erefl; rewrite k1 k2 in k3; nra.
- lra.
- have k1 : (X * c = - 3 / 25)%Re by lra.
  have k2 : (X * d = 4 / 25)%Re by lra.
  have k3 : (X * X = (X * c) * (X * c) + (X * d) * (X * d))%Re by transitivity (X * X * (d * d + c * c))%Re; [rewrite cs; ring|ring].
  by have := x2 erefl; rewrite k1 k2 in k3; nra.
Qed.

Lemma slab_smatrix q e e' : q * q = omega2 w * lossy ->
  (exists Sm, smatrix [:: medium 1 e; lossy_medium q; medium 1 e'] = Ok Sm) /\
  (exists Sm, smatrix [:: lossy_medium q; medium 1 e'] = Ok Sm).
Proof.
move=> hq; have p1 : (0 < 1)%Re by lra.
have l0 := lossy_neq0.
have q0 : q != 0 by apply/eqP=> e0; move/eqP: hq; rewrite e0 mul0r eq_sym mulf_eq0 (negPf l0) orbF; apply/negP; exact: w2n.
have d0 e1 := medium_dec e1 p1.
have d1 : decoupled (lossy_medium q) (fun=> omega2 w).
  by split=> // [|i]; [apply/forallP=> i; rewrite mxE|exact: w2n].
have wn : rc w != 0 by apply/eqP=> -[]; apply: Rgt_not_eq; exact: demo_w.
have [s [hs eq]] := lossy_root hq.
have w2E : omega2 w = rc w * rc w by rewrite /omega2; apply/eqP; rewrite eq_complex /=; apply/andP; split; apply/eqP; rfold; ring.
have am e1 i : adm (medium 1 e1) (fun=> omega2 w) i = rc w.
  by rewrite medium_adm //; congr (real_complex R_rcfType _); rfold; field.
have al i : adm (lossy_medium q) (fun=> omega2 w) i = omega2 w / q by rewrite /adm mxE.
pose nu : C := rc s * Complex 1 1.
have eqn : q = rc w * nu by rewrite eq /nu mulrA -rmorphM; congr (real_complex R_rcfType _ * _); rfold; ring.
have n0 : nu != 0 by apply/eqP=> e1; move: q0; rewrite eqn e1 mulr0 eqxx.
have fE i : phasor (sl_q (lossy_medium q)) (thick0 (lossy_medium q)) ord0 i = cexp ('i * (rc (s * w)%Re * Complex 1 1) * rc 1%Re).
  by rewrite !mxE eq.
have [r1 r2] := resonance hs demo_w (erefl nu) (erefl (cexp ('i * (rc (s * w)%Re * Complex 1 1) * rc 1%Re))).
have qm e1 i : adm (lossy_medium q) (fun=> omega2 w) i / adm (medium 1 e1) (fun=> omega2 w) i = nu^-1.
  rewrite am al eqn w2E; move: (rc w) wn n0 => W /eqP h1; move: (nu : C) => v /eqP h2 {eqn r1 r2}.
  by cfield; do !split.
have mq e1 i : adm (medium 1 e1) (fun=> omega2 w) i / adm (lossy_medium q) (fun=> omega2 w) i = nu.
  rewrite am al eqn w2E; move: (rc w) wn n0 => W /eqP h1; move: (nu : C) => v /eqP h2 {eqn r1 r2}.
  by cfield; do !split.
rewrite /smatrix /smat_loop -/smat_loop /smat_id dg1 dg0.
split; last first.
  rewrite (step_dg _ _ _ d1 (d0 e')) ?bindE; first by eexists.
  by move=> i; rewrite mq mulr0 mul0r subr0 mulf_neq0 ?invr_eq0 ?h2.
rewrite (step_dg _ _ _ (d0 e) d1); last first.
  move=> i; rewrite qm mulr0 mul0r subr0 mulf_neq0 ?invr_eq0 ?h2 //.
  have -> : 1 + nu^-1 = (1 + nu) / nu by rewrite mulrDl divff // mul1r addrC.
  by rewrite mulf_neq0 // invr_eq0.
rewrite bindE (step_dg _ _ _ d1 (d0 e')) ?bindE; first by eexists.
move=> i; rewrite !qm !mq !fE !(mulr0, mul0r, subr0, sub0r).
move: r1 r2 n0; move: (cexp _) (nu : C) => f v r1 r2 n0.
have -> : half * (1 + v) - f * (- (half * (1 - v^-1)) * f / (half * (1 + v^-1))) * (half * (1 - v)) =
  half * ((1 + v) * (1 + v) - f * f * ((v - 1) * (v - 1))) / (1 + v).
  have e3 : 1 + v^-1 = (1 + v) / v by rewrite mulrDl divff // mul1r addrC.
  rewrite e3; have := h2; move: r1 n0 => /eqP h1 /eqP h3 /eqP; move: (2%:R : C) => k hk.
  by cfield; do !split.
by rewrite !mulf_neq0 ?invr_eq0 ?subr_eq0 // h2.
Qed.

Lemma slab_iso Nx Ny l : List.In l (slab_layers Nx Ny) -> isotropic (li_eps l).
Proof. by move=> [<-|[<-|[<-|[]]]]. Qed.

(** the slab has its scattering matrix and its fields at every height, and what it absorbs
    is the integral of omega 2 |E|^2 over its thickness *)
Example C87_case Nx Ny (Nx0 : (0 < Nx)%N) (Ny0 : (0 < Ny)%N) :
  exists r F A,
  run_efficiencies demo_eig demo_pw demo_rec demo_h (Original Nx Ny) (slab_layers Nx Ny) ord0 = Ok r /\
  (forall k z, (k <= 2)%N -> run_field demo_eig demo_pw demo_rec demo_h (Original Nx Ny) (slab_layers Nx Ny) ord0 k z = Ok (F k z)) /\
  integral (fun z => w * loss demo_h (fun (_ : 'I_Nx) (_ : 'I_Ny) => 2%Re) (F 1%N z))%Re 0 1 A /\
  (incident_flux demo_pw (rc (1 * 1)) * (1 - \sum_i r.1 i ord0 - \sum_i r.2 i ord0) = A)%Re.
Proof.
have p1 : (0 < 1)%Re by lra.
have p11 : (0 < 1 * 1)%Re by lra.
have lam : (0 < pw_lambda demo_pw)%Re by rewrite /=; lra.
have res : resolved demo_h Nx Ny by move=> i j; rewrite !ord1 eqxx.
pose form := Original Nx Ny.
pose l1 := List.hd (LayerIn None (EpsUniform Nx Ny lossy)) (slab_layers Nx Ny); pose ls := List.tl (slab_layers Nx Ny).
have [q [hq hs]] := lossy_solve form.
have [[Sm hS] [Sd hd]] := slab_smatrix (inl (rc (1 * 1)%Re)) (inl (rc (1 * 1)%Re)) hq.
have [r hr] : exists r, run_efficiencies demo_eig demo_pw demo_rec demo_h form (slab_layers Nx Ny) ord0 = Ok r.
  rewrite /run_efficiencies /slab_layers [scalar_eps _]/= bindE demo_a0 bindE.
  rewrite /solve_stack; have [-> ->] := demo_k (rc (1 * 1)%Re).
  rewrite /= medium_uniform // hs !bindE.
  by apply: eff_ok hS => /=; rewrite ?cos_0; lra.
have hf k z : (k < 3)%N -> exists F, run_field demo_eig demo_pw demo_rec demo_h form (slab_layers Nx Ny) ord0 k z = Ok F.
  move=> hk; rewrite /run_field /slab_layers [scalar_eps _]/= bindE demo_a0 bindE.
  rewrite /solve_stack; have [-> ->] := demo_k (rc (1 * 1)%Re).
  rewrite /= medium_uniform // hs !bindE.
  have w0 : rc w != 0 by apply/eqP=> -[]; apply: Rgt_not_eq; exact: demo_w.
  have [ps hps] := smatrix_exists w0 (sim_a0 ord0 (0%Re, 1%Re)) 0 hS.
  have [p hp] : exists p, get_amplitudes [:: medium 1 (inl (rc (1 * 1)%Re)); lossy_medium q; medium 1 (inl (rc (1 * 1)%Re))] k (sim_a0 ord0 (0%Re, 1%Re)) 0 = Ok p.
    eexists; apply: (get_amplitudes_complete w0 hS hps) => //.
    by case: k hk => [|[|[|k]]] // _; [left|right; right; rewrite -[drop _ _]/[:: lossy_medium q; medium 1 (inl (rc (1 * 1)%Re))] hd|right; left].
  have hqk l : List.In l [:: medium 1 (inl (rc (1 * 1)%Re)); lossy_medium q; medium 1 (inl (rc (1 * 1)%Re))] -> q_ok l := fun hin => in_q hS hin.
  have nz (x : R) : (0 < x)%Re -> rc x != 0 by move=> ?; apply/eqP=> -[]; exact: Rgt_not_eq.
  rewrite /get_field_fourier hp.
  case: k hk {hp} => [|[|[|k]]] // _; cbn [List.nth_error bind translate sl_thick medium lossy_medium].
  - rewrite /field_of (hqk _ (or_introl erefl)) (negPf w0) /=.
    by rewrite (negPf (nz _ _)); [eexists|lra].
  - rewrite /field_of (hqk _ (or_intror (or_introl erefl))) (negPf w0) /=.
    by rewrite (negPf lossy_neq0); eexists.
  - rewrite /field_of (hqk _ (or_introl erefl)) (negPf w0) /=.
    by rewrite (negPf (nz _ _)); [eexists|lra].
have lay k l : List.nth_error (slab_layers Nx Ny) k = Some l -> (k < 3)%N -> exists F,
   (forall z, run_field demo_eig demo_pw demo_rec demo_h form (slab_layers Nx Ny) ord0 k z = Ok (F z)) /\
   forall a b, (a <= b)%Re ->
    integral (fun z => w * loss demo_h (eps_im (li_eps l)) (F z))%Re a b (total_flux (F a) - total_flux (F b)).
  move=> hl hk; have [F0 hF0] := hf k 0%Re hk.
  exact: (@C87_layer Nx Ny _ Nx0 Ny0 _ demo_eig_ok _ lam demo_rec demo_h ord0 res l1 ls (1 * 1)%Re p11 (erefl _) (@slab_iso Nx Ny) k l 0%Re F0 hl hF0).
have [F0 [h0 _]] := lay 0%N _ erefl erefl.
have [F1 [h1 i1]] := lay 1%N _ erefl erefl.
have [F2 [h2 _]] := lay 2%N _ erefl erefl.
pose F k := match k with 0%N => F0 | 1%N => F1 | _ => F2 end.
have hF k z : (k <= 2)%N -> run_field demo_eig demo_pw demo_rec demo_h form (slab_layers Nx Ny) ord0 k z = Ok (F k z).
  by case: k => [|[|[|k]]].
have int := i1 0%Re 1%Re ltac:(lra).
exists r, F, (total_flux (F1 0%Re) - total_flux (F1 1%Re))%Re; split=> //; split=> //; split=> //.
have th : forall k l, List.nth_error (slab_layers Nx Ny) k = Some l -> li_thick l = Some ((fun=> 1%Re) k) /\ (0 <= (fun=> 1%Re) k)%Re.
  by move=> [|[|[|[|k]]]] l //= [<-]; split=> //; lra.
have -> := @C87_absorption Nx Ny _ Nx0 Ny0 _ demo_eig_ok _ lam demo_rec demo_h ord0 res l1 ls (1 * 1)%Re p11 (erefl _) (@slab_iso Nx Ny)
   (1 * 1)%Re r (fun=> 1%Re) F (fun=> (total_flux (F1 0%Re) - total_flux (F1 1%Re))%Re) _ _ _ (erefl _) hr th hF _.
- by rewrite big_nat1.
- by rewrite /= cos_0; lra.
- by [].
- by [].
- by move=> [|[|k]] l // _ [<-].
Qed.

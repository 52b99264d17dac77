(** Structures whose computed stress depends on the height inside a lossless layer:
    with an anisotropic factorization rule, or an anisotropic material. *)
From Coq Require Import Reals ZArith Lra Lia.
From mathcomp Require Import all_ssreflect all_algebra.
From mathcomp Require Import complex.
From Verif Require Import RStruct Cplx Cderiv Base Fourier_Model Fourier_Spec Sim_Model Sim_Spec Setup_Model.
From Verif Require Import SMat_Proofs SMat_Proofs2 SMat_Proofs3 Maxwell_Spec Modes_Proofs Maxwell_Proofs.
From Verif Require Import Fourier_Proofs Energy_Spec Energy_Proofs Energy_Proofs2 Energy_Proofs3 Basis_Proofs.
From Verif Require Import Run_Proofs Diag_Proofs Orders_Model Orders_Proofs Aniso_Proofs Demo_Proofs.
From Verif Require Import Stress_Model.

Set Implicit Arguments.
Unset Strict Implicit.
Unset Printing Implicit Defensive.

Import Order.TTheory GRing.Theory Num.Theory.
Local Open Scope ring_scope.
Local Open Scope complex_scope.

Notation w := (sim_omega demo_pw).

(** a layer of thickness one whose two polarisations see the indices n *)
Definition bire (n : 'I_(1 + 1) -> R) (e : C + 'M[C]_1) : slayer 1 :=
  SLayer (Some 1%Re) (\row_i rc (w * n i)%Re) 1%:M (dg (fun _ => omega2 w)) e.

Lemma medium_bire n e : medium n e = bire (fun _ => n) e. Proof. by []. Qed.

Lemma bire_dec n e : (forall i, 0 < n i)%Re -> decoupled (bire n e) (fun _ => omega2 w).
Proof.
move=> n0; split=> // [|i]; last exact: w2n.
by apply/forallP=> i; rewrite mxE; apply/eqP=> -[]; apply: Rgt_not_eq; apply: Rmult_lt_0_compat => //; exact: demo_w.
Qed.

Lemma bire_adm n e i : (forall i, 0 < n i)%Re -> adm (bire n e) (fun _ => omega2 w) i = rc (w / n i)%Re.
Proof.
move=> n0; have w0 := demo_w; have ni := n0 i; rewrite /adm mxE /omega2 rcV -?rmorphM; last by apply: Rgt_not_eq; exact: Rmult_lt_0_compat.
by congr (real_complex R_rcfType _); rfold; field; lra.
Qed.

Lemma bire_cexp (k : nat) : cexp ('i * rc (w * INR k)%Re) = 1.
Proof.
have -> : 'i * rc (w * INR k)%Re = Complex 0%Re (0 + 2 * INR k * PI)%Re.
  apply/eqP; rewrite eq_complex /=; apply/andP; split; apply/eqP; rewrite /sim_omega /pw_k0 /=; rfold; field.
rewrite /cexp /= exp_0 sin_period cos_period sin_0 cos_0.
by apply/eqP; rewrite eq_complex /=; apply/andP; split; apply/eqP; rfold; ring.
Qed.

Definition whole (n : 'I_(1 + 1) -> R) : Prop := forall i, exists k : nat, n i = INR k /\ (0 < n i)%Re.

Lemma bire_phase n e i : whole n -> phasor (sl_q (bire n e)) (thick0 (bire n e)) ord0 i = 1.
Proof. by move=> /(_ i) [k [hk _]]; rewrite mxE mxE /thick0 [odflt _ _]/= mulr1 hk; exact: bire_cexp. Qed.

Definition n1 : 'I_(1 + 1) -> R := fun _ => 1%Re.
Definition n54 : 'I_(1 + 1) -> R := fun i => if (i < 1)%N then 5%Re else 4%Re.
Definition n3 : 'I_(1 + 1) -> R := fun _ => 3%Re.

Lemma whole1 : whole n1. Proof. by move=> i; exists 1%N; rewrite /n1 /=; split; lra. Qed.
Lemma whole3 : whole n3. Proof. by move=> i; exists 3%N; rewrite /n3 /=; split; lra. Qed.
Lemma whole54 : whole n54.
Proof. by move=> i; rewrite /n54; case: ifP => _; [exists 5%N|exists 4%N]; rewrite /=; split; lra. Qed.

Section Stack.
Variables e0 e1 e2 : C + 'M[C]_1.
Notation L0 := (bire n1 e0).
Notation L1 := (bire n54 e1).
Notation L2 := (bire n3 e2).

Lemma bire_smatrix :
  (exists Sm, smatrix [:: L0; L1; L2] = Ok Sm) /\ (exists Sm, smatrix [:: L1; L2] = Ok Sm).
Proof.
have w0 := demo_w; have p1 i : (0 < n1 i)%Re by rewrite /n1; lra.
have p2 i : (0 < n54 i)%Re by rewrite /n54; case: ifP; lra.
have p3 i : (0 < n3 i)%Re by rewrite /n3; lra.
have w1 : rc w != 0 by apply/eqP=> -[]; exact: Rgt_not_eq.
rewrite /smatrix /smat_loop -/smat_loop /smat_id dg1 dg0.
have d0 := bire_dec e0 p1; have d1 := bire_dec e1 p2; have d2 := bire_dec e2 p3.
have o1 : (1 : C) = rc 1%Re by [].
have hp x y (e e' : C + 'M[C]_1) i : (forall i, 0 < x i)%Re -> (forall i, 0 < y i)%Re ->
  half * (1 + adm (bire y e') (fun=> omega2 w) i / adm (bire x e) (fun=> omega2 w) i) = rc ((1 + x i / y i) / 2)%Re.
  move=> x0 y0; have xi := x0 i; have yi := y0 i.
  have q : (0 < w / x i)%Re by apply: Rmult_lt_0_compat => //; exact: Rinv_0_lt_compat.
  rewrite !bire_adm // rcV ?half_rc -?rmorphM ?o1; last by apply: Rgt_not_eq.
  rewrite -rmorphD -rmorphM; congr (real_complex R_rcfType _); rfold; field; lra.
have hm x y (e e' : C + 'M[C]_1) i : (forall i, 0 < x i)%Re -> (forall i, 0 < y i)%Re ->
  half * (1 - adm (bire y e') (fun=> omega2 w) i / adm (bire x e) (fun=> omega2 w) i) = rc ((1 - x i / y i) / 2)%Re.
  move=> x0 y0; have xi := x0 i; have yi := y0 i.
  have q : (0 < w / x i)%Re by apply: Rmult_lt_0_compat => //; exact: Rinv_0_lt_compat.
  rewrite !bire_adm // rcV ?half_rc -?rmorphM ?o1; last by apply: Rgt_not_eq.
  rewrite -rmorphB -rmorphM; congr (real_complex R_rcfType _); rfold; field; lra.
split; last first.
  rewrite (step_dg _ _ _ d1 d2) ?bindE; first by eexists.
  move=> i; rewrite hp // mulr0 mul0r subr0; apply/eqP=> -[]; apply: Rgt_not_eq; rewrite /n54 /n3; case: ifP => _; rfold; lra.
rewrite (step_dg _ _ _ d0 d1); last first.
  move=> i; rewrite hp // mulr0 mul0r subr0; apply/eqP=> -[]; apply: Rgt_not_eq; rewrite /n54 /n1; case: ifP => _; rfold; lra.
rewrite bindE (step_dg _ _ _ d1 d2) ?bindE; first by eexists.
move=> i; rewrite !hp // !hm // !(bire_phase _ _ whole1, bire_phase _ _ whole54).
rewrite !(mulr0, mul0r, mul1r, subr0, sub0r, mulr1) /n1 /n54 /n3; case: ifP => _.
all: rewrite -rmorphN rcV; [|by apply: Rgt_not_eq; lra].
all: by rewrite -!rmorphM -rmorphB; apply/eqP=> -[]; apply: Rgt_not_eq; rfold; lra.
Qed.

(** a wave of the second polarisation *)
Definition vec (c : C) : 'cV[C]_(1 + 1) := \col_i (if (i < 1)%N then 0 else c).

Lemma vecD a b : vec a + vec b = vec (a + b).
Proof. by apply/colP=> i; rewrite !mxE; case: ifP; rewrite ?addr0. Qed.
Lemma vecZ a b : a *: vec b = vec (a * b).
Proof. by apply/colP=> i; rewrite !mxE; case: ifP; rewrite ?mulr0. Qed.
Lemma vecN b : - vec b = vec (- b).
Proof. by rewrite -scaleN1r vecZ mulN1r. Qed.

Lemma ends n e a b : whole n -> forall z, z = 0%Re \/ z = 1%Re ->
  mode_H (bire n e) z (vec a, vec b) = vec (a + b) /\
  mode_E w (bire n e) z (vec a, vec b) = vec ((a - b) / rc (n (rshift 1 ord0))).
Proof.
move=> hn z hz; have w0 := demo_w.
have w1 : rc w != 0 by apply/eqP=> -[]; exact: Rgt_not_eq.
have n0 i : (0 < n i)%Re by have [k []] := hn i.
have ph i : cexp ('i * sl_q (bire n e) ord0 i * rc z) = 1 /\ cexp ('i * sl_q (bire n e) ord0 i * rc (thick0 (bire n e) - z)) = 1.
  have [k [hk _]] := hn i; rewrite mxE hk /thick0 [odflt _ _]/=.
  have r0 : rc 0%Re = 0 by []. have r1 : rc 1%Re = 1 by [].
  by case: hz => ->; rewrite ?subr0 ?subrr ?r0 ?r1 ?mulr0 ?mulr1 cexp0 bire_cexp.
have f1 : \col_m (fwd (bire n e) z (vec a, vec b) m) = vec a.
  by apply/colP=> i; rewrite [LHS]mxE /fwd (ph i).1 mulr1.
have b1 : \col_m (bwd (bire n e) z (vec a, vec b) m) = vec b.
  by apply/colP=> i; rewrite [LHS]mxE /bwd (ph i).2 mulr1.
split; first by rewrite mode_HE f1 b1 vecD mul1mx.
rewrite mode_EE f1 b1 vecN vecD -mulmxA scale_cols_mul mul1mx [sl_Qeps _]/= /dg mul_diag_mx.
apply/colP=> i; rewrite !mxE; case: ifP => hi; first by rewrite mul0r !mulr0.
have -> : i = rshift 1 ord0 by apply: val_inj => /=; move: (ltn_ord i) hi; case: (nat_of_ord i) => [|[|]].
have nn : rc (n (rshift 1 ord0)) != 0 by apply/eqP=> -[]; apply: Rgt_not_eq; exact: n0.
have -> : omega2 w = rc w * rc w by rewrite /omega2 -rmorphM.
have -> : rc (w * n (rshift 1 ord0))%Re = rc w * rc (n (rshift 1 ord0)) by rewrite -rmorphM.
move: nn w1; move: (rc (n _)) (rc w) => x v nn w1.
have nn' : x <> C0 by apply/eqP. have w1' : v <> C0 by apply/eqP.
by cfield.
Qed.

Lemma bire_solves : solves w [:: L0; L1; L2] (vec (rc 1%Re)) 0
  [:: (vec (rc 1%Re), vec (rc (1 / 2)%Re)); (vec (rc (7 / 4)%Re), vec (rc (- (1 / 4))%Re)); (vec (rc (3 / 2)%Re), vec (rc 0%Re))].
Proof.
have z0 : vec (rc 0%Re) = 0 by apply/colP=> i; rewrite !mxE; case: ifP.
have H0 := ends e0 (rc 1%Re) (rc (1 / 2)%Re) whole1 (or_intror erefl).
have H1 := ends e1 (rc (7 / 4)%Re) (rc (- (1 / 4))%Re) whole54 (or_introl erefl).
have H1' := ends e1 (rc (7 / 4)%Re) (rc (- (1 / 4))%Re) whole54 (or_intror erefl).
have H2 := ends e2 (rc (3 / 2)%Re) (rc 0%Re) whole3 (or_introl erefl).
split; last by split.
rewrite /is_solution /chain /matched [thick0 _]/= [thick0 _]/= H0.1 H0.2 H1.1 H1.2 H1'.1 H1'.2 H2.1 H2.2 /n1 /n54 /n3 [(_ < 1)%N]/=.
have nz (x : R) : (0 < x)%Re -> x <> 0%Re by move=> ? ?; lra.
rewrite !rcV; [|lra..].
rewrite -!rmorphB -!rmorphM -!rmorphD.
by do !split; congr (vec (real_complex R_rcfType _)); rfold; field.
Qed.
End Stack.

Section Mid.
Variable c : R.
Hypothesis c0 : (0 < c)%Re.
Notation L1 := (bire n54 (inr (rc c)%:M)).

Lemma mid_field A B : exists F, field_of w 0 0 L1 (vec A, vec B) = Ok F /\
  f_ex F = const_mx ((A - B) / rc 4%Re) /\ f_ey F = 0 /\ f_ez F = 0 /\ f_hx F = 0 /\ f_hy F = const_mx (A + B) /\ f_hz F = 0.
Proof.
have w0 := demo_w; have w1 : rc w != 0 by apply/eqP=> -[]; exact: Rgt_not_eq.
have p2 i : (0 < n54 i)%Re by rewrite /n54; case: ifP; lra.
have hu : (rc c)%:M \in @unitmx _ 1 by rewrite unitmxE det_scalar1 unitfE; apply/eqP=> -[]; exact: Rgt_not_eq.
rewrite /field_of (dc_q (bire_dec _ p2)) (negPf w1); cbn [negb orb sl_eps bire].
rewrite solve_unit // bindE.
eexists; split; first by []; cbn [f_ex f_ey f_ez f_hx f_hy f_hz fst snd sl_phi sl_Qeps sl_q bire].
rewrite !mul1mx vecN !vecD.
have uv x : usubmx (vec x) = 0 by apply/colP=> i; rewrite !mxE /=; move: (ltn_ord i) => ->.
have dv x : dsubmx (vec x) = const_mx x by apply/colP=> i; rewrite !mxE.
have eE : dg (fun=> omega2 w) *m (\col_i (vec (A - B) i ord0 / (rc w * (\row_i rc (w * n54 i)%Re) ord0 i))) =
   vec ((A - B) / rc 4%Re).
  rewrite /dg mul_diag_mx; apply/colP=> i; rewrite !mxE /n54; case: ifP => hi; first by rewrite mul0r !mulr0.
  have -> : omega2 w = rc w * rc w by rewrite /omega2 -rmorphM.
  have -> : rc (w * 4)%Re = rc w * rc 4%Re by rewrite -rmorphM.
  have f0 : rc 4%Re != 0 by apply/eqP=> -[]; apply: Rgt_not_eq; rfold; lra.
  move: f0 w1; move: (rc 4%Re) (rc w) => x v nn w1'.
  have nn' : x <> C0 by apply/eqP. have w1'' : v <> C0 by apply/eqP.
  by cfield.
rewrite eE !uv !dv oppr0; do !split=> //.
- rewrite [X in _ *m X](_ : _ = 0) ?mulmx0 //.
  by apply/colP=> i; rewrite !mxE mulr0 mul0r subr0 mul0r.
- by apply/colP=> i; rewrite !mxE !mulr0 !mul0r subr0 mul0r.
Qed.

Lemma mid_stress F X Y : f_ex F = const_mx X -> f_ey F = 0 -> f_ez F = 0 -> f_hx F = 0 -> f_hy F = const_mx Y -> f_hz F = 0 ->
  (stress w 0 0 L1 F).2 = - (2%:R^-1 * (c * complex.Re (X * conj X) + complex.Re (Y * conj Y))).
Proof.
move=> h1 h2 h3 h4 h5 h6; rewrite /stress [sl_eps _]/= h1 h2 h3 h4 h5 h6 [snd _]/= /csum big_ord1.
rewrite mul_scalar_mx !mxE.
have c00 : conj 0 = 0 :> C by exact: (conj_nat 0).
rewrite c00 !mul0r !subr0 !add0r.
by case: X {h1} => a b; case: Y {h5} => a' b'; rewrite /conj /=; move: (2%:R^-1 : R_ringType) => hf; rfold; ring.
Qed.

Lemma quarter (x : R) : cexp ('i * rc (w * 4)%Re * rc (x / 16)%Re) = Complex (cos (x * (PI / 2))) (sin (x * (PI / 2))).
Proof.
have -> : 'i * rc (w * 4)%Re * rc (x / 16)%Re = Complex 0%Re (x * (PI / 2))%Re.
  apply/eqP; rewrite eq_complex /=; apply/andP; split; apply/eqP; rewrite /sim_omega /pw_k0 /=; rfold; field.
rewrite /cexp /= exp_0.
by apply/eqP; rewrite eq_complex /=; apply/andP; split; apply/eqP; rfold; ring.
Qed.

Lemma vmul_vec n e z a : vmul (phasor (sl_q (bire n e)) z) (vec a) =
  vec (a * cexp ('i * rc (w * n (rshift 1 ord0))%Re * rc z)).
Proof.
apply/colP=> i; rewrite !mxE; case: ifP => hi; first by rewrite mul0r.
by have -> : i = rshift 1 ord0 by apply: val_inj => /=; move: (ltn_ord i) hi; case: (nat_of_ord i) => [|[|]].
Qed.

Variables (Nx Ny : nat) (form : formulation_t Nx Ny) (eps : eps_t Nx Ny).
Definition stress_layers : seq (layer_in Nx Ny) :=
  [:: LayerIn (Some 1%Re) (EpsUniform Nx Ny (rc (1 * 1)%Re)); LayerIn (Some 1%Re) eps;
      LayerIn (Some 1%Re) (EpsUniform Nx Ny (rc (3 * 3)%Re))].
Hypothesis hmid : solve_layer demo_eig w 0 0 demo_h form (Some 1%Re) 1 eps = Ok L1.

Lemma mid_run z : exists T,
  run_stress demo_eig demo_pw demo_rec demo_h form stress_layers ord0 1 z = Ok T /\
  let A := rc (7 / 4)%Re * cexp ('i * rc (w * 4)%Re * rc z) in
  let B := rc (- (1 / 4))%Re * cexp ('i * rc (w * 4)%Re * rc (1 - z)%Re) in
  T.2 = - (2%:R^-1 * (c * complex.Re ((A - B) / rc 4%Re * conj ((A - B) / rc 4%Re))
                      + complex.Re ((A + B) * conj (A + B)))).
Proof.
rewrite /run_stress /stress_layers [scalar_eps _]/= bindE demo_a0 bindE /solve_stack.
have [-> ->] := demo_k (rc (1 * 1)%Re).
rewrite /= !medium_uniform; [|lra..]; rewrite /= hmid ?bindE.
set e0 := inl _; set e2 := inl _; rewrite !medium_bire -/n1 -/n3.
have [[Sm hS] [Sd hd]] := bire_smatrix e0 (inr (rc c)%:M) e2.
have w0 : rc w != 0 by apply/eqP=> -[]; apply: Rgt_not_eq; exact: demo_w.
have hsol := bire_solves e0 (inr (rc c)%:M) e2.
have ea : sim_a0 ord0 (0%Re, 1%Re) = vec (rc 1%Re) :> 'cV[C]_(1 + 1).
  apply/colP=> i; rewrite [RHS]mxE /sim_a0; case: (split_ordP i) => j ->.
  - by rewrite col_mxEu mxE (ord1 j).
  - by rewrite col_mxEd mxE (ord1 j).
have hp := get_amplitudes_complete w0 hS hsol (isT : (1 < 3)%N).
rewrite ea /get_field_fourier hp; last by right; right; rewrite [drop _ _]/= hd.
cbn [List.nth_error bind nth]; rewrite /translate; cbn [sl_thick bire bind fst snd].
rewrite -/(bire n54 (inr (rc c)%:M)) !vmul_vec.
set A := _ * cexp _; set B := _ * cexp _.
have [F [hF [h1 [h2 [h3 [h4 [h5 h6]]]]]]] := mid_field A B.
rewrite -/(bire n54 (inr (rc c)%:M)) hF bindE /=; eexists; split; first by [].
by rewrite (mid_stress h1 h2 h3 h4 h5 h6).
Qed.

Lemma mid_varies : c <> 16%Re -> exists T T',
  run_stress demo_eig demo_pw demo_rec demo_h form stress_layers ord0 1 0 = Ok T /\
  run_stress demo_eig demo_pw demo_rec demo_h form stress_layers ord0 1 (1 / 16) = Ok T' /\ T.2 <> T'.2.
Proof.
move=> c16; have [T [hT eT]] := mid_run (0 / 16)%Re; have [T' [hT' eT']] := mid_run (1 / 16)%Re.
have e00 : (0 / 16 = 0)%Re by field.
exists T, T'; split; first by rewrite -hT e00.
split=> //.
move: eT eT'; cbv zeta.
have q0 := quarter 0; have q1 := quarter 1; have q15 := quarter 15; have q16 := quarter 16.
have e15 : (1 - 1 / 16 = 15 / 16)%Re by field.
have e16 : (1 - 0 / 16 = 16 / 16)%Re by field.
rewrite e15 e16 q0 q1 q15 q16.
have -> : (0 * (PI / 2) = 0)%Re by ring.
have -> : (1 * (PI / 2) = PI / 2)%Re by ring.
have -> : (15 * (PI / 2) = - (PI / 2) + 2 * INR 4 * PI)%Re by rewrite /=; field.
have -> : (16 * (PI / 2) = 0 + 2 * INR 4 * PI)%Re by rewrite /=; field.
rewrite !cos_period !sin_period cos_neg sin_neg cos_PI2 sin_PI2 cos_0 sin_0.
rewrite rcV; last lra.
move=> -> ->; rewrite /conj /=.
have e2 : (2%Re : R) = 2%:R by rewrite mulr2n; rfold; ring.
rewrite -[2%:R^-1]/(GRing.inv (2%:R : R)) -e2 -R_invE; last lra.
rfold => H; apply: c16; lra.
Qed.
End Mid.

(** ** A grating treated with the inverse rule: permittivities 10 and 40 *)
Definition grating_u : 'M[C]_(2, 1) := \matrix_(x, y) (if (x : nat) == 0%N then rc 10%Re else rc 40%Re).

Lemma one_toep (u : 'M[C]_(2, 1)) c : mean u = rc c -> get_toeplitz demo_h u = Ok (rc c)%:M.
Proof.
move=> hm; rewrite /get_toeplitz; case: (toeplitzP (isT : (0 < 2)%N) (isT : (0 < 1)%N) demo_h u) => [[_ ->]|[H _]] /=.
  by congr Ok; apply/matrixP=> i j; rewrite !mxE (ord1 i) (ord1 j) eqxx mulr1n coef_mean // hm.
by case: H => i j; rewrite /indexable /index_ok /=; split; lia.
Qed.

Lemma mean21 (u : 'M[C]_(2, 1)) (a b : R) : u ord0 ord0 = rc a -> u ord_max ord0 = rc b -> mean u = rc ((a + b) / 2)%Re.
Proof.
move=> ha hb; rewrite /mean !big_ord_recl !big_ord0 !addr0.
have -> : lift ord0 ord0 = ord_max :> 'I_2 by apply: val_inj.
rewrite ha hb; have -> : ((2 * 1)%N%:R : C) = rc 2%Re.
  have e4 : (2%Re : R) = (2 * 1)%N%:R by rewrite muln1 mulr2n; rfold; ring.
  by rewrite e4 rmorph_nat.
rewrite rcV; last by apply: Rgt_not_eq; lra.
by rewrite -!rmorphD -rmorphM; congr (real_complex R_rcfType _); rfold; field.
Qed.

Lemma grating_layer : solve_layer demo_eig w 0 0 demo_h (Tangent1D 2 1) (Some 1%Re) 1 (EpsGrid grating_u) =
  Ok (bire n54 (inr (rc 25%Re)%:M)).
Proof.
have w0 := demo_w.
have t1 : get_toeplitz demo_h grating_u = Ok (rc 25%Re)%:M.
  apply: one_toep; have -> : (25 = (10 + 40) / 2)%Re by field.
  by apply: mean21; rewrite mxE.
pose v : 'M[C]_(2, 1) := \matrix_(x, y) (if (x : nat) == 0%N then rc (/ 10)%Re else rc (/ 40)%Re).
have pv : pointwise_inv grating_u = Ok v.
  rewrite /pointwise_inv; case: ifP => [_|/negbT/negP []].
    congr Ok; apply/matrixP=> i j; rewrite !mxE; case: ifP => _; rewrite rcV //; lra.
  apply/forallP=> i; apply/forallP=> j; rewrite mxE.
  by case: ifP => _; apply/eqP=> -[]; apply: Rgt_not_eq; rfold; lra.
have t2 : get_toeplitz demo_h v = Ok (rc (/ 16)%Re)%:M.
  apply: one_toep; have -> : (/ 16 = (/ 10 + / 40) / 2)%Re by field.
  by apply: mean21; rewrite mxE.
have nz (x : R) : (0 < x)%Re -> (rc x)%:M \in @unitmx _ 1.
  by move=> x0; rewrite unitmxE det_scalar1 unitfE; apply/eqP=> -[]; exact: Rgt_not_eq.
have nu : nu_hat_inv_iso demo_h grating_u = Ok (rc 16%Re)%:M.
  rewrite /nu_hat_inv_iso pv bindE t2 bindE /linv nz; last lra.
  rewrite invmx_scalar rcV; last lra.
  by have -> : (/ / 16 = 16)%Re by field.
rewrite /solve_layer /build_matrix t1 bindE /linv nz ?bindE; last lra.
rewrite nu bindE /assemble oner_eq0 !diag0 oppr0 K00 K00 !bindE [bt_matrix _]/= [bt_eps_hat _]/= [bt_Qeps _]/=.
rewrite mulmx0 mul0mx addr0 !subr0 !two_block dgM !scaledg.
congr (Ok (SLayer _ _ _ _ _)).
- rewrite /eigen_q demo_eig_dg; apply/rowP=> i; rewrite !mxE /two /omega2 /n54.
  have -> : (if (i < 1)%N then 1 else 1) = 1 :> C by case: ifP.
  rewrite mulr1; case: ifP => _; rewrite -rmorphM -demo_branch; try (apply: Rmult_le_pos; lra);
  by congr (branch (rc _)); rfold; ring.
- by rewrite /eigen_phi demo_eig_dg.
- by apply: dg_eq => i; rewrite /two; case: ifP; rewrite mulr1.
Qed.

Lemma grating_lossless : lossless (EpsGrid grating_u).
Proof. by move=> x y; rewrite mxE; case: ifP => _; exact: rc_conj. Qed.

(** ** A uniform pattern of the tensor diag(25, 16, 1) *)
Lemma tensor_layer (Nx Ny : nat) : (0 < Nx)%N -> (0 < Ny)%N ->
  solve_layer demo_eig w 0 0 demo_h (Original Nx Ny) (Some 1%Re) 1 (EpsTensorGrid (demo_u Nx Ny 5 4)) =
  Ok (bire n54 (inr (rc 1%Re)%:M)).
Proof.
move=> Nx0 Ny0; have := @demo_layer1 Nx Ny Nx0 Ny0 5 4 ltac:(lra) ltac:(lra).
rewrite /solve_layer; case: (build_matrix _ _ _ _ _ _ _) => [b|] // ; rewrite !bindE.
case: (bt_matrix b) => [m|] //; case: (bt_eps_hat b) => [eh|] // [h1 h2 h3 h4].
rewrite h1 h2 h3 h4; congr (Ok (SLayer _ _ _ _ _)).
by apply/rowP=> i; rewrite !mxE /two /n54; case: ifP.
Qed.

Lemma tensor_lossless (Nx Ny : nat) : lossless (EpsTensorGrid (demo_u Nx Ny 5 4)).
Proof.
move=> a b x y; rewrite !mxE eq_sym; case: eqP => [->|_] /=; last by apply/esym; exact: (conj_nat 0).
by do 2 (case: ifP => _; first by apply/esym; exact: rc_conj); apply/esym; exact: (conj_nat 1).
Qed.

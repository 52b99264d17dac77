(** A concrete three layer structure on which every hypothesis of the run level
    theorems is met: normal incidence, one order, a half wave patterned layer. *)
From Coq Require Import Reals ZArith Lra Lia.
From mathcomp Require Import all_ssreflect all_algebra.
From mathcomp Require Import complex.
From Verif Require Import RStruct Cplx Cderiv Base Fourier_Model Fourier_Spec Sim_Model Sim_Spec Setup_Model.
From Verif Require Import SMat_Proofs SMat_Proofs2 SMat_Proofs3 Maxwell_Spec Modes_Proofs Maxwell_Proofs.
From Verif Require Import Fourier_Proofs Energy_Spec Energy_Proofs Energy_Proofs2 Energy_Proofs3 Basis_Proofs.
From Verif Require Import Run_Proofs Diag_Proofs Orders_Model Orders_Proofs Aniso_Proofs.

Set Implicit Arguments.
Unset Strict Implicit.
Unset Printing Implicit Defensive.

Import Order.TTheory GRing.Theory Num.Theory.
Local Open Scope ring_scope.
Local Open Scope complex_scope.

Notation half := (2%:R^-1 : C).

(** One step of the recursion between decoupled layers. *)
Lemma step_dg nh (l l' : slayer nh) d d' s11 s12 s21 s22 : decoupled l d -> decoupled l' d' ->
  let a := adm l d in let b := adm l' d' in
  let p i := half * (1 + b i / a i) in let m i := half * (1 - b i / a i) in
  let f i := phasor (sl_q l) (thick0 l) ord0 i in let f' i := phasor (sl_q l') (thick0 l') ord0 i in
  let A i := p i - f i * s12 i * m i in
  (forall i, A i != 0) ->
  smat_step l l' (SMat (dg s11) (dg s12) (dg s21) (dg s22)) =
  Ok (SMat (dg (fun i => f i * s11 i / A i)) (dg (fun i => (f i * s12 i * p i - m i) * f' i / A i))
           (dg (fun i => s22 i * m i * (f i * s11 i / A i) + s21 i))
           (dg (fun i => s22 i * m i * ((f i * s12 i * p i - m i) * f' i / A i) + s22 i * p i * f' i))).
Proof.
move=> H H' a b p m f f' A hA.
rewrite /smat_step /build_Imatrix (dc_q H) (dc_q H') (M_dg H) (M_dg H') M_solve ?bindE; last exact: adm_neq0 H.
rewrite block_mxKul block_mxKur block_mxKdl block_mxKdr [S11 _]/= [S12 _]/= [S21 _]/= [S22 _]/=.
have phE (x : slayer nh) : diag_mx (phasor (sl_q x) (thick0 x)) = dg (fun i => phasor (sl_q x) (thick0 x) ord0 i).
  by congr diag_mx; apply/rowP=> i; rewrite [RHS]mxE.
rewrite !phE -/f -/f' -/p -/m !dgM !dgB !dgM.
rewrite (solve_dg (X := dg (fun i => f i * s11 i / A i))) //; last first.
  by rewrite dgM; apply: dg_eq => i; rewrite mulrC divfK.
rewrite bindE (solve_dg (X := dg (fun i => (f i * s12 i * p i - m i) * f' i / A i))) //; last first.
  by rewrite dgM; apply: dg_eq => i; rewrite mulrC divfK.
by rewrite bindE !dgM !dgD.
Qed.

Notation w := (sim_omega demo_pw).

(** an isotropic medium of index n at normal incidence, thickness one *)
Definition medium (n : R) (e : C + 'M[C]_1) : slayer 1 :=
  SLayer (Some 1%Re) (\row_i rc (w * n)%Re) 1%:M (dg (fun _ => omega2 w)) e.

Lemma medium_dec n e : (0 < n)%Re -> decoupled (medium n e) (fun _ => omega2 w).
Proof.
move=> n0; split=> // [|i]; last exact: w2n.
by apply/forallP=> i; rewrite mxE; apply/eqP=> -[]; apply: Rgt_not_eq; apply: Rmult_lt_0_compat => //; exact: demo_w.
Qed.

Lemma medium_adm n e i : (0 < n)%Re -> adm (medium n e) (fun _ => omega2 w) i = rc (w / n)%Re.
Proof.
move=> n0; have w0 := demo_w; rewrite /adm mxE /omega2 rcV -?rmorphM; last by apply: Rgt_not_eq; exact: Rmult_lt_0_compat.
by congr (real_complex R_rcfType _); rfold; field; lra.
Qed.

Lemma medium_phase n e (k : nat) i : n = INR k -> phasor (sl_q (medium n e)) (thick0 (medium n e)) ord0 i = 1.
Proof.
move=> ->; rewrite mxE mxE /thick0 [odflt _ _]/= mulr1.
have -> : 'i * rc (w * INR k)%Re = Complex 0%Re (0 + 2 * INR k * PI)%Re.
  apply/eqP; rewrite eq_complex /=; apply/andP; split; apply/eqP; rewrite /sim_omega /pw_k0 /=; rfold; field.
rewrite /cexp /= exp_0 sin_period cos_period sin_0 cos_0.
by apply/eqP; rewrite eq_complex /=; apply/andP; split; apply/eqP; rfold; ring.
Qed.

Section D3.
Variables (Nx Ny : nat).
Hypotheses (Nx0 : (0 < Nx)%N) (Ny0 : (0 < Ny)%N).

Lemma medium_uniform form n : (0 < n)%Re ->
  solve_layer demo_eig w 0 0 demo_h form (Some 1%Re) 1 (EpsUniform Nx Ny (rc (n * n)%Re)) =
  Ok (medium n (inl (rc (n * n)%Re))).
Proof.
move=> n0; have w0 := demo_w.
rewrite /solve_layer /build_matrix.
have -> : (rc (n * n)%Re == 0) = false by apply/eqP=> -[]; apply: Rgt_not_eq; exact: Rmult_lt_0_compat.
rewrite !diag0 oppr0 K00 subr0 bindE [bt_Qeps _]/=; congr (Ok (SLayer _ _ _ _ _)).
- apply/rowP=> i; rewrite [RHS]mxE; have e : csqrt (rc (n * n)%Re * 1 * omega2 w - 0 - 0) = rc (w * n)%Re.
    rewrite !subr0 mulr1 /omega2 -rmorphM -demo_sqrt; last by apply: Rmult_le_pos; lra.
    by congr (csqrt (rc _)); rfold; ring.
  by case: (split_ordP i) => k ->; rewrite ?row_mxEl ?row_mxEr mxE [kx in kx ^+ 2]mxE expr0n e.
- by rewrite two_block scaledg; apply: dg_eq => i; rewrite /two; case: ifP; rewrite mulr1.
Qed.

(** a grid of mean n^2: only the mean matters with a single order *)
Lemma medium_grid (u : 'M[C]_(Nx, Ny)) n : (0 < n)%Re -> mean u = rc (n * n)%Re ->
  solve_layer demo_eig w 0 0 demo_h (Original Nx Ny) (Some 1%Re) 1 (EpsGrid u) =
  Ok (medium n (inr (rc (n * n)%Re)%:M)).
Proof.
move=> n0 hm; have w0 := demo_w.
have ht : get_toeplitz demo_h u = Ok (rc (n * n)%Re)%:M.
  rewrite /get_toeplitz; case: (toeplitzP Nx0 Ny0 demo_h u) => [[_ ->]|[H _]] /=.
    by congr Ok; apply/matrixP=> i j; rewrite !mxE (ord1 i) (ord1 j) eqxx mulr1n coef_mean.
  case: H => i j; rewrite /indexable /index_ok /=.
  by move/ssrnat.ltP: Nx0 => ?; move/ssrnat.ltP: Ny0 => ?; split; lia.
have e0 : rc (n * n)%Re != 0 by apply/eqP=> -[]; apply: Rgt_not_eq; exact: Rmult_lt_0_compat.
have hu : (rc (n * n)%Re)%:M \in @unitmx _ 1 by rewrite unitmxE det_scalar1 unitfE.
rewrite /solve_layer /build_matrix ht bindE /linv hu !bindE /assemble oner_eq0 !diag0 oppr0 K00 K00 bindE.
rewrite [bt_matrix _]/= [bt_eps_hat _]/= [bt_Qeps _]/=.
rewrite mulmx0 mul0mx addr0 !subr0 !two_block dgM !scaledg.
congr (Ok (SLayer _ _ _ _ _)).
- rewrite /eigen_q demo_eig_dg; apply/rowP=> i; rewrite !mxE /two /omega2.
  have -> : (if (i < 1)%N then 1 else 1) = 1 :> C by case: ifP.
  rewrite mulr1; have -> : (if (i < 1)%N then rc (n * n)%Re else rc (n * n)%Re) = rc (n * n)%Re by case: ifP.
  rewrite -rmorphM -demo_branch; last by apply: Rmult_le_pos; lra.
  by congr (branch (rc _)); rfold; ring.
- by rewrite /eigen_phi demo_eig_dg.
- by apply: dg_eq => i; rewrite /two; case: ifP; rewrite mulr1.
Qed.

Lemma three_media (e0 e1 e2 : C + 'M[C]_1) :
  (exists Sm, smatrix [:: medium 1 e0; medium 2 e1; medium 3 e2] = Ok Sm) /\
  (exists Sm, smatrix [:: medium 2 e1; medium 3 e2] = Ok Sm).
Proof.
have w0 := demo_w; have p1 : (0 < 1)%Re by lra. have p2 : (0 < 2)%Re by lra. have p3 : (0 < 3)%Re by lra.
have w1 : rc w != 0 by apply/eqP=> -[]; exact: Rgt_not_eq.
rewrite /smatrix /smat_loop -/smat_loop /smat_id dg1 dg0.
have d0 := medium_dec e0 p1; have d1 := medium_dec e1 p2; have d2 := medium_dec e2 p3.
have o1 : (1 : C) = rc 1%Re by [].
have ph k e i : phasor (sl_q (medium (INR k) e)) (thick0 (medium (INR k) e)) ord0 i = 1 by apply: medium_phase.
have ph1 e i : phasor (sl_q (medium 1 e)) (thick0 (medium 1 e)) ord0 i = 1 by apply: (ph 1%N).
have ph2 e i : phasor (sl_q (medium 2 e)) (thick0 (medium 2 e)) ord0 i = 1.
  have -> : 2%Re = INR 2 by rewrite /=; lra.
  exact: ph.
have hp x y (e e' : C + 'M[C]_1) i : (0 < x)%Re -> (0 < y)%Re ->
  half * (1 + adm (medium y e') (fun=> omega2 w) i / adm (medium x e) (fun=> omega2 w) i) = rc ((1 + x / y) / 2)%Re.
  move=> x0 y0; have q : (0 < w / x)%Re by apply: Rmult_lt_0_compat => //; exact: Rinv_0_lt_compat.
  rewrite !medium_adm // rcV ?half_rc -?rmorphM ?o1; last by apply: Rgt_not_eq.
  rewrite -rmorphD -rmorphM; congr (real_complex R_rcfType _); rfold; field; lra.
have hm x y (e e' : C + 'M[C]_1) i : (0 < x)%Re -> (0 < y)%Re ->
  half * (1 - adm (medium y e') (fun=> omega2 w) i / adm (medium x e) (fun=> omega2 w) i) = rc ((1 - x / y) / 2)%Re.
  move=> x0 y0; have q : (0 < w / x)%Re by apply: Rmult_lt_0_compat => //; exact: Rinv_0_lt_compat.
  rewrite !medium_adm // rcV ?half_rc -?rmorphM ?o1; last by apply: Rgt_not_eq.
  rewrite -rmorphB -rmorphM; congr (real_complex R_rcfType _); rfold; field; lra.
split; last first.
  rewrite (step_dg _ _ _ d1 d2) ?bindE; first by eexists.
  by move=> i; rewrite hp // mulr0 mul0r subr0; apply/eqP=> -[]; apply: Rgt_not_eq; rfold; lra.
rewrite (step_dg _ _ _ d0 d1); last first.
  by move=> i; rewrite hp // mulr0 mul0r subr0; apply/eqP=> -[]; apply: Rgt_not_eq; rfold; lra.
rewrite bindE (step_dg _ _ _ d1 d2) ?bindE; first by eexists.
move=> i; rewrite !hp // !hm // ph1 !ph2 !(mulr0, mul0r, mul1r, subr0, sub0r, mulr1).
rewrite -rmorphN rcV; last by apply: Rgt_not_eq; lra.
by rewrite -!rmorphM -rmorphB; apply/eqP=> -[]; apply: Rgt_not_eq; rfold; lra.
Qed.

Definition demo_layers (u : 'M[C]_(Nx, Ny)) : seq (layer_in Nx Ny) :=
  [:: LayerIn (Some 1%Re) (EpsUniform Nx Ny (rc (1 * 1)%Re)); LayerIn (Some 1%Re) (EpsGrid u);
      LayerIn (Some 1%Re) (EpsUniform Nx Ny (rc (3 * 3)%Re))].

Lemma demo_solve u : mean u = rc (2 * 2)%Re -> exists e0 e1 e2,
  solve_stack demo_eig demo_pw demo_rec demo_h (Original Nx Ny) (rc (1 * 1)%Re) (demo_layers u) =
  Ok [:: medium 1 e0; medium 2 e1; medium 3 e2].
Proof.
move=> hu; rewrite /solve_stack; have [-> ->] := demo_k (rc (1 * 1)%Re).
rewrite /= !medium_uniform; [|lra..]; rewrite /= (medium_grid _ hu); last lra.
by do 3!eexists.
Qed.

Lemma demo_eff u : mean u = rc (2 * 2)%Re -> exists r,
  run_efficiencies demo_eig demo_pw demo_rec demo_h (Original Nx Ny) (demo_layers u) ord0 = Ok r.
Proof.
move=> hu; have [e0 [e1 [e2 hs]]] := demo_solve hu; have [[Sm hS] _] := three_media e0 e1 e2.
rewrite /run_efficiencies /demo_layers [scalar_eps _]/= bindE demo_a0 bindE -/(demo_layers u) hs bindE.
by apply: eff_ok hS => /=; rewrite ?cos_0; lra.
Qed.

Lemma demo_field u k z : mean u = rc (2 * 2)%Re -> (k < 3)%N -> exists F,
  run_field demo_eig demo_pw demo_rec demo_h (Original Nx Ny) (demo_layers u) ord0 k z = Ok F.
Proof.
move=> hu hk; rewrite /run_field /demo_layers [scalar_eps _]/= bindE demo_a0 bindE -/(demo_layers u).
rewrite /solve_stack; have [-> ->] := demo_k (rc (1 * 1)%Re).
rewrite /= !medium_uniform; [|lra..]; rewrite /= (medium_grid _ hu) ?bindE; last lra.
set e0 := inl _; set e1 := inr _; set e2 := inl _.
have [[Sm hS] [Sd hd]] := three_media e0 e1 e2.
have w0 : rc w != 0 by apply/eqP=> -[]; apply: Rgt_not_eq; exact: demo_w.
have [ps hps] := smatrix_exists w0 (sim_a0 ord0 (0%Re, 1%Re)) 0 hS.
have [p hp] : exists p, get_amplitudes [:: medium 1 e0; medium 2 e1; medium 3 e2] k (sim_a0 ord0 (0%Re, 1%Re)) 0 = Ok p.
  eexists; apply: (get_amplitudes_complete w0 hS hps) => //.
  by case: k hk => [|[|[|k]]] // _; [left|right; right; rewrite -[drop _ _]/[:: medium 2 e1; medium 3 e2] hd|right; left].
have fok n e (a : amp 1) : (0 < n)%Re -> (match e with inl c => c != 0 | inr M => M \in unitmx end) ->
   exists F, field_of w 0 0 (medium n e) a = Ok F.
  move=> n0 he; rewrite /field_of (dc_q (medium_dec e n0)) (negPf w0) /=.
  by case: e he => [c|M] he; [rewrite (negPf he)|rewrite solve_unit // bindE]; eexists.
have nz (x : R) : (0 < x)%Re -> rc x != 0 by move=> ?; apply/eqP=> -[]; exact: Rgt_not_eq.
rewrite /get_field_fourier hp.
case: k hk {hp} => [|[|[|k]]] // _; cbn [List.nth_error bind translate sl_thick medium].
- by apply: fok; [lra|apply: nz; lra].
- apply: fok; first lra.
  by rewrite /e1 unitmxE det_scalar1 unitfE; apply: nz; lra.
- by apply: fok; [lra|apply: nz; lra].
Qed.

(** a genuinely patterned grid of mean 4 *)
End D3.

Definition demo_grid : 'M[C]_(2, 2) := \matrix_(x, y) (if (x : nat) == 0%N then rc 2%Re else rc 6%Re).

Lemma demo_mean : mean demo_grid = rc (2 * 2)%Re.
Proof.
rewrite /mean !big_ord_recl !big_ord0 !mxE /= !addr0.
have -> : ((2 * 2)%N%:R : C) = rc 4%Re.
  have e4 : (4%Re : R) = (2 * 2)%N%:R by rewrite natrM mulr2n; rfold; ring.
  by rewrite e4 rmorph_nat.
rewrite rcV; last by apply: Rgt_not_eq; lra.
by rewrite -!rmorphD -rmorphM; congr (real_complex R_rcfType _); rfold; field.
Qed.


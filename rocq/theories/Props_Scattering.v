(** Scattering: S-matrix, interior amplitudes, continuity, Maxwell, layer
    splitting (properties C20 to C26, C53). *)
From Coq Require Import Reals ZArith Lra Lia.
From mathcomp Require Import all_ssreflect all_algebra.
From mathcomp Require Import complex.
From Verif Require Import RStruct Cplx Cderiv Base Fourier_Model Fourier_Spec Sim_Model Sim_Spec Setup_Model.
From Verif Require Import Maxwell_Spec Energy_Spec.
From Verif Require Import SMat_Proofs SMat_Proofs2 SMat_Proofs3 Modes_Proofs Maxwell_Proofs Fourier_Proofs.
From Verif Require Import Basis_Proofs Run_Proofs Run_Proofs2 Orders_Proofs Diag_Proofs Aniso_Proofs Demo_Proofs.

Set Implicit Arguments.
Unset Strict Implicit.
Unset Printing Implicit Defensive.

Import Order.TTheory GRing.Theory Num.Theory.
Local Open Scope ring_scope.
Local Open Scope complex_scope.

(** ** C20 *)
(** Outgoing amplitudes are S times incoming ones exactly for the (unique)
    solution of the boundary problem. *)
Theorem C20_smatrix_solves (nh : nat) (omega : R) (stack : seq (slayer nh)) (Sm : smat nh) :
  rc omega != 0 -> smatrix stack = Ok Sm ->
  forall a0 bN : 'cV[C]_(nh + nh),
    exists ps, solves omega stack a0 bN ps /\
      (forall ps', solves omega stack a0 bN ps' -> ps' = ps) /\
      (last (0, 0) ps).1 = S11 Sm *m a0 + S12 Sm *m bN /\
      (head (0, 0) ps).2 = S21 Sm *m a0 + S22 Sm *m bN.
Proof.
move=> w0 hS a0 bN; have [ps hps] := smatrix_exists w0 a0 bN hS; exists ps; split=> //.
by split; [move=> ps' hps'; exact: (smatrix_unique w0 hS hps' hps)|exact: (smatrix_sound w0 hS hps)].
Qed.
Print Assumptions C20_smatrix_solves.

(** It raises exactly when some partial stack has a degenerate boundary problem,
    for layers with invertible mode matrices. *)
Theorem C20_smatrix_raises (nh : nat) (omega : R) (l0 l1 : slayer nh) (rest : seq (slayer nh)) :
  rc omega != 0 ->
  all (fun l => q_ok l && (build_Mmatrix l \in unitmx)) (belast l0 (l1 :: rest)) ->
  q_ok (last l0 (l1 :: rest)) ->
  ((exists Sm, smatrix [:: l0, l1 & rest] = Ok Sm) <->
   (forall k, (1 < k <= size [:: l0, l1 & rest])%N ->
      ~ degenerate omega (take k [:: l0, l1 & rest]))).
Proof. by move=> w0 h1 h2; exact: (smatrix_ok_iff w0 h1 h2). Qed.
Print Assumptions C20_smatrix_raises.

(** Concrete case: three different media. *)
Example C20_case : exists Sm, smatrix [:: medium 1 (inl 1); medium 2 (inl 1); medium 3 (inl 1)] = Ok Sm.
Proof. by have [h _] := three_media (inl 1) (inl 1) (inl 1). Qed.

(** ** C21 *)
Theorem C21_interior_amplitudes (nh : nat) (omega : R) (stack : seq (slayer nh)) (k : nat)
    (a0 : 'cV[C]_(nh + nh)) (p : amp nh) :
  rc omega != 0 -> get_amplitudes stack k a0 0 = Ok p ->
  (k < size stack)%N /\
  exists ps, solves omega stack a0 0 ps /\ (forall ps', solves omega stack a0 0 ps' -> ps' = ps) /\
    p = nth (0, 0) ps k.
Proof. by move=> w0 hp; exact: (get_amplitudes_global w0 hp). Qed.
Print Assumptions C21_interior_amplitudes.

(** The computation succeeds for every layer below which the partial S-matrix exists. *)
Theorem C21_interior_available (nh : nat) (omega : R) (stack : seq (slayer nh)) (Sm : smat nh) (k : nat)
    (a0 : 'cV[C]_(nh + nh)) :
  rc omega != 0 -> smatrix stack = Ok Sm -> (k < size stack)%N ->
  (k = 0%N \/ k = (size stack).-1 \/ is_ok (smatrix (drop k stack))) ->
  exists p, get_amplitudes stack k a0 0 = Ok p.
Proof.
move=> w0 hS hk hd; have [ps hps] := smatrix_exists w0 a0 0 hS.
by eexists; exact: (get_amplitudes_complete w0 hS hps hk hd).
Qed.
Print Assumptions C21_interior_available.

Example C21_case : exists p, get_amplitudes [:: medium 1 (inl 1); medium 2 (inl 1); medium 3 (inl 1)] 1
    (sim_a0 ord0 (0%Re, 1%Re)) 0 = Ok p.
Proof.
have [[Sm hS] [Sd hd]] := three_media (inl 1) (inl 1) (inl 1).
have w0 : rc (sim_omega demo_pw) != 0 by apply/eqP=> -[]; apply: Rgt_not_eq; exact: demo_w.
apply: (C21_interior_available _ w0 hS) => //.
by right; right; rewrite -[drop _ _]/[:: medium 2 (inl 1); medium 3 (inl 1)] hd.
Qed.

(** ** C22 *)
Section Runs.
Variables (Nx Ny nh : nat).
Hypotheses (Nx0 : (0 < Nx)%N) (Ny0 : (0 < Ny)%N).
(** the eigensolver, with its contract *)
Variable eig : forall m, 'M[C]_m -> 'rV[C]_m * 'M[C]_m.
Hypothesis eig_ok : forall m (A : 'M[C]_m), A *m (eig A).2 = (eig A).2 *m diag_mx (eig A).1.
Variables (pw : planewave) (rec : 'M[R]_2) (h : 'I_nh -> order) (form : formulation_t Nx Ny) (i0 : 'I_nh).

Theorem C22_continuity (layers : seq (layer_in Nx Ny)) (k : nat) li t F F' :
  List.nth_error layers k = Some li -> li_thick li = Some t ->
  run_field eig pw rec h form layers i0 k t = Ok F ->
  run_field eig pw rec h form layers i0 k.+1 0 = Ok F' ->
  [/\ f_ex F = f_ex F', f_ey F = f_ey F', f_hx F = f_hx F' & f_hy F = f_hy F'].
Proof. exact: run_continuous. Qed.

(** ** C23 *)
Theorem C23_maxwell (layers : seq (layer_in Nx Ny)) (k : nat) li l0 rest e0 z0 F0 :
  layers = l0 :: rest -> li_eps l0 = EpsUniform Nx Ny e0 ->
  List.nth_error layers k = Some li ->
  match li_eps li with EpsTensorGrid _ => False | _ => True end ->
  run_field eig pw rec h form layers i0 k z0 = Ok F0 ->
  exists F, (forall z, run_field eig pw rec h form layers i0 k z = Ok (F z)) /\
  forall z, exists Dx Dy Dz,
    constitutive h form (li_eps li) (f_ex (F z)) (f_ey (F z)) (f_ez (F z)) Dx Dy Dz /\
    maxwell_at (sim_omega pw) (sim_kx pw rec h e0) (sim_ky pw rec h e0) F Dx Dy Dz z.
Proof. by move=> -> h0 hk ht hF; exact: (run_maxwell Nx0 Ny0 eig_ok hk _ hF ht). Qed.

(** ** C24, C25 *)
Notation LayerIn := (@LayerIn Nx Ny).
Notation run_eff := (run_efficiencies eig pw rec h form).

Theorem C24_split l0 pre eps (t t' : R) l2 post :
  same_outcome
   (run_eff (l0 :: pre ++ LayerIn (Some (t + t')%Re) eps :: l2 :: post) i0)
   (run_eff (l0 :: pre ++ LayerIn (Some t) eps :: LayerIn (Some t') eps :: l2 :: post) i0).
Proof. exact: run_split. Qed.

Theorem C25_substrate_thickness l0 pre eps t t' :
  same_outcome (run_eff (l0 :: rcons pre (LayerIn t eps)) i0)
               (run_eff (l0 :: rcons pre (LayerIn t' eps)) i0).
Proof. exact: run_last_thick. Qed.

(** ** C26 *)
Theorem C26_constant_pattern l0 pre t c l2 post r r' :
  (* distinct retained orders are distinguished by the grid *)
  (forall i j, i != j -> ~ ((((h i).1 - (h j).1) mod Z.of_nat Nx = 0)%Zc /\
                            (((h i).2 - (h j).2) mod Z.of_nat Ny = 0)%Zc)) ->
  run_eff (l0 :: pre ++ LayerIn t (EpsGrid (const_mx c)) :: l2 :: post) i0 = Ok r ->
  run_eff (l0 :: pre ++ LayerIn t (EpsUniform Nx Ny c) :: l2 :: post) i0 = Ok r' ->
  r = r'.
Proof. by move=> hsep; exact: (run_const Nx0 Ny0 eig_ok hsep). Qed.

(** ** C53 *)
Variable eig2 : forall m, 'M[C]_m -> 'rV[C]_m * 'M[C]_m.
Hypothesis eig2_ok : forall m (A : 'M[C]_m), A *m (eig2 A).2 = (eig2 A).2 *m diag_mx (eig2 A).1.

Theorem C53_eigensolver_efficiencies l0 rest eN r r' :
  li_eps (last l0 rest) = EpsUniform Nx Ny eN ->
  run_efficiencies eig pw rec h form (l0 :: rest) i0 = Ok r ->
  run_efficiencies eig2 pw rec h form (l0 :: rest) i0 = Ok r' -> r = r'.
Proof. by move=> hN; exact: (run_eig_eff eig_ok eig2_ok hN). Qed.

Theorem C53_eigensolver_fields l0 rest eN k z F F' :
  li_eps (last l0 rest) = EpsUniform Nx Ny eN ->
  run_field eig pw rec h form (l0 :: rest) i0 k z = Ok F ->
  run_field eig2 pw rec h form (l0 :: rest) i0 k z = Ok F' -> F = F'.
Proof. by move=> hN; exact: (run_eig_field eig_ok eig2_ok hN). Qed.
End Runs.
Print Assumptions C22_continuity.
Print Assumptions C23_maxwell.
Print Assumptions C24_split.
Print Assumptions C25_substrate_thickness.
Print Assumptions C26_constant_pattern.
Print Assumptions C53_eigensolver_efficiencies.
Print Assumptions C53_eigensolver_fields.

(** ** Concrete cases: vacuum, a 2x2 patterned layer and a substrate of
    permittivity 9, at normal incidence, one order. *)
Notation demo_run_field k z :=
  (run_field demo_eig demo_pw demo_rec demo_h (Original 2 2) (demo_layers demo_grid) ord0 k z).
Notation demo_run_eff :=
  (run_efficiencies demo_eig demo_pw demo_rec demo_h (Original 2 2) (demo_layers demo_grid) ord0).

Example demo_eig_contract : forall m (A : 'M[C]_m),
  A *m (demo_eig A).2 = (demo_eig A).2 *m diag_mx (demo_eig A).1.
Proof. exact: demo_eig_ok. Qed.

Example C22_case : exists F F' G G',
  demo_run_field 0%N 1%Re = Ok F /\ demo_run_field 1%N 0%Re = Ok F' /\
  demo_run_field 1%N 1%Re = Ok G /\ demo_run_field 2%N 0%Re = Ok G'.
Proof.
have [F hF] := demo_field (isT : (0 < 2)%N) (isT : (0 < 2)%N) 1%Re demo_mean (isT : (0 < 3)%N).
have [F' hF'] := demo_field (isT : (0 < 2)%N) (isT : (0 < 2)%N) 0%Re demo_mean (isT : (1 < 3)%N).
have [G hG] := demo_field (isT : (0 < 2)%N) (isT : (0 < 2)%N) 1%Re demo_mean (isT : (1 < 3)%N).
have [G' hG'] := demo_field (isT : (0 < 2)%N) (isT : (0 < 2)%N) 0%Re demo_mean (isT : (2 < 3)%N).
by exists F, F', G, G'.
Qed.

Example C23_case : exists F, demo_run_field 1%N 0%Re = Ok F.
Proof. exact: (demo_field (isT : (0 < 2)%N) (isT : (0 < 2)%N) 0%Re demo_mean (isT : (1 < 3)%N)). Qed.

(** The unsplit stack of C24 runs (t = t' = 1/2), the substrate of C25 too. *)
Example C24_case : exists r,
  run_efficiencies demo_eig demo_pw demo_rec demo_h (Original 2 2)
    (LayerIn (Some 1%Re) (EpsUniform 2 2 (rc (1 * 1)%Re)) ::
     [::] ++ LayerIn (Some (/ 2 + / 2)%Re) (EpsGrid demo_grid) ::
     LayerIn (Some 1%Re) (EpsUniform 2 2 (rc (3 * 3)%Re)) :: [::]) ord0 = Ok r.
Proof.
have -> : (/ 2 + / 2 = 1)%Re by field.
exact: (demo_eff (isT : (0 < 2)%N) (isT : (0 < 2)%N) demo_mean).
Qed.

Lemma const_mean (c : C) : mean (const_mx c : 'M[C]_(2, 2)) = c.
Proof.
rewrite -coef_mean coef_const //.
Qed.

Lemma demo_unif_eff : exists r,
  run_efficiencies demo_eig demo_pw demo_rec demo_h (Original 2 2)
   [:: LayerIn (Some 1%Re) (EpsUniform 2 2 (rc (1 * 1)%Re)); LayerIn (Some 1%Re) (EpsUniform 2 2 (rc (2 * 2)%Re));
      LayerIn (Some 1%Re) (EpsUniform 2 2 (rc (3 * 3)%Re))] ord0 = Ok r.
Proof.
rewrite /run_efficiencies [scalar_eps _]/= bindE demo_a0 bindE.
rewrite /solve_stack; have [-> ->] := demo_k (rc (1 * 1)%Re).
rewrite /= !medium_uniform; [|lra..]; rewrite bindE.
set e0 := inl _; set e1 := inl _; set e2 := inl _.
have [[Sm hS] _] := three_media e0 e1 e2.
by apply: eff_ok hS => /=; rewrite ?cos_0; lra.
Qed.

Example C26_case : exists r r',
  run_efficiencies demo_eig demo_pw demo_rec demo_h (Original 2 2)
    (demo_layers (const_mx (rc (2 * 2)%Re))) ord0 = Ok r /\
  run_efficiencies demo_eig demo_pw demo_rec demo_h (Original 2 2)
   [:: LayerIn (Some 1%Re) (EpsUniform 2 2 (rc (1 * 1)%Re)); LayerIn (Some 1%Re) (EpsUniform 2 2 (rc (2 * 2)%Re));
      LayerIn (Some 1%Re) (EpsUniform 2 2 (rc (3 * 3)%Re))] ord0 = Ok r'.
Proof.
have [r hr] := demo_eff (isT : (0 < 2)%N) (isT : (0 < 2)%N) (const_mean (rc (2 * 2)%Re)).
by have [r' hr'] := demo_unif_eff; exists r, r'.
Qed.

Example C53_case : exists r, demo_run_eff = Ok r.
Proof. exact: (demo_eff (isT : (0 < 2)%N) (isT : (0 < 2)%N) demo_mean). Qed.

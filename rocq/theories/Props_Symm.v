(** The same structure seen from elsewhere (properties C74 to C80). *)
From Coq Require Import Reals ZArith Lra Lia.
From mathcomp Require Import all_ssreflect all_algebra all_fingroup.
From mathcomp Require Import complex.
From Verif Require Import RStruct Cplx Base Fourier_Model Fourier_Spec Sim_Model Setup_Model Symm_Spec.
From Verif Require Import Fourier_Proofs Aniso_Proofs Demo_Proofs Demo3_Proofs Symm_Proofs9 Symm_Proofs10 Symm_Proofs11.

Set Implicit Arguments.
Unset Strict Implicit.
Unset Printing Implicit Defensive.

Import Order.TTheory GRing.Theory Num.Theory.
Local Open Scope ring_scope.
Local Open Scope complex_scope.

Section Symm.
Variables (Nx Ny nh : nat).
Hypotheses (Nx0 : (0 < Nx)%N) (Ny0 : (0 < Ny)%N).
(** two eigensolvers: they may order and scale the eigenvectors differently *)
Variables (eig1 eig2 : forall m, 'M[C]_m -> 'rV[C]_m * 'M[C]_m).
Hypothesis eig1_ok : forall m (A : 'M[C]_m), A *m (eig1 A).2 = (eig1 A).2 *m diag_mx (eig1 A).1.
Hypothesis eig2_ok : forall m (A : 'M[C]_m), A *m (eig2 A).2 = (eig2 A).2 *m diag_mx (eig2 A).1.
Variables (pw : planewave) (rec rec1 rec2 : 'M[R]_2).
(** the first structure: any layers between a uniform superstrate and a uniform substrate *)
Variables (l1 l2 : layer_in Nx Ny) (rest1 rest2 : seq (layer_in Nx Ny)) (e0 eN : C).
Hypotheses (he1 : li_eps l1 = EpsUniform Nx Ny e0).
Hypotheses (heN1 : li_eps (last l1 rest1) = EpsUniform Nx Ny eN).

(** ** C74: a displacement of the whole structure by (a, b) samples *)
Section Translation.
Variables (h : 'I_nh -> order) (i0 : 'I_nh) (a b : Z) (form1 form2 : formulation_t Nx Ny).
Hypothesis h0 : h i0 = (0%Zc, 0%Zc).
Hypothesis hform : form_by True (@rolled a b Nx Ny) (fun s0 s1 t0 t1 => rolled a b s0 t0 /\ rolled a b s1 t1) form2 form1.
Hypothesis hlay : stack_by id (@rolled a b Nx Ny)
  (if_original form1 (tensor_signs (@rolled a b Nx Ny) 1)) (l2 :: rest2) (l1 :: rest1).
Theorem C74_translation r1 r2 :
  run_efficiencies eig1 pw rec h form1 (l1 :: rest1) i0 = Ok r1 ->
  run_efficiencies eig2 pw rec h form2 (l2 :: rest2) i0 = Ok r2 ->
  forall i, r2.1 i ord0 = r1.1 i ord0 /\ r2.2 i ord0 = r1.2 i ord0.
Proof. exact: (proj1 (translation Nx0 Ny0 eig1_ok eig2_ok _ _ h0 hform he1 heN1 hlay)). Qed.
Theorem C74_translation_fields k z F1 F2 :
  run_field eig1 pw rec h form1 (l1 :: rest1) i0 k z = Ok F1 ->
  run_field eig2 pw rec h form2 (l2 :: rest2) i0 k z = Ok F2 ->
  forall i, field_signs F2 F1 i i (shift_phase Nx Ny (h i) a b) 1 1 1 1 1 1.
Proof. exact: (proj2 (translation Nx0 Ny0 eig1_ok eig2_ok _ _ h0 hform he1 heN1 hlay)). Qed.
End Translation.

(** ** C75: lattice, materials and incidence plane turned by the same angle *)
Section Rotation.
Variables (h : 'I_nh -> order) (i0 : 'I_nh) (al : R).
Hypothesis hrec0 : forall j, rec2 ord0 j = (cos al * rec1 ord0 j - sin al * rec1 ord_max j)%Re.
Hypothesis hrec1 : forall j, rec2 ord_max j = (sin al * rec1 ord0 j + cos al * rec1 ord_max j)%Re.
Hypothesis hlay : stack_by id eq (@tensor_turned al Nx Ny) (l2 :: rest2) (l1 :: rest1).
Notation pw2 := (wave_turned (fun p => p + al)%Re id pw).
Theorem C75_rotation r1 r2 :
  run_efficiencies eig1 pw rec1 h (Original Nx Ny) (l1 :: rest1) i0 = Ok r1 ->
  run_efficiencies eig2 pw2 rec2 h (Original Nx Ny) (l2 :: rest2) i0 = Ok r2 ->
  forall i, r2.1 i ord0 = r1.1 i ord0 /\ r2.2 i ord0 = r1.2 i ord0.
Proof. exact: (proj1 (rotation Nx0 Ny0 eig1_ok eig2_ok _ _ _ hrec0 hrec1 he1 heN1 hlay)). Qed.
Theorem C75_rotation_fields k z F1 F2 :
  run_field eig1 pw rec1 h (Original Nx Ny) (l1 :: rest1) i0 k z = Ok F1 ->
  run_field eig2 pw2 rec2 h (Original Nx Ny) (l2 :: rest2) i0 k z = Ok F2 ->
  forall i, field_turned al F2 F1 i.
Proof. exact: (proj2 (rotation Nx0 Ny0 eig1_ok eig2_ok _ _ _ hrec0 hrec1 he1 heN1 hlay)). Qed.
End Rotation.

(** ** C76: all lengths multiplied by s, the wavelength too *)
Section Scale.
Variables (h : 'I_nh -> order) (i0 : 'I_nh) (s : R) (form : formulation_t Nx Ny).
Hypothesis s0 : (0 < s)%Re.
Hypothesis hrec : forall i j, rec2 i j = (rec1 i j / s)%Re.
Hypothesis hlay : stack_by (Rmult s) eq (if_original form eq) (l2 :: rest2) (l1 :: rest1).
Theorem C76_scale r1 r2 :
  run_efficiencies eig1 pw rec1 h form (l1 :: rest1) i0 = Ok r1 ->
  run_efficiencies eig2 (wave_scaled s pw) rec2 h form (l2 :: rest2) i0 = Ok r2 ->
  forall i, r2.1 i ord0 = r1.1 i ord0 /\ r2.2 i ord0 = r1.2 i ord0.
Proof. exact: (proj1 (scale Nx0 Ny0 eig1_ok eig2_ok _ _ _ s0 hrec he1 heN1 hlay)). Qed.
Theorem C76_scale_fields k z F1 F2 :
  run_field eig1 pw rec1 h form (l1 :: rest1) i0 k z = Ok F1 ->
  run_field eig2 (wave_scaled s pw) rec2 h form (l2 :: rest2) i0 k (s * z)%Re = Ok F2 ->
  forall i, field_signs F2 F1 i i 1 1 1 1 1 1 1.
Proof. exact: (proj2 (scale Nx0 Ny0 eig1_ok eig2_ok _ _ _ s0 hrec he1 heN1 hlay)). Qed.
End Scale.

(** ** C77, C78: mirror images, and the structure turned by half a turn *)
Section Mirror.
Variables (h1 h2 : 'I_nh -> order) (i1 i2 : 'I_nh) (c c' : Z) (form1 form2 : formulation_t Nx Ny).
Hypothesis hinj : injective h2.
Hypotheses (h10 : h1 i1 = (0%Zc, 0%Zc)) (h20 : h2 i2 = (0%Zc, 0%Zc)).

Section X.
Hypothesis hrec : rec ord0 ord_max = 0%Re /\ rec ord_max ord0 = 0%Re.
Hypothesis hh : forall i, exists j, h1 j = ((- (h2 i).1)%Zc, (h2 i).2).
Hypothesis hform : form_by True (@mirrored_x c Nx Ny) (fun s0 s1 t0 t1 => mirrored_x c s0 (- t0) /\ mirrored_x c s1 t1) form2 form1.
Hypothesis hlay : stack_by id (@mirrored_x c Nx Ny)
  (if_original form1 (tensor_signs (@mirrored_x c Nx Ny) (-1))) (l2 :: rest2) (l1 :: rest1).
Notation pw2 := (wave_turned (fun p => PI - p)%Re Ropp pw).
Theorem C77_mirror_x r1 r2 :
  run_efficiencies eig1 pw rec h1 form1 (l1 :: rest1) i1 = Ok r1 ->
  run_efficiencies eig2 pw2 rec h2 form2 (l2 :: rest2) i2 = Ok r2 ->
  forall i j, h1 j = ((- (h2 i).1)%Zc, (h2 i).2) -> r2.1 i ord0 = r1.1 j ord0 /\ r2.2 i ord0 = r1.2 j ord0.
Proof.
have [e1 e2 e3 e4] := turned_x pw.
have el : pw_lambda pw2 = pw_lambda pw by [].
have et : pw_theta pw2 = pw_theta pw by [].
exact (proj1 (mirror_x Nx0 Ny0 eig1_ok eig2_ok sq1 el et hinj h10 h20 he1 heN1 hrec hh e1 e2 e3 e4 hform hlay) r1 r2).
Qed.
Theorem C77_mirror_x_fields k z F1 F2 :
  run_field eig1 pw rec h1 form1 (l1 :: rest1) i1 k z = Ok F1 ->
  run_field eig2 pw2 rec h2 form2 (l2 :: rest2) i2 k z = Ok F2 ->
  forall i j, h1 j = ((- (h2 i).1)%Zc, (h2 i).2) ->
  field_signs F2 F1 i j (shift_phase Nx Ny (h2 i) c 0) 1 (-1) (-1) (-1) 1 1.
Proof.
have [e1 e2 e3 e4] := turned_x pw.
have el : pw_lambda pw2 = pw_lambda pw by [].
have et : pw_theta pw2 = pw_theta pw by [].
have H := proj2 (mirror_x Nx0 Ny0 eig1_ok eig2_ok sq1 el et hinj h10 h20 he1 heN1 hrec hh e1 e2 e3 e4 hform hlay).
by move=> H1 H2 i j e; have := H _ _ _ _ H1 H2 i j e; rewrite rc1 mul1r.
Qed.
End X.

Section Y.
Hypothesis hrec : rec ord0 ord_max = 0%Re /\ rec ord_max ord0 = 0%Re.
Hypothesis hh : forall i, exists j, h1 j = ((h2 i).1, (- (h2 i).2)%Zc).
Hypothesis hform : form_by True (@mirrored_y c Nx Ny) (fun s0 s1 t0 t1 => mirrored_y c s0 t0 /\ mirrored_y c s1 (- t1)) form2 form1.
Hypothesis hlay : stack_by id (@mirrored_y c Nx Ny)
  (if_original form1 (tensor_signs (@mirrored_y c Nx Ny) (-1))) (l2 :: rest2) (l1 :: rest1).
Notation pw2 := (wave_turned Ropp Ropp pw).
Theorem C77_mirror_y r1 r2 :
  run_efficiencies eig1 pw rec h1 form1 (l1 :: rest1) i1 = Ok r1 ->
  run_efficiencies eig2 pw2 rec h2 form2 (l2 :: rest2) i2 = Ok r2 ->
  forall i j, h1 j = ((h2 i).1, (- (h2 i).2)%Zc) -> r2.1 i ord0 = r1.1 j ord0 /\ r2.2 i ord0 = r1.2 j ord0.
Proof.
have [e1 e2 e3 e4] := turned_y pw.
have el : pw_lambda pw2 = pw_lambda pw by [].
have et : pw_theta pw2 = pw_theta pw by [].
exact (proj1 (mirror_y Nx0 Ny0 eig1_ok eig2_ok sq1 el et hinj h10 h20 he1 heN1 hrec hh e1 e2 e3 e4 hform hlay) r1 r2).
Qed.
Theorem C77_mirror_y_fields k z F1 F2 :
  run_field eig1 pw rec h1 form1 (l1 :: rest1) i1 k z = Ok F1 ->
  run_field eig2 pw2 rec h2 form2 (l2 :: rest2) i2 k z = Ok F2 ->
  forall i j, h1 j = ((h2 i).1, (- (h2 i).2)%Zc) ->
  field_signs F2 F1 i j (shift_phase Nx Ny (h2 i) 0 c) (-1) 1 (-1) 1 (-1) 1.
Proof.
have [e1 e2 e3 e4] := turned_y pw.
have el : pw_lambda pw2 = pw_lambda pw by [].
have et : pw_theta pw2 = pw_theta pw by [].
have H := proj2 (mirror_y Nx0 Ny0 eig1_ok eig2_ok sq1 el et hinj h10 h20 he1 heN1 hrec hh e1 e2 e3 e4 hform hlay).
by move=> H1 H2 i j e; have := H _ _ _ _ H1 H2 i j e; rewrite rc1 mul1r.
Qed.
End Y.

Section XY.
Hypothesis hh : forall i, exists j, h1 j = ((- (h2 i).1)%Zc, (- (h2 i).2)%Zc).
Hypothesis hform : form_by True (@inverted c c' Nx Ny) (fun s0 s1 t0 t1 => inverted c c' s0 (- t0) /\ inverted c c' s1 (- t1)) form2 form1.
Hypothesis hlay : stack_by id (@inverted c c' Nx Ny)
  (if_original form1 (tensor_signs (@inverted c c' Nx Ny) 1)) (l2 :: rest2) (l1 :: rest1).
Notation pw2 := (wave_turned (fun p => p + PI)%Re id pw).
Theorem C78_inversion r1 r2 :
  run_efficiencies eig1 pw rec h1 form1 (l1 :: rest1) i1 = Ok r1 ->
  run_efficiencies eig2 pw2 rec h2 form2 (l2 :: rest2) i2 = Ok r2 ->
  forall i j, h1 j = ((- (h2 i).1)%Zc, (- (h2 i).2)%Zc) -> r2.1 i ord0 = r1.1 j ord0 /\ r2.2 i ord0 = r1.2 j ord0.
Proof.
have [e1 e2 e3 e4] := turned_xy pw.
have el : pw_lambda pw2 = pw_lambda pw by [].
have et : pw_theta pw2 = pw_theta pw by [].
exact (proj1 (inversion_xy Nx0 Ny0 eig1_ok eig2_ok sq1 el et rec hinj h10 h20 he1 heN1 hh e1 e2 e3 e4 hform hlay) r1 r2).
Qed.
Theorem C78_inversion_fields k z F1 F2 :
  run_field eig1 pw rec h1 form1 (l1 :: rest1) i1 k z = Ok F1 ->
  run_field eig2 pw2 rec h2 form2 (l2 :: rest2) i2 k z = Ok F2 ->
  forall i j, h1 j = ((- (h2 i).1)%Zc, (- (h2 i).2)%Zc) ->
  field_signs F2 F1 i j (shift_phase Nx Ny (h2 i) c c') (-1) (-1) 1 (-1) (-1) 1.
Proof.
have [e1 e2 e3 e4] := turned_xy pw.
have el : pw_lambda pw2 = pw_lambda pw by [].
have et : pw_theta pw2 = pw_theta pw by [].
have H := proj2 (inversion_xy Nx0 Ny0 eig1_ok eig2_ok sq1 el et rec hinj h10 h20 he1 heN1 hh e1 e2 e3 e4 hform hlay).
by move=> H1 H2 i j e; have := H _ _ _ _ H1 H2 i j e; rewrite rc1 mul1r.
Qed.
End XY.
End Mirror.

(** one simulation of a structure that is its own image *)
Section Own.
Variables (h : 'I_nh -> order) (i0 : 'I_nh) (c c' : Z) (form : formulation_t Nx Ny).
Hypothesis hinj : injective h.
Hypotheses (h0 : h i0 = (0%Zc, 0%Zc)).
Notation run := (run_efficiencies eig1 pw rec h form (l1 :: rest1) i0).

(** in the mirror x -> c - x: incidence in the (y, z) plane, s or p *)
Theorem C77_symmetric_x r :
  rec ord0 ord_max = 0%Re /\ rec ord_max ord0 = 0%Re ->
  (forall i, exists j, h j = ((- (h i).1)%Zc, (h i).2)) ->
  form_by True (@mirrored_x c Nx Ny) (fun s0 s1 t0 t1 => mirrored_x c s0 (- t0) /\ mirrored_x c s1 t1) form form ->
  stack_by id (@mirrored_x c Nx Ny) (if_original form (tensor_signs (@mirrored_x c Nx Ny) (-1)))
    (l1 :: rest1) (l1 :: rest1) ->
  dir_x pw = 0%Re -> pol_x pw = 0%Re \/ pol_y pw = 0%Re ->
  run = Ok r ->
  forall i j, h j = ((- (h i).1)%Zc, (h i).2) -> r.1 i ord0 = r.1 j ord0 /\ r.2 i ord0 = r.2 j ord0.
Proof.
move=> hrec hh hf hl d hp H; case: hp => p.
  exact: (proj1 (@mirror_x Nx Ny nh Nx0 Ny0 c eig1 eig1 eig1_ok eig1_ok pw pw 1 sq1 erefl erefl rec h h i0 i0 hinj h0 h0 form form
    l1 l1 rest1 rest1 e0 eN he1 heN1 hrec hh ltac:(lra) ltac:(lra) ltac:(lra) ltac:(lra) hf hl) _ _ H H).
exact: (proj1 (@mirror_x Nx Ny nh Nx0 Ny0 c eig1 eig1 eig1_ok eig1_ok pw pw (-1) sqm1 erefl erefl rec h h i0 i0 hinj h0 h0 form form
    l1 l1 rest1 rest1 e0 eN he1 heN1 hrec hh ltac:(lra) ltac:(lra) ltac:(lra) ltac:(lra) hf hl) _ _ H H).
Qed.

(** in the mirror y -> c - y: incidence in the (x, z) plane, s or p *)
Theorem C77_symmetric_y r :
  rec ord0 ord_max = 0%Re /\ rec ord_max ord0 = 0%Re ->
  (forall i, exists j, h j = ((h i).1, (- (h i).2)%Zc)) ->
  form_by True (@mirrored_y c Nx Ny) (fun s0 s1 t0 t1 => mirrored_y c s0 t0 /\ mirrored_y c s1 (- t1)) form form ->
  stack_by id (@mirrored_y c Nx Ny) (if_original form (tensor_signs (@mirrored_y c Nx Ny) (-1)))
    (l1 :: rest1) (l1 :: rest1) ->
  dir_y pw = 0%Re -> pol_x pw = 0%Re \/ pol_y pw = 0%Re ->
  run = Ok r ->
  forall i j, h j = ((h i).1, (- (h i).2)%Zc) -> r.1 i ord0 = r.1 j ord0 /\ r.2 i ord0 = r.2 j ord0.
Proof.
move=> hrec hh hf hl d hp H; case: hp => p.
  exact: (proj1 (@mirror_y Nx Ny nh Nx0 Ny0 c eig1 eig1 eig1_ok eig1_ok pw pw (-1) sqm1 erefl erefl rec h h i0 i0 hinj h0 h0 form form
    l1 l1 rest1 rest1 e0 eN he1 heN1 hrec hh ltac:(lra) ltac:(lra) ltac:(lra) ltac:(lra) hf hl) _ _ H H).
exact: (proj1 (@mirror_y Nx Ny nh Nx0 Ny0 c eig1 eig1 eig1_ok eig1_ok pw pw 1 sq1 erefl erefl rec h h i0 i0 hinj h0 h0 form form
    l1 l1 rest1 rest1 e0 eN he1 heN1 hrec hh ltac:(lra) ltac:(lra) ltac:(lra) ltac:(lra) hf hl) _ _ H H).
Qed.

(** with a centre of symmetry, at normal incidence, for every polarisation *)
Theorem C78_symmetric r :
  (forall i, exists j, h j = ((- (h i).1)%Zc, (- (h i).2)%Zc)) ->
  form_by True (@inverted c c' Nx Ny) (fun s0 s1 t0 t1 => inverted c c' s0 (- t0) /\ inverted c c' s1 (- t1)) form form ->
  stack_by id (@inverted c c' Nx Ny) (if_original form (tensor_signs (@inverted c c' Nx Ny) 1))
    (l1 :: rest1) (l1 :: rest1) ->
  dir_x pw = 0%Re -> dir_y pw = 0%Re ->
  run = Ok r ->
  forall i j, h j = ((- (h i).1)%Zc, (- (h i).2)%Zc) -> r.1 i ord0 = r.1 j ord0 /\ r.2 i ord0 = r.2 j ord0.
Proof.
move=> hh hf hl d d' H.
exact: (proj1 (@inversion_xy Nx Ny nh Nx0 Ny0 c c' eig1 eig1 eig1_ok eig1_ok pw pw (-1) sqm1 erefl erefl rec h h i0 i0 hinj h0 h0 form form
    l1 l1 rest1 rest1 e0 eN he1 heN1 hh ltac:(lra) ltac:(lra) ltac:(lra) ltac:(lra) hf hl) _ _ H H).
Qed.
End Own.

(** ** C79: the axes exchanged *)
Section Exchange.
Variables (h1 h2 : 'I_nh -> order) (i1 i2 : 'I_nh).
Hypothesis hrec : [/\ rec2 ord0 ord0 = rec1 ord_max ord_max, rec2 ord0 ord_max = rec1 ord_max ord0,
  rec2 ord_max ord0 = rec1 ord0 ord_max & rec2 ord_max ord_max = rec1 ord0 ord0].
Hypothesis hinj : injective h2.
Hypothesis hh : forall i, exists j, h1 j = ((h2 i).2, (h2 i).1).
Hypotheses (h10 : h1 i1 = (0%Zc, 0%Zc)) (h20 : h2 i2 = (0%Zc, 0%Zc)).
Variables (form1 : formulation_t Nx Ny) (form2 : formulation_t Ny Nx).
(** not formulation='tangent' with a 1-D grating, whose lines are along y *)
Hypothesis hform : form_by False (@exchanged Nx Ny) (fun s0 s1 t0 t1 => exchanged s0 t1 /\ exchanged s1 t0) form2 form1.
Variables (m2 : layer_in Ny Nx) (mrest : seq (layer_in Ny Nx)).
Hypothesis hlay : stack_by id (@exchanged Nx Ny) (if_original form1 (@tensor_exchanged Nx Ny)) (m2 :: mrest) (l1 :: rest1).
Notation pw2 := (wave_turned (fun p => PI / 2 - p)%Re Ropp pw).
Theorem C79_exchange r1 r2 :
  run_efficiencies eig1 pw rec1 h1 form1 (l1 :: rest1) i1 = Ok r1 ->
  run_efficiencies eig2 pw2 rec2 h2 form2 (m2 :: mrest) i2 = Ok r2 ->
  forall i j, h1 j = ((h2 i).2, (h2 i).1) -> r2.1 i ord0 = r1.1 j ord0 /\ r2.2 i ord0 = r1.2 j ord0.
Proof. exact: (proj1 (exchange Nx0 Ny0 eig1_ok eig2_ok _ hrec hinj hh h10 h20 hform he1 heN1 hlay)). Qed.
Theorem C79_exchange_fields k z F1 F2 :
  run_field eig1 pw rec1 h1 form1 (l1 :: rest1) i1 k z = Ok F1 ->
  run_field eig2 pw2 rec2 h2 form2 (m2 :: mrest) i2 k z = Ok F2 ->
  forall i j, h1 j = ((h2 i).2, (h2 i).1) -> field_exchanged F2 F1 i j.
Proof. exact: (proj2 (exchange Nx0 Ny0 eig1_ok eig2_ok _ hrec hinj hh h10 h20 hform he1 heN1 hlay)). Qed.
End Exchange.

(** ** C80: the harmonics listed in another order *)
Section Reorder.
Variables (h1 h2 : 'I_nh -> order) (i1 i2 : 'I_nh) (form : formulation_t Nx Ny).
Hypothesis hinj : injective h2.
Hypothesis hh : forall i, exists j, h1 j = h2 i.
Hypothesis hi : h1 i1 = h2 i2.
Hypothesis hten : form = Original Nx Ny \/ List.Forall (fun l => forall u, li_eps l <> EpsTensorGrid u) (l1 :: rest1).
Hypothesis hun : forall l, List.In l (l1 :: rest1) -> forall u, li_eps l <> EpsTensorUniform Nx Ny u.
Theorem C80_reorder r1 r2 :
  run_efficiencies eig1 pw rec h1 form (l1 :: rest1) i1 = Ok r1 ->
  run_efficiencies eig2 pw rec h2 form (l1 :: rest1) i2 = Ok r2 ->
  forall i j, h1 j = h2 i -> r2.1 i ord0 = r1.1 j ord0 /\ r2.2 i ord0 = r1.2 j ord0.
Proof. exact: (proj1 (reorder Nx0 Ny0 eig1_ok eig2_ok pw rec hinj hh hi he1 heN1 hten hun)). Qed.
Theorem C80_reorder_fields k z F1 F2 :
  run_field eig1 pw rec h1 form (l1 :: rest1) i1 k z = Ok F1 ->
  run_field eig2 pw rec h2 form (l1 :: rest1) i2 k z = Ok F2 ->
  forall i j, h1 j = h2 i -> field_signs F2 F1 i j 1 1 1 1 1 1 1.
Proof. exact: (proj2 (reorder Nx0 Ny0 eig1_ok eig2_ok pw rec hinj hh hi he1 heN1 hten hun)). Qed.
End Reorder.
End Symm.

(** ** Concrete cases: lines of permittivity 4 + a and 4 - a, three orders *)
Definition trio : 'I_3 -> order := fun i => ((Z.of_nat i - 1)%Zc, 0%Zc).
Definition oirt : 'I_3 -> order := fun i => ((1 - Z.of_nat i)%Zc, 0%Zc).
Definition mid : 'I_3 := inord 1.
Definition lattice : 'M[R]_2 := \matrix_(i, j) (if i == j then 2 * PI else 0)%Re.
Definition light (phi psi : R) : planewave := PlaneWave (1 / 2) 0 phi psi.

Lemma ord3_lt (i : 'I_3) : (Z.of_nat i <= 2)%Zc.
Proof. by have := ltn_ord i => /ssrnat.ltP; lia. Qed.
Lemma trio_inj : injective trio.
Proof. by move=> i j e; apply: ord_inj; have {e} : (Z.of_nat i - 1 = Z.of_nat j - 1)%Zc := f_equal fst e; lia. Qed.
Lemma oirt_inj : injective oirt.
Proof. by move=> i j e; apply: ord_inj; have {e} : (1 - Z.of_nat i = 1 - Z.of_nat j)%Zc := f_equal fst e; lia. Qed.
Lemma trio_mid : trio mid = (0%Zc, 0%Zc).
Proof. by rewrite /trio /mid inordK. Qed.
Lemma oirt_mid : oirt mid = (0%Zc, 0%Zc).
Proof. by rewrite /oirt /mid inordK. Qed.
Lemma trio_rev i : trio (rev_ord i) = oirt i.
Proof. by rewrite /trio /oirt; congr pair; have := @ord3_lt i; rewrite [nat_of_ord (rev_ord i)]/= subSS -minusE; lia. Qed.
Lemma trio_neg i : ((- (trio i).1)%Zc, (trio i).2) = oirt i.
Proof. by rewrite /trio /oirt; cbn [fst snd]; congr pair; lia. Qed.
Lemma oirt_neg i : ((- (oirt i).1)%Zc, (oirt i).2) = trio i.
Proof. by rewrite /trio /oirt; cbn [fst snd]; congr pair; lia. Qed.
Lemma lat00 : lattice ord0 ord0 = (2 * PI)%Re. Proof. by rewrite mxE. Qed.
Lemma lat01 : lattice ord0 ord_max = 0%Re /\ lattice ord_max ord0 = 0%Re. Proof. by rewrite !mxE. Qed.


Lemma oddZ n : Z.odd (Z.of_nat n) = odd n.
Proof. by elim: n => // n ih; rewrite Nat2Z.inj_succ Z.odd_succ -Z.negb_odd ih. Qed.
Lemma odd_cong (x' : 'I_6) z : cong 6 (Z.of_nat x') z -> odd x' = Z.odd z.
Proof.
move=> [k hk]; rewrite -oddZ hk -[Z.of_nat 6]/6%Zc.
have -> : (z + 6 * k = z + 2 * (3 * k))%Zc by lia.
exact: Z.odd_add_mul_2.
Qed.
(** displaced by one line *)
Lemma stripes_rolled a : rolled 1 0 (stripes (- a)) (stripes a).
Proof.
move=> x x' y y' /odd_cong hx _; rewrite !mxE hx Z.odd_add oddZ.
by case: (odd x); rewrite /=; congr (rc _); lra.
Qed.
(** in a mirror between two lines, and in the middle of one *)
Lemma stripes_mirror a : mirrored_x 1 (stripes (- a)) (stripes a).
Proof.
move=> x x' y /odd_cong hx; rewrite !mxE hx Z.odd_sub oddZ.
by case: (odd x); rewrite /=; congr (rc _); lra.
Qed.
Lemma stripes_mirror0 a : mirrored_x 0 (stripes a) (stripes a).
Proof. by move=> x x' y /odd_cong hx; rewrite !mxE hx Z.odd_sub oddZ; case: (odd x). Qed.
Lemma stripes_mirror_y a c : mirrored_y c (stripes a) (stripes a).
Proof. by move=> x y y' _; rewrite !mxE. Qed.
Lemma stripes_inverted a c : inverted 1 c (stripes (- a)) (stripes a).
Proof. by move=> x x' y y' /(@stripes_mirror a) h _; rewrite (h y') !mxE. Qed.
Lemma stripes_inverted0 a c : inverted 0 c (stripes a) (stripes a).
Proof. by move=> x x' y y' /(@stripes_mirror0 a) h _; rewrite (h y') !mxE. Qed.

Lemma stack3 f (P : 'M[C]_(6, 1) -> 'M[C]_(6, 1) -> Prop) T t0 t1 t2 (u v : 'M[C]_(6, 1)) : P u v ->
  stack_by f P T (demo3_layers (f t0) (f t1) (f t2) u) (demo3_layers t0 t1 t2 v).
Proof. by move=> h; repeat constructor. Qed.

Lemma runs3 pw (rec : 'M[R]_2) h i0 t0 t1 t2 a :
  (0 < pw_lambda pw)%Re -> pw_theta pw = 0%Re -> rec ord_max ord0 = 0%Re ->
  (rec ord0 ord0 * rec ord0 ord0 < sim_omega pw * sim_omega pw)%Re -> h = trio \/ h = oirt ->
  (exists r, run_efficiencies demo_eig pw rec h (Original 6 1) (demo3_layers t0 t1 t2 (stripes a)) i0 = Ok r) /\
  (exists F, run_field demo_eig pw rec h (Original 6 1) (demo3_layers t0 t1 t2 (stripes a)) i0 1 (1/3) = Ok F).
Proof.
move=> hl ht hr1 hr hh.
have hx : forall i, (h i).2 = 0%Zc /\ (-1 <= (h i).1 <= 1)%Zc.
  by case: hh => -> i; rewrite /trio /oirt; cbn [fst snd]; have := @ord3_lt i; lia.
have hi : injective h by case: hh => ->; [exact: trio_inj | exact: oirt_inj].
have hu := stripes_toep a hi hx.
by split; [exact: demo3_eff | exact: demo3_field].
Qed.
Lemma light_ok phi psi : (lattice ord0 ord0 * lattice ord0 ord0 < sim_omega (light phi psi) * sim_omega (light phi psi))%Re.
Proof.
have -> : sim_omega (light phi psi) = (4 * PI)%Re by rewrite /sim_omega /pw_k0 /=; field.
by rewrite lat00; have := PI_RGT_0; nra.
Qed.
Lemma light_runs phi psi h i0 a : h = trio \/ h = oirt ->
  (exists r, run_efficiencies demo_eig (light phi psi) lattice h (Original 6 1) (demo3_layers 1 (1/5) 1 (stripes a)) i0 = Ok r) /\
  (exists F, run_field demo_eig (light phi psi) lattice h (Original 6 1) (demo3_layers 1 (1/5) 1 (stripes a)) i0 1 (1/3) = Ok F).
Proof.
move=> hh; apply: runs3 => //; [rewrite /=; lra | exact: (proj2 lat01) | exact: light_ok].
Qed.

(** the cases *)
Notation striped := (demo3_layers 1 (1/5) 1).
Notation run3 pw rec h ls := (run_efficiencies demo_eig pw rec h (Original 6 1) ls mid).
Notation field3 pw rec h ls z := (run_field demo_eig pw rec h (Original 6 1) ls mid 1 z).

Example C74_case a : exists r1 r2 F1 F2,
  [/\ run3 (light 0 1) lattice trio (striped (stripes a)) = Ok r1,
      run3 (light 0 1) lattice trio (striped (stripes (- a))) = Ok r2,
      field3 (light 0 1) lattice trio (striped (stripes a)) (1/3) = Ok F1 &
      field3 (light 0 1) lattice trio (striped (stripes (- a))) (1/3) = Ok F2] /\
  stack_by id (@rolled 1 0 6 1) (if_original (Original 6 1) (tensor_signs (@rolled 1 0 6 1) 1))
    (striped (stripes (- a))) (striped (stripes a)).
Proof.
have [[r1 e1] [F1 f1]] := light_runs 0 1 mid a (or_introl erefl).
have [[r2 e2] [F2 f2]] := light_runs 0 1 mid (- a) (or_introl erefl).
by exists r1, r2, F1, F2; split=> //; apply: (@stack3 (id)); exact: stripes_rolled.
Qed.

(** half a turn *)
Definition turned_lattice : 'M[R]_2 := \matrix_(i, j) (if i == j then - (2 * PI) else 0)%Re.
Example C75_case a : exists r1 r2 F1 F2,
  [/\ run3 (light 0 1) lattice trio (striped (stripes a)) = Ok r1,
      run3 (wave_turned (fun p => p + PI)%Re id (light 0 1)) turned_lattice trio (striped (stripes a)) = Ok r2,
      field3 (light 0 1) lattice trio (striped (stripes a)) (1/3) = Ok F1 &
      field3 (wave_turned (fun p => p + PI)%Re id (light 0 1)) turned_lattice trio (striped (stripes a)) (1/3) = Ok F2] /\
  [/\ forall j, turned_lattice ord0 j = (cos PI * lattice ord0 j - sin PI * lattice ord_max j)%Re,
      forall j, turned_lattice ord_max j = (sin PI * lattice ord0 j + cos PI * lattice ord_max j)%Re &
      stack_by id eq (@tensor_turned PI 6 1) (striped (stripes a)) (striped (stripes a))].
Proof.
have [[r1 e1] [F1 f1]] := light_runs 0 1 mid a (or_introl erefl).
have [||||[r2 e2] [F2 f2]] := @runs3 (wave_turned (fun p => p + PI)%Re id (light 0 1)) turned_lattice trio mid 1 (1/5) 1 a _ _ _ _ (or_introl erefl).
- by rewrite /=; lra.
- by [].
- by rewrite mxE.
- by have := light_ok 0 1; rewrite !mxE; rewrite -[sim_omega (wave_turned _ _ _)]/(sim_omega (light 0 1)); rewrite eqxx; nra.
exists r1, r2, F1, F2; split=> //; split; [| |exact: (@stack3 (id))].
- by move=> j; rewrite !mxE cos_PI sin_PI; case: ifP => _; case: ifP => _; ring.
- by move=> j; rewrite !mxE cos_PI sin_PI; case: ifP => _; case: ifP => _; ring.
Qed.

(** twice as large *)
Definition half_lattice : 'M[R]_2 := \matrix_(i, j) (lattice i j / 2)%Re.
Example C76_case a : exists r1 r2 F1 F2,
  [/\ run3 (light 0 1) lattice trio (striped (stripes a)) = Ok r1,
      run3 (wave_scaled 2 (light 0 1)) half_lattice trio (demo3_layers (2 * 1) (2 * (1/5)) (2 * 1) (stripes a)) = Ok r2,
      field3 (light 0 1) lattice trio (striped (stripes a)) (1/3) = Ok F1 &
      field3 (wave_scaled 2 (light 0 1)) half_lattice trio
        (demo3_layers (2 * 1) (2 * (1/5)) (2 * 1) (stripes a)) (2 * (1/3)) = Ok F2] /\
  stack_by (Rmult 2) eq (if_original (Original 6 1) eq)
    (demo3_layers (2 * 1) (2 * (1/5)) (2 * 1) (stripes a)) (striped (stripes a)).
Proof.
have [[r1 e1] [F1 f1]] := light_runs 0 1 mid a (or_introl erefl).
have hl : (0 < pw_lambda (wave_scaled 2 (light 0 1)))%Re by rewrite /=; lra.
have hr1 : half_lattice ord_max ord0 = 0%Re by rewrite !mxE /=; lra.
have hr : (half_lattice ord0 ord0 * half_lattice ord0 ord0 <
  sim_omega (wave_scaled 2 (light 0 1)) * sim_omega (wave_scaled 2 (light 0 1)))%Re.
  have -> : sim_omega (wave_scaled 2 (light 0 1)) = (2 * PI)%Re by rewrite /sim_omega /pw_k0 /=; field.
  by rewrite mxE lat00; have := PI_RGT_0; nra.
have hx : forall i, (trio i).2 = 0%Zc /\ (-1 <= (trio i).1 <= 1)%Zc.
  by move=> i; rewrite /trio; cbn [fst snd]; have := @ord3_lt i; lia.
have hu := stripes_toep a trio_inj hx.
have [r2 e2] := @demo3_eff 3 6 1 _ _ _ mid hl erefl hx hr1 hr (2 * 1) (2 * (1/5)) (2 * 1) _ hu.
have [F2 f2] := @demo3_field 3 6 1 _ _ _ mid hl erefl hx hr1 hr (2 * 1) (2 * (1/5)) (2 * 1) _ hu 1 (2 * (1/3)) isT.
by exists r1, r2, F1, F2; split=> //; exact: (@stack3 (Rmult 2)).
Qed.

(** a mirror between two lines; the harmonics of the second listed backwards *)
Example C77_case a : exists r1 r2 F1 F2,
  [/\ run3 (light 0 1) lattice trio (striped (stripes a)) = Ok r1,
      run3 (wave_turned (fun p => PI - p)%Re Ropp (light 0 1)) lattice oirt (striped (stripes (- a))) = Ok r2,
      field3 (light 0 1) lattice trio (striped (stripes a)) (1/3) = Ok F1 &
      field3 (wave_turned (fun p => PI - p)%Re Ropp (light 0 1)) lattice oirt (striped (stripes (- a))) (1/3) = Ok F2] /\
  [/\ trio mid = (0%Zc, 0%Zc), oirt mid = (0%Zc, 0%Zc),
      forall i, exists j, trio j = ((- (oirt i).1)%Zc, (oirt i).2) &
      stack_by id (@mirrored_x 1 6 1) (if_original (Original 6 1) (tensor_signs (@mirrored_x 1 6 1) (-1)))
        (striped (stripes (- a))) (striped (stripes a))].
Proof.
have [[r1 e1] [F1 f1]] := light_runs 0 1 mid a (or_introl erefl).
have [[r2 e2] [F2 f2]] := light_runs (PI - 0) (- (1)) mid (- a) (or_intror erefl).
exists r1, r2, F1, F2; split=> //; split; [exact: trio_mid|exact: oirt_mid| |].
  by move=> i; exists i; rewrite oirt_neg.
by apply: (@stack3 (id)); exact: stripes_mirror.
Qed.

(** symmetric in the middle of a line: order -1 receives as much as order 1 *)
Example C77_case_own a : exists r,
  run3 (light 0 0) lattice trio (striped (stripes a)) = Ok r /\
  [/\ dir_x (light 0 0) = 0%Re, pol_y (light 0 0) = 0%Re,
      forall i, exists j, trio j = ((- (trio i).1)%Zc, (trio i).2),
      stack_by id (@mirrored_x 0 6 1) (if_original (Original 6 1) (tensor_signs (@mirrored_x 0 6 1) (-1)))
        (striped (stripes a)) (striped (stripes a)) &
      stack_by id (@mirrored_y 0 6 1) (if_original (Original 6 1) (tensor_signs (@mirrored_y 0 6 1) (-1)))
        (striped (stripes a)) (striped (stripes a))].
Proof.
have [[r e] _] := light_runs 0 0 mid a (or_introl erefl).
exists r; split=> //; split.
- by rewrite /dir_x /= sin_0; ring.
- by rewrite /pol_y /= sin_0; ring.
- by move=> i; exists (rev_ord i); rewrite trio_rev trio_neg.
- by apply: (@stack3 (id)); exact: stripes_mirror0.
- by apply: (@stack3 (id)); exact: stripes_mirror_y.
Qed.

Example C78_case a : exists r1 r2,
  [/\ run3 (light 0 1) lattice trio (striped (stripes a)) = Ok r1,
      run3 (wave_turned (fun p => p + PI)%Re id (light 0 1)) lattice oirt (striped (stripes (- a))) = Ok r2,
      forall i, exists j, trio j = ((- (oirt i).1)%Zc, (- (oirt i).2)%Zc) &
      stack_by id (@inverted 1 0 6 1) (if_original (Original 6 1) (tensor_signs (@inverted 1 0 6 1) 1))
        (striped (stripes (- a))) (striped (stripes a))] /\
  stack_by id (@inverted 0 0 6 1) (if_original (Original 6 1) (tensor_signs (@inverted 0 0 6 1) 1))
        (striped (stripes a)) (striped (stripes a)).
Proof.
have [[r1 e1] _] := light_runs 0 1 mid a (or_introl erefl).
have [[r2 e2] _] := light_runs (0 + PI) 1 mid (- a) (or_intror erefl).
exists r1, r2; split; last by apply: (@stack3 (id)); exact: stripes_inverted0.
split=> //; last by apply: (@stack3 (id)); exact: stripes_inverted.
by move=> i; exists i; rewrite -oirt_neg.
Qed.

(** the pattern 2, 6 (along x) and the same along y; one order *)
Definition demo_grid' : 'M[C]_(2, 2) := \matrix_(x, y) demo_grid y x.
Example C79_case : exists r1 r2,
  [/\ run_efficiencies demo_eig (light 0 1) lattice demo_h (Original 2 2) (demo3_layers 1 (1/5) 1 demo_grid) ord0 = Ok r1,
      run_efficiencies demo_eig (wave_turned (fun p => PI / 2 - p)%Re Ropp (light 0 1)) lattice demo_h (Original 2 2)
        (demo3_layers 1 (1/5) 1 demo_grid') ord0 = Ok r2,
      demo_grid != demo_grid',
      forall i, exists j, demo_h j = ((demo_h i).2, (demo_h i).1) &
      stack_by id (@exchanged 2 2) (if_original (Original 2 2) (@tensor_exchanged 2 2))
        (demo3_layers 1 (1/5) 1 demo_grid') (demo3_layers 1 (1/5) 1 demo_grid)].
Proof.
have hx : forall i, (demo_h i).2 = 0%Zc /\ (-1 <= (demo_h i).1 <= 1)%Zc by move=> i; rewrite /demo_h /=; lia.
have ht (u : 'M[C]_(2, 2)) : mean u = rc (2 * 2)%Re -> get_toeplitz demo_h u = Ok (rc (2 * 2)%Re)%:M.
  move=> hm; rewrite /get_toeplitz; case: (@toeplitzP 2 2 isT isT 1 demo_h u) => [[_ ->]|[H _]] /=.
    by congr Ok; apply/matrixP=> i j; rewrite !mxE (ord1 i) (ord1 j) eqxx mulr1n coef_mean.
  by case: H => i j; rewrite /indexable /index_ok /=; split; lia.
have hm : mean demo_grid' = rc (2 * 2)%Re.
  rewrite -demo_mean /mean; congr (_ * _); rewrite exchange_big /=.
  by apply: eq_bigr => x _; apply: eq_bigr => y _; rewrite mxE.
have hl phi psi : (0 < pw_lambda (light phi psi))%Re by rewrite /=; lra.
have [r1 e1] := @demo3_eff 1 2 2 _ _ _ ord0 (hl 0 1) erefl hx (proj2 lat01) (light_ok 0 1) 1 (1/5) 1 _ (ht _ demo_mean).
have [r2 e2] := @demo3_eff 1 2 2 _ _ _ ord0 (hl (PI / 2 - 0) (- (1)))%Re erefl hx (proj2 lat01) (light_ok _ _) 1 (1/5) 1 _ (ht _ hm).
exists r1, r2; split=> //.
- apply/eqP=> /matrixP /(_ ord0 ord_max); rewrite !mxE /= => -[]; lra.
- by move=> i; exists ord0.
- by repeat constructor; move=> x y; rewrite !mxE.
Qed.

Example C80_case a : exists r1 r2 F1 F2,
  [/\ run3 (light 0 1) lattice trio (striped (stripes a)) = Ok r1,
      run3 (light 0 1) lattice oirt (striped (stripes a)) = Ok r2,
      field3 (light 0 1) lattice trio (striped (stripes a)) (1/3) = Ok F1 &
      field3 (light 0 1) lattice oirt (striped (stripes a)) (1/3) = Ok F2] /\
  [/\ injective oirt, forall i, exists j, trio j = oirt i, trio mid = oirt mid, trio <> oirt &
      forall l, List.In l (striped (stripes a)) -> forall u, li_eps l <> EpsTensorUniform 6 1 u].
Proof.
have [[r1 e1] [F1 f1]] := light_runs 0 1 mid a (or_introl erefl).
have [[r2 e2] [F2 f2]] := light_runs 0 1 mid a (or_intror erefl).
exists r1, r2, F1, F2; split=> //; split.
- exact: oirt_inj.
- by move=> i; exists (rev_ord i); exact: trio_rev.
- by rewrite trio_mid oirt_mid.
- by move=> e; have := f_equal (fun f => f ord0) e.
- by move=> l /= [<-|[<-|[<-|[]]]].
Qed.

Print Assumptions C74_translation.
Print Assumptions C74_translation_fields.
Print Assumptions C75_rotation.
Print Assumptions C75_rotation_fields.
Print Assumptions C76_scale.
Print Assumptions C76_scale_fields.
Print Assumptions C77_mirror_x.
Print Assumptions C77_mirror_x_fields.
Print Assumptions C77_mirror_y.
Print Assumptions C77_mirror_y_fields.
Print Assumptions C77_symmetric_x.
Print Assumptions C77_symmetric_y.
Print Assumptions C78_inversion.
Print Assumptions C78_inversion_fields.
Print Assumptions C78_symmetric.
Print Assumptions C79_exchange.
Print Assumptions C79_exchange_fields.
Print Assumptions C80_reorder.
Print Assumptions C80_reorder_fields.

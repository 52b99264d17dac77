(** Mirror images and inversion, in terms of the relations of Symm_Spec. *)
From Coq Require Import Reals ZArith Lra Lia.
From mathcomp Require Import all_ssreflect all_algebra all_fingroup.
From mathcomp Require Import complex.
From Verif Require Import RStruct Cplx Base Fourier_Model Fourier_Spec Sim_Model Setup_Model Symm_Spec.
From Verif Require Import Symm_Proofs9 Symm_Proofs10.

Set Implicit Arguments.
Unset Strict Implicit.
Unset Printing Implicit Defensive.

Import Order.TTheory GRing.Theory Num.Theory.
Local Open Scope ring_scope.
Local Open Scope complex_scope.

Section Mono.
Variables Nx1 Ny1 Nx2 Ny2 : nat.
Notation rel := ('M[C]_(Nx2, Ny2) -> 'M[C]_(Nx1, Ny1) -> Prop).
Notation trel := (('I_3 -> 'I_3 -> 'M[C]_(Nx2, Ny2)) -> ('I_3 -> 'I_3 -> 'M[C]_(Nx1, Ny1)) -> Prop).
Notation vrel := ('M[C]_(Nx2, Ny2) -> 'M[C]_(Nx2, Ny2) -> 'M[C]_(Nx1, Ny1) -> 'M[C]_(Nx1, Ny1) -> Prop).
Lemma stack_mono f (P P' : rel) (T T' : trel) (ls2 : seq (layer_in Nx2 Ny2)) (ls1 : seq (layer_in Nx1 Ny1)) :
  (forall u2 u1, P u2 u1 -> P' u2 u1) -> (forall u2 u1, T u2 u1 -> T' u2 u1) ->
  stack_by f P T ls2 ls1 -> stack_by f P' T' ls2 ls1.
Proof.
move=> hP hT; elim=> [|x y s t [h1 h2] _ ih]; constructor=> //; split=> //.
by move: h2; case: (li_eps x) => [a|a|a|a]; case: (li_eps y) => [b|b|b|b] //; [exact: hP|exact: hT].
Qed.
Lemma form_mono D (P P' : rel) (V V' : vrel) (f2 : formulation_t Nx2 Ny2) (f1 : formulation_t Nx1 Ny1) :
  (forall u2 u1, P' u2 u1 -> P u2 u1) ->
  (forall s0 s1 t0 t1, V s0 s1 t0 t1 -> V' s0 s1 t0 t1) -> form_by D P V f2 f1 -> form_by D P' V' f2 f1.
Proof.
move=> hP hV; case: f2 => [||tan2]; case: f1 => [||tan1] // H u2 u1 t2 t1 hu h2 h1.
by apply: hV; exact: (H _ _ _ _ (hP _ _ hu) h2 h1).
Qed.
Lemma tensor_mono (P P' : rel) (f1 : formulation_t Nx1 Ny1) s s' u2 u1 :
  (forall u2 u1, P u2 u1 -> P' u2 u1) -> s = s' ->
  if_original f1 (tensor_signs P s) u2 u1 -> if_original f1 (tensor_signs P' s') u2 u1.
Proof. by move=> hP <- [ef [h1 h2 h3 h4 h5]]; split=> //; split; apply: hP. Qed.
End Mono.

Section Flips.
Variables (Nx Ny nh : nat).
Hypotheses (Nx0 : (0 < Nx)%N) (Ny0 : (0 < Ny)%N).
Variables (c c' : Z).
Lemma flipped_x (u2 u1 : 'M[C]_(Nx, Ny)) : mirrored_x c u2 u1 -> flipped true false c 0 u2 u1.
Proof. by move=> h x x' y y' hx ->; exact: h. Qed.
Lemma flipped_y (u2 u1 : 'M[C]_(Nx, Ny)) : mirrored_y c u2 u1 -> flipped false true 0 c u2 u1.
Proof. by move=> h x x' y y' -> hy; exact: h. Qed.
Lemma flipped_xy (u2 u1 : 'M[C]_(Nx, Ny)) : inverted c c' u2 u1 -> flipped true true c c' u2 u1.
Proof. by move=> h x x' y y' hx hy; exact: h. Qed.
Lemma unflipped_x (u2 u1 : 'M[C]_(Nx, Ny)) : flipped true false c 0 u2 u1 -> mirrored_x c u2 u1.
Proof. by move=> h x x' y hx; apply: h. Qed.
Lemma unflipped_y (u2 u1 : 'M[C]_(Nx, Ny)) : flipped false true 0 c u2 u1 -> mirrored_y c u2 u1.
Proof. by move=> h x y y' hy; apply: h. Qed.
Lemma unflipped_xy (u2 u1 : 'M[C]_(Nx, Ny)) : flipped true true c c' u2 u1 -> inverted c c' u2 u1.
Proof. by move=> h x x' y y' hx hy; apply: h. Qed.

Variables (eig1 eig2 : forall m, 'M[C]_m -> 'rV[C]_m * 'M[C]_m).
Hypothesis eig1_ok : forall m (A : 'M[C]_m), A *m (eig1 A).2 = (eig1 A).2 *m diag_mx (eig1 A).1.
Hypothesis eig2_ok : forall m (A : 'M[C]_m), A *m (eig2 A).2 = (eig2 A).2 *m diag_mx (eig2 A).1.
Variables (pw1 pw2 : planewave) (sg : R).
Hypothesis sg1 : (sg * sg = 1)%Re.
Hypothesis hl : pw_lambda pw2 = pw_lambda pw1.
Hypothesis hth : pw_theta pw2 = pw_theta pw1.
Variables (rec : 'M[R]_2) (h1 h2 : 'I_nh -> order) (i1 i2 : 'I_nh).
Hypothesis hinj : injective h2.
Hypotheses (h10 : h1 i1 = (0%Zc, 0%Zc)) (h20 : h2 i2 = (0%Zc, 0%Zc)).
Variables (form1 form2 : formulation_t Nx Ny).
Variables (l1 l2 : layer_in Nx Ny) (rest1 rest2 : seq (layer_in Nx Ny)) (e0 eN : C).
Hypotheses (he1 : li_eps l1 = EpsUniform Nx Ny e0).
Hypotheses (heN1 : li_eps (last l1 rest1) = EpsUniform Nx Ny eN).

Definition goal_eff (q : order -> order) := forall r1 r2,
  run_efficiencies eig1 pw1 rec h1 form1 (l1 :: rest1) i1 = Ok r1 ->
  run_efficiencies eig2 pw2 rec h2 form2 (l2 :: rest2) i2 = Ok r2 ->
  forall i j, h1 j = q (h2 i) -> r2.1 i ord0 = r1.1 j ord0 /\ r2.2 i ord0 = r1.2 j ord0.
Definition goal_field (q : order -> order) (p : order -> C) a b d a' b' d' := forall k z F1 F2,
  run_field eig1 pw1 rec h1 form1 (l1 :: rest1) i1 k z = Ok F1 ->
  run_field eig2 pw2 rec h2 form2 (l2 :: rest2) i2 k z = Ok F2 ->
  forall i j, h1 j = q (h2 i) -> field_signs F2 F1 i j (p (h2 i)) a b d a' b' d'.

Lemma mirror_x :
  rec ord0 ord_max = 0%Re /\ rec ord_max ord0 = 0%Re ->
  (forall i, exists j, h1 j = ((- (h2 i).1)%Zc, (h2 i).2)) ->
  dir_x pw2 = (- dir_x pw1)%Re -> dir_y pw2 = dir_y pw1 ->
  pol_x pw2 = (sg * - pol_x pw1)%Re -> pol_y pw2 = (sg * pol_y pw1)%Re ->
  form_by True (@mirrored_x c Nx Ny) (fun s0 s1 t0 t1 => mirrored_x c s0 (- t0) /\ mirrored_x c s1 t1) form2 form1 ->
  stack_by id (@mirrored_x c Nx Ny) (if_original form1 (tensor_signs (@mirrored_x c Nx Ny) (-1)))
    (l2 :: rest2) (l1 :: rest1) ->
  goal_eff (fun o => ((- o.1)%Zc, o.2)) /\
  goal_field (fun o => ((- o.1)%Zc, o.2)) (fun o => rc sg * shift_phase Nx Ny o c 0) 1 (-1) (-1) (-1) 1 1.
Proof.
move=> hrec hh x1 y1 x2 y2 hf hs.
have [K1 K2] : _ /\ _ := @flip nh Nx Ny Nx0 Ny0 true false c 0 eig1 eig2 eig1_ok eig2_ok pw1 pw2 sg sg1 hl hth
  ltac:(lra) ltac:(lra) ltac:(lra) ltac:(lra) rec h1 h2 i1 i2 (or_intror hrec) hinj hh h10 h20 form1 form2
  ltac:(by move: hf; apply: form_mono => [u2 u1|s0 s1 t0 t1 [/flipped_x v0 /flipped_x v1]]; [exact: unflipped_x|csts])
  l1 l2 rest1 rest2 e0 eN he1 heN1
  ltac:(by move: hs; apply: stack_mono => [u2 u1|u2 u1]; [exact: flipped_x | apply: tensor_mono; [exact: flipped_x | lra]]).
split=> [//|k z F1 F2 H1 H2 i j e].
by have := K2 _ _ _ _ H1 H2 i j e; rewrite Rmult_1_r.
Qed.

Lemma mirror_y :
  rec ord0 ord_max = 0%Re /\ rec ord_max ord0 = 0%Re ->
  (forall i, exists j, h1 j = ((h2 i).1, (- (h2 i).2)%Zc)) ->
  dir_x pw2 = dir_x pw1 -> dir_y pw2 = (- dir_y pw1)%Re ->
  pol_x pw2 = (sg * pol_x pw1)%Re -> pol_y pw2 = (sg * - pol_y pw1)%Re ->
  form_by True (@mirrored_y c Nx Ny) (fun s0 s1 t0 t1 => mirrored_y c s0 t0 /\ mirrored_y c s1 (- t1)) form2 form1 ->
  stack_by id (@mirrored_y c Nx Ny) (if_original form1 (tensor_signs (@mirrored_y c Nx Ny) (-1)))
    (l2 :: rest2) (l1 :: rest1) ->
  goal_eff (fun o => (o.1, (- o.2)%Zc)) /\
  goal_field (fun o => (o.1, (- o.2)%Zc)) (fun o => rc sg * shift_phase Nx Ny o 0 c) (-1) 1 (-1) 1 (-1) 1.
Proof.
move=> hrec hh x1 y1 x2 y2 hf hs.
have [K1 K2] : _ /\ _ := @flip nh Nx Ny Nx0 Ny0 false true 0 c eig1 eig2 eig1_ok eig2_ok pw1 pw2 sg sg1 hl hth
  ltac:(lra) ltac:(lra) ltac:(lra) ltac:(lra) rec h1 h2 i1 i2 (or_intror hrec) hinj hh h10 h20 form1 form2
  ltac:(by move: hf; apply: form_mono => [u2 u1|s0 s1 t0 t1 [/flipped_y v0 /flipped_y v1]]; [exact: unflipped_y|csts])
  l1 l2 rest1 rest2 e0 eN he1 heN1
  ltac:(by move: hs; apply: stack_mono => [u2 u1|u2 u1]; [exact: flipped_y | apply: tensor_mono; [exact: flipped_y | lra]]).
split=> [//|k z F1 F2 H1 H2 i j e].
by have := K2 _ _ _ _ H1 H2 i j e; rewrite Rmult_1_l.
Qed.

Lemma inversion_xy :
  (forall i, exists j, h1 j = ((- (h2 i).1)%Zc, (- (h2 i).2)%Zc)) ->
  dir_x pw2 = (- dir_x pw1)%Re -> dir_y pw2 = (- dir_y pw1)%Re ->
  pol_x pw2 = (sg * - pol_x pw1)%Re -> pol_y pw2 = (sg * - pol_y pw1)%Re ->
  form_by True (@inverted c c' Nx Ny) (fun s0 s1 t0 t1 => inverted c c' s0 (- t0) /\ inverted c c' s1 (- t1)) form2 form1 ->
  stack_by id (@inverted c c' Nx Ny) (if_original form1 (tensor_signs (@inverted c c' Nx Ny) 1))
    (l2 :: rest2) (l1 :: rest1) ->
  goal_eff (fun o => ((- o.1)%Zc, (- o.2)%Zc)) /\
  goal_field (fun o => ((- o.1)%Zc, (- o.2)%Zc)) (fun o => rc sg * shift_phase Nx Ny o c c') (-1) (-1) 1 (-1) (-1) 1.
Proof.
move=> hh x1 y1 x2 y2 hf hs.
have [K1 K2] : _ /\ _ := @flip nh Nx Ny Nx0 Ny0 true true c c' eig1 eig2 eig1_ok eig2_ok pw1 pw2 sg sg1 hl hth
  ltac:(lra) ltac:(lra) ltac:(lra) ltac:(lra) rec h1 h2 i1 i2 (or_introl erefl) hinj hh h10 h20 form1 form2
  ltac:(by move: hf; apply: form_mono => [u2 u1|s0 s1 t0 t1 [/flipped_xy v0 /flipped_xy v1]]; [exact: unflipped_xy|csts])
  l1 l2 rest1 rest2 e0 eN he1 heN1
  ltac:(by move: hs; apply: stack_mono => [u2 u1|u2 u1]; [exact: flipped_xy | apply: tensor_mono; [exact: flipped_xy | lra]]).
split=> [//|k z F1 F2 H1 H2 i j e].
have := K2 _ _ _ _ H1 H2 i j e.
by have -> : (-1 * -1 = 1)%Re by lra.
Qed.
End Flips.

(** ** Mirrored plane waves *)
Lemma sq1 : (1 * 1 = 1)%Re. Proof. lra. Qed.
Lemma sqm1 : (-1 * -1 = 1)%Re. Proof. lra. Qed.
Lemma turned_x pw : let pw2 := wave_turned (fun p => PI - p)%Re Ropp pw in
  [/\ dir_x pw2 = (- dir_x pw)%Re, dir_y pw2 = dir_y pw,
      pol_x pw2 = (1 * - pol_x pw)%Re & pol_y pw2 = (1 * pol_y pw)%Re].
Proof.
rewrite /dir_x /dir_y /pol_x /pol_y /= Rtrigo_facts.cos_pi_minus sin_PI_x cos_neg sin_neg.
by split; ring.
Qed.
Lemma turned_y pw : let pw2 := wave_turned Ropp Ropp pw in
  [/\ dir_x pw2 = dir_x pw, dir_y pw2 = (- dir_y pw)%Re,
      pol_x pw2 = (1 * pol_x pw)%Re & pol_y pw2 = (1 * - pol_y pw)%Re].
Proof.
rewrite /dir_x /dir_y /pol_x /pol_y /= !cos_neg !sin_neg.
by split; ring.
Qed.
Lemma turned_xy pw : let pw2 := wave_turned (fun p => p + PI)%Re id pw in
  [/\ dir_x pw2 = (- dir_x pw)%Re, dir_y pw2 = (- dir_y pw)%Re,
      pol_x pw2 = (1 * - pol_x pw)%Re & pol_y pw2 = (1 * - pol_y pw)%Re].
Proof.
rewrite /dir_x /dir_y /pol_x /pol_y /= neg_cos neg_sin.
by split; ring.
Qed.

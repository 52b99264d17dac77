(** Displacements, changes of scale, rotations, reordered harmonics. *)
From Coq Require Import Reals ZArith Lra Lia.
From mathcomp Require Import all_ssreflect all_algebra all_fingroup.
From mathcomp Require Import complex.
From Verif Require Import RStruct Cplx Base Fourier_Model Fourier_Spec Sim_Model Setup_Model.
From Verif Require Import Fourier_Proofs Energy_Proofs Symm_Spec Symm_Proofs4 Symm_Proofs5 Symm_Proofs6 Symm_Proofs7 Symm_Proofs8.

Set Implicit Arguments.
Unset Strict Implicit.
Unset Printing Implicit Defensive.

Import Order.TTheory GRing.Theory Num.Theory.
Local Open Scope ring_scope.
Local Open Scope complex_scope.

(** ** Periodic grids *)
Section Ord.
Variable N : nat.
Hypothesis N0 : (0 < N)%N.
Let N0z : (0 < Z.of_nat N)%Zc. Proof. by case: N N0 => //; lia. Qed.
Lemma zord_lt z : (Z.to_nat (z mod Z.of_nat N) < N)%N.
Proof. apply/ssrnat.ltP; have := Z.mod_pos_bound z _ N0z; lia. Qed.
Definition zord z : 'I_N := Ordinal (zord_lt z).
Lemma zordP z : cong N (Z.of_nat (zord z)) z.
Proof.
exists (- (z / Z.of_nat N))%Zc => /=.
have h := Z.mod_pos_bound z _ N0z; rewrite Z2Nat.id; last by case: h.
by rewrite Z.mod_eq; lia.
Qed.
Lemma cong_uniq (x y : 'I_N) z : cong N (Z.of_nat x) z -> cong N (Z.of_nat y) z -> x = y.
Proof.
move=> [k hk] [l hl]; apply/ord_inj.
have hx := ltn_ord x; have hy := ltn_ord y; move/ssrnat.ltP: hx => hx; move/ssrnat.ltP: hy => hy.
have e : (Z.of_nat x = Z.of_nat y + Z.of_nat N * (k - l))%Zc by lia.
have : (k - l = 0)%Zc by nia.
lia.
Qed.
Definition sh (a : Z) (x : 'I_N) := zord (Z.of_nat x - a).
Lemma shP a (x : 'I_N) : cong N (Z.of_nat x) (Z.of_nat (sh a x) + a).
Proof. have [k hk] := zordP (Z.of_nat x - a)%Zc; exists (- k)%Zc; rewrite /sh hk; lia. Qed.
Lemma sh_bij a : bijective (sh a).
Proof.
have K b x : sh (- b) (sh b x) = x.
  apply: (@cong_uniq _ _ (Z.of_nat x)); last by exists 0%Zc; lia.
  have [k hk] := shP (- b)%Zc (sh b x); have [l hl] := shP b x.
  exists (- k - l)%Zc; lia.
by exists (sh (- a)) => x //; rewrite -{1}(Z.opp_involutive a).
Qed.
Definition fl (c : Z) (x : 'I_N) := zord (c - Z.of_nat x).
Lemma flP c (x : 'I_N) : cong N (Z.of_nat x) (c - Z.of_nat (fl c x)).
Proof. have [k hk] := zordP (c - Z.of_nat x)%Zc; exists k; rewrite /fl hk; lia. Qed.
Lemma fl_bij c : bijective (fl c).
Proof.
have K x : fl c (fl c x) = x.
  apply: (@cong_uniq _ _ (Z.of_nat x)); last by exists 0%Zc; lia.
  have [k hk] := flP c (fl c x); have [l hl] := flP c x.
  exists (k - l)%Zc; lia.
by exists (fl c).
Qed.
Lemma root_cong m a b : cong N a b -> root N (m * a) = root N (m * b).
Proof.
move=> [k ->]; have -> : (m * (b + Z.of_nat N * k) = m * b + Z.of_nat N * (m * k))%Zc by ring.
exact: root_shift.
Qed.
End Ord.

Lemma pair_bij (A A' B B' : Type) (f : A -> A') (g : B -> B') : bijective f -> bijective g ->
  bijective (fun p => (f p.1, g p.2)).
Proof.
move=> [f' h1 h2] [g' h3 h4]; exists (fun p => (f' p.1, g' p.2)) => -[x y] /=.
  by rewrite h1 h3.
by rewrite h2 h4.
Qed.

Lemma root_unit N m : root N m * conj (root N m) = 1.
Proof. by rewrite root_conj -rootD Z.add_opp_diag_r root0. Qed.

Lemma shift_phaseE Nx Ny o a b : shift_phase Nx Ny o a b = conj (root Nx (o.1 * a) * root Ny (o.2 * b)).
Proof.
rewrite conjM !root_conj /shift_phase /root -cexpD -mulrDr -rmorphD; congr (cexp (_ * rc _)).
rewrite !opp_IZR !mult_IZR; rfold; rewrite /Rdiv; ring.
Qed.
Lemma shift_phase1 Nx Ny o a b : shift_phase Nx Ny o a b * conj (shift_phase Nx Ny o a b) = 1.
Proof. by rewrite shift_phaseE conjcK mulrC conjM mulrACA !root_unit mulr1. Qed.
Lemma shift_phase0 Nx Ny a b : shift_phase Nx Ny (0%Zc, 0%Zc) a b = 1.
Proof. by rewrite shift_phaseE !Z.mul_0_l !root0 mulr1 conjc1. Qed.

(** ** A displacement *)
Section Shift.
Variables (nh Nx Ny : nat).
Hypotheses (Nx0 : (0 < Nx)%N) (Ny0 : (0 < Ny)%N).
Variables (a b : Z).
Let g (p : 'I_Nx * 'I_Ny) := (sh Nx0 a p.1, sh Ny0 b p.2).
Lemma rolled_pull u2 u1 : rolled a b u2 u1 -> u2 = pull g u1.
Proof. by move=> h; apply/matrixP=> x y; rewrite mxE /=; apply: h; apply: shP. Qed.
Lemma shift_wave (o : order) x y :
  wave o.1 o.2 x y = conj (shift_phase Nx Ny o a b) * wave o.1 o.2 (g (x, y)).1 (g (x, y)).2.
Proof.
rewrite shift_phaseE conjcK !waveE /= (root_cong Nx0 _ (shP Nx0 a x)) (root_cong Ny0 _ (shP Ny0 b y)).
by rewrite !Z.mul_add_distr_l !rootD mulrACA [RHS]mulrC mulrACA.
Qed.
End Shift.

Lemma mx2P (A : Type) (m n : nat) (u v : 'M[A]_(m, n)) : (forall x y, u x y = v x y) -> u = v.
Proof. by move=> h; apply/matrixP. Qed.

Lemma rc1 : rc 1%Re = 1. Proof. by []. Qed.
Lemma rc0 : rc 0%Re = 0. Proof. by []. Qed.
Lemma rcN x : rc (- x)%Re = - rc x. Proof. exact: rmorphN. Qed.
Lemma rcm1 : rc (-1)%Re = -1. Proof. by rewrite -rc1 -rmorphN; congr (rc _); rfold; lra. Qed.
(** constants *)
Ltac csts := rewrite ?(rcm1, rc1, rc0, mul1r, mulr1, mul0r, mulr0, addr0, add0r, scale1r, scale0r, mulN1r, mulrN1, scaleN1r).

(** tensors, when the axes are kept up to sign *)
Lemma tensor_diag Nx1 Ny1 Nx2 Ny2 (g : 'I_Nx2 * 'I_Ny2 -> 'I_Nx1 * 'I_Ny1)
  (P : 'M[C]_(Nx2, Ny2) -> 'M[C]_(Nx1, Ny1) -> Prop) (a b : R) u2 u1 :
  (forall v2 v1, P v2 v1 -> v2 = pull g v1) -> (a * a = 1)%Re -> (b * b = 1)%Re ->
  tensor_signs P (a * b) u2 u1 -> tensor_moved a 0 0 b g u2 u1.
Proof.
move=> hP aa bb [hz hxx hxy hyx hyy]; split; first exact: hP.
have A : rc a * rc a = 1 by rewrite -rmorphM; congr (rc _).
have B : rc b * rc b = 1 by rewrite -rmorphM; congr (rc _).
have E : rc (a * b) = rc a * rc b by rewrite rmorphM.
move=> i j; have C2 (x : 'I_2) : x = ord0 \/ x = ord_max.
  by case: x => [[|[|x]] hx] //; [left|right]; apply: ord_inj.
case: (C2 i) => ->; case: (C2 j) => -> /=; rewrite /= ?rmorph0 ?mul0r ?mulr0 ?A ?B ?scale0r ?scale1r ?addr0 ?add0r.
- exact: hP.
- by rewrite (hP _ _ hxy) E.
- by rewrite (hP _ _ hyx) E [rc a * _]mulrC.
- exact: hP.
Qed.

Section Translation.
Variables (nh Nx Ny : nat).
Hypotheses (Nx0 : (0 < Nx)%N) (Ny0 : (0 < Ny)%N).
Variables (eig1 eig2 : forall m, 'M[C]_m -> 'rV[C]_m * 'M[C]_m).
Hypothesis eig1_ok : forall m (A : 'M[C]_m), A *m (eig1 A).2 = (eig1 A).2 *m diag_mx (eig1 A).1.
Hypothesis eig2_ok : forall m (A : 'M[C]_m), A *m (eig2 A).2 = (eig2 A).2 *m diag_mx (eig2 A).1.
Variables (pw : planewave) (rec : 'M[R]_2) (h : 'I_nh -> order) (i0 : 'I_nh).
Hypothesis h0 : h i0 = (0%Zc, 0%Zc).
Variables (a b : Z) (form1 form2 : formulation_t Nx Ny).
Hypothesis hform : form_by True (@rolled a b Nx Ny) (fun s0 s1 t0 t1 => rolled a b s0 t0 /\ rolled a b s1 t1) form2 form1.
Variables (l1 l2 : layer_in Nx Ny) (rest1 rest2 : seq (layer_in Nx Ny)) (e0 eN : C).
Hypotheses (he1 : li_eps l1 = EpsUniform Nx Ny e0).
Hypotheses (heN1 : li_eps (last l1 rest1) = EpsUniform Nx Ny eN).
Hypothesis hlay : stack_by id (@rolled a b Nx Ny)
  (if_original form1 (tensor_signs (@rolled a b Nx Ny) 1)) (l2 :: rest2) (l1 :: rest1).

Lemma translation :
  (forall r1 r2,
  run_efficiencies eig1 pw rec h form1 (l1 :: rest1) i0 = Ok r1 ->
  run_efficiencies eig2 pw rec h form2 (l2 :: rest2) i0 = Ok r2 ->
  forall i, r2.1 i ord0 = r1.1 i ord0 /\ r2.2 i ord0 = r1.2 i ord0) /\
  (forall k z F1 F2,
  run_field eig1 pw rec h form1 (l1 :: rest1) i0 k z = Ok F1 ->
  run_field eig2 pw rec h form2 (l2 :: rest2) i0 k z = Ok F2 ->
  forall i, field_signs F2 F1 i i (shift_phase Nx Ny (h i) a b) 1 1 1 1 1 1).
Proof.
unshelve epose proof (@comb nh 1%g (fun i => shift_phase Nx Ny (h i) a b) (fun i => shift_phase1 Nx Ny (h i) a b)
  1%Re _ 1%Re 0%Re 0%Re 1%Re _ _ _ 1%Re _ _ _ 1%Re 1%Re _ _ Nx Ny Nx Ny Nx0 Ny0 Nx0 Ny0 h h
  (fun p => (sh Nx0 a p.1, sh Ny0 b p.2)) (pair_bij (sh_bij Nx0 a) (sh_bij Ny0 b)) _ form1 form2
  eig1 eig2 eig1_ok eig2_ok pw pw rec rec _ _ _ _ _ _ _ _ i0 i0 _ _ id (@rolled a b Nx Ny)
  (tensor_signs (@rolled a b Nx Ny) 1) True (fun s0 s1 t0 t1 => rolled a b s0 t0 /\ rolled a b s1 t1)
  _ _ _ _ _ hform l1 rest1 l2 rest2 e0 eN he1 heN1 hlay) as [K1 K2].
all: try (cbv beta; lra).
- by move=> i x y; rewrite perm1; apply: shift_wave.
- by move=> i /=; rewrite perm1; field.
- by move=> i /=; rewrite perm1; field.
- by rewrite perm1.
- by rewrite /= h0 shift_phase0.
- by move=> t; rewrite Rmult_1_l.
- exact: rolled_pull.
- move=> u2 u1 ht; apply: (tensor_diag (@rolled_pull Nx Ny Nx0 Ny0 a b)); try lra.
  by rewrite Rmult_1_l.
- move=> s0 s1 t0 t1 [/(rolled_pull Nx0 Ny0) -> /(rolled_pull Nx0 Ny0) ->].
  by split; rewrite ?scale0r ?addr0 ?add0r !scale1r.
split=> [r1 r2 H1 H2 i|k z F1 F2 H1 H2 i]; first by have := K1 _ _ H1 H2 i; rewrite perm1.
have ez : 1 * z = z by rewrite mul1r.
rewrite -ez in H2; have := K2 _ _ _ _ H1 H2 i; rewrite /moved perm1 => -[[a1 a2 a3] [a4 a5 a6]].
by rewrite /field_signs /comp a1 a2 a3 a4 a5 a6; csts.
Qed.
End Translation.

(** ** A change of scale *)
Section Scale.
Variables (nh Nx Ny : nat).
Hypotheses (Nx0 : (0 < Nx)%N) (Ny0 : (0 < Ny)%N).
Variables (eig1 eig2 : forall m, 'M[C]_m -> 'rV[C]_m * 'M[C]_m).
Hypothesis eig1_ok : forall m (A : 'M[C]_m), A *m (eig1 A).2 = (eig1 A).2 *m diag_mx (eig1 A).1.
Hypothesis eig2_ok : forall m (A : 'M[C]_m), A *m (eig2 A).2 = (eig2 A).2 *m diag_mx (eig2 A).1.
Variables (pw : planewave) (rec1 rec2 : 'M[R]_2) (h : 'I_nh -> order) (i0 : 'I_nh).
Variable s : R.
Hypothesis s0 : (0 < s)%Re.
Hypothesis hrec : forall i j, rec2 i j = (rec1 i j / s)%Re.
Variables (form : formulation_t Nx Ny).
Variables (l1 l2 : layer_in Nx Ny) (rest1 rest2 : seq (layer_in Nx Ny)) (e0 eN : C).
Hypotheses (he1 : li_eps l1 = EpsUniform Nx Ny e0).
Hypotheses (heN1 : li_eps (last l1 rest1) = EpsUniform Nx Ny eN).
Hypothesis hlay : stack_by (Rmult s) eq (if_original form eq) (l2 :: rest2) (l1 :: rest1).

Lemma pull_id (u : 'M[C]_(Nx, Ny)) : pull id u = u.
Proof. by apply/matrixP=> x y; rewrite mxE. Qed.

Lemma scale :
  (forall r1 r2,
  run_efficiencies eig1 pw rec1 h form (l1 :: rest1) i0 = Ok r1 ->
  run_efficiencies eig2 (wave_scaled s pw) rec2 h form (l2 :: rest2) i0 = Ok r2 ->
  forall i, r2.1 i ord0 = r1.1 i ord0 /\ r2.2 i ord0 = r1.2 i ord0) /\
  (forall k z F1 F2,
  run_field eig1 pw rec1 h form (l1 :: rest1) i0 k z = Ok F1 ->
  run_field eig2 (wave_scaled s pw) rec2 h form (l2 :: rest2) i0 k (s * z)%Re = Ok F2 ->
  forall i, field_signs F2 F1 i i 1 1 1 1 1 1 1).
Proof.
have sn : s <> 0%Re by exact: Rgt_not_eq.
have k2 : pw_k0 (wave_scaled s pw) = (pw_k0 pw / s)%Re.
  by rewrite /pw_k0 /= /Rdiv Rinv_mult; ring.
unshelve epose proof (@comb nh 1%g (fun i => 1) _
  1%Re _ 1%Re 0%Re 0%Re 1%Re _ _ _ 1%Re _ _ _ s 1%Re s0 _ Nx Ny Nx Ny Nx0 Ny0 Nx0 Ny0 h h
  id _ _ form form
  eig1 eig2 eig1_ok eig2_ok pw (wave_scaled s pw) rec1 rec2 _ _ _ _ _ _ _ _ i0 i0 _ _ (Rmult s) eq
  eq True (fun s0 s1 t0 t1 => s0 = t0 /\ s1 = t1)
  _ _ _ _ _ _ l1 rest1 l2 rest2 e0 eN he1 heN1 hlay) as [K1 K2].
all: try (cbv beta; lra).
- by move=> i; rewrite conjc1 mulr1.
- by exists id.
- by move=> i x y; rewrite perm1 conjc1 mul1r.
- by rewrite k2; field.
- by [].
- by rewrite /pw_kx k2 /pw_ky; rewrite /=; field.
- by rewrite /pw_ky k2 /pw_kx; rewrite /=; field.
- by rewrite /pw_cx /pw_cy /=; ring.
- by rewrite /pw_cx /pw_cy /=; ring.
- by move=> i /=; rewrite perm1 !hrec; field.
- by move=> i /=; rewrite perm1 !hrec; field.
- by rewrite perm1.
- by [].
- by [].
- by move=> u2 u1 ->; rewrite pull_id.
- move=> u2 u1 ->; apply: (@tensor_diag _ _ _ _ _ eq); try lra; first by move=> v2 v1 ->; rewrite pull_id.
  by rewrite Rmult_1_l; split; csts.
- by move=> x0 x1 t0 t1 [-> ->]; split; csts; rewrite pull_id.
- by rewrite /form_by; case: form => // tan u2 u1 t2 t1 -> -> [->].
split=> [r1 r2 H1 H2 i|k z F1 F2 H1 H2 i]; first by have := K1 _ _ H1 H2 i; rewrite perm1.
have := K2 _ _ _ _ H1 H2 i; rewrite /moved perm1 => -[[a1 a2 a3] [a4 a5 a6]].
by rewrite /field_signs /comp a1 a2 a3 a4 a5 a6; csts.
Qed.
End Scale.

(** ** A rotation of the axes *)
Lemma turn_xx (c s p q r t : C) : c * c * p - c * s * (q + r) + s * s * t =
  c * c * p + c * - s * q + - s * c * r + - s * - s * t.
Proof. cring. Qed.
Lemma turn_xy (c s p q r t : C) : c * s * (p - t) + c * c * q - s * s * r =
  c * s * p + c * c * q + - s * s * r + - s * c * t.
Proof. cring. Qed.
Lemma turn_yx (c s p q r t : C) : c * s * (p - t) + c * c * r - s * s * q =
  s * c * p + s * - s * q + c * c * r + c * - s * t.
Proof. cring. Qed.
Lemma turn_yy (c s p q r t : C) : s * s * p + c * s * (q + r) + c * c * t =
  s * s * p + s * c * q + c * s * r + c * c * t.
Proof. cring. Qed.
Section Rotation.
Variables (nh Nx Ny : nat).
Hypotheses (Nx0 : (0 < Nx)%N) (Ny0 : (0 < Ny)%N).
Variables (eig1 eig2 : forall m, 'M[C]_m -> 'rV[C]_m * 'M[C]_m).
Hypothesis eig1_ok : forall m (A : 'M[C]_m), A *m (eig1 A).2 = (eig1 A).2 *m diag_mx (eig1 A).1.
Hypothesis eig2_ok : forall m (A : 'M[C]_m), A *m (eig2 A).2 = (eig2 A).2 *m diag_mx (eig2 A).1.
Variables (pw : planewave) (rec1 rec2 : 'M[R]_2) (h : 'I_nh -> order) (i0 : 'I_nh).
Variable al : R.
Hypothesis hrec0 : forall j, rec2 ord0 j = (cos al * rec1 ord0 j - sin al * rec1 ord_max j)%Re.
Hypothesis hrec1 : forall j, rec2 ord_max j = (sin al * rec1 ord0 j + cos al * rec1 ord_max j)%Re.
Variables (l1 l2 : layer_in Nx Ny) (rest1 rest2 : seq (layer_in Nx Ny)) (e0 eN : C).
Hypotheses (he1 : li_eps l1 = EpsUniform Nx Ny e0).
Hypotheses (heN1 : li_eps (last l1 rest1) = EpsUniform Nx Ny eN).
Hypothesis hlay : stack_by id eq (@tensor_turned al Nx Ny) (l2 :: rest2) (l1 :: rest1).
Notation pw2 := (wave_turned (fun p => p + al)%Re id pw).
Notation orig := (Original Nx Ny).

Lemma rotation :
  (forall r1 r2,
  run_efficiencies eig1 pw rec1 h orig (l1 :: rest1) i0 = Ok r1 ->
  run_efficiencies eig2 pw2 rec2 h orig (l2 :: rest2) i0 = Ok r2 ->
  forall i, r2.1 i ord0 = r1.1 i ord0 /\ r2.2 i ord0 = r1.2 i ord0) /\
  (forall k z F1 F2,
  run_field eig1 pw rec1 h orig (l1 :: rest1) i0 k z = Ok F1 ->
  run_field eig2 pw2 rec2 h orig (l2 :: rest2) i0 k z = Ok F2 ->
  forall i, field_turned al F2 F1 i).
Proof.
have sc : (cos al * cos al + sin al * sin al = 1)%Re by have := sin2_cos2 al; rewrite /Rsqr; lra.
have hlay' : stack_by id eq (if_original orig (@tensor_turned al Nx Ny)) (l2 :: rest2) (l1 :: rest1).
  elim: hlay => [|x y s t [h1 h2] _ ih]; constructor=> //; split=> //.
  by move: h2; case: (li_eps x) => [a|a|a|a]; case: (li_eps y) => [b|b|b|b].
unshelve epose proof (@comb nh 1%g (fun i => 1) _
  1%Re _ (cos al) (- sin al)%Re (sin al) (cos al) _ _ _ 1%Re _ _ _ 1%Re 1%Re _ _ Nx Ny Nx Ny Nx0 Ny0 Nx0 Ny0 h h
  id _ _ orig orig
  eig1 eig2 eig1_ok eig2_ok pw pw2 rec1 rec2 _ _ _ _ _ _ _ _ i0 i0 _ _ id eq
  (@tensor_turned al Nx Ny) False (fun s0 s1 t0 t1 => False)
  _ _ _ _ _ _ l1 rest1 l2 rest2 e0 eN he1 heN1 hlay') as [K1 K2].
all: try (cbv beta; lra).
- by move=> i; rewrite conjc1 mulr1.
- by exists id.
- by move=> i x y; rewrite perm1 conjc1 mul1r.
- by rewrite /pw_k0 /=; ring.
- by [].
- by rewrite /pw_kx /pw_ky (_ : pw_k0 pw2 = pw_k0 pw) //= cos_plus; field.
- by rewrite /pw_kx /pw_ky (_ : pw_k0 pw2 = pw_k0 pw) //= sin_plus; field.
- by rewrite /pw_cx /pw_cy /= sin_plus cos_plus; ring.
- by rewrite /pw_cx /pw_cy /= sin_plus cos_plus; ring.
- by move=> i /=; rewrite perm1 !hrec0; field.
- by move=> i /=; rewrite perm1 !hrec1; field.
- by rewrite perm1.
- by [].
- by move=> t; rewrite Rmult_1_l.
- by move=> u2 u1 ->; rewrite pull_id.
- move=> u2 u1 [hz ht]; split; first by rewrite hz pull_id.
  have C2 (x : 'I_2) : x = ord0 \/ x = ord_max.
    by case: x => [[|[|x]] hx] //; [left|right]; apply: ord_inj.
  rewrite /conj_tensor => i j; apply/matrixP=> x y; have [hxx hxy hyx hyy] := ht x y.
  case: (C2 i) => ->; case: (C2 j) => ->; rewrite /= !mxE /= ?hxx ?hxy ?hyx ?hyy ?rcN.
  + exact: turn_xx.
  + exact: turn_xy.
  + exact: turn_yx.
  + exact: turn_yy.
- by [].
- by [].
split=> [r1 r2 H1 H2 i|k z F1 F2 H1 H2 i]; first by have := K1 _ _ H1 H2 i; rewrite perm1.
have ez : 1 * z = z by rewrite mul1r.
rewrite -ez in H2; have := K2 _ _ _ _ H1 H2 i; rewrite /moved perm1 => -[[a1 a2 a3] [a4 a5 a6]].
by rewrite /field_turned /comp a1 a2 a3 a4 a5 a6 rcN; csts; rewrite !mulNr.
Qed.
End Rotation.

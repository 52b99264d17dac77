(** Reordered harmonics, mirror images, inversion, exchange of the axes. *)
From Coq Require Import Reals ZArith Lra Lia.
From mathcomp Require Import all_ssreflect all_algebra all_fingroup.
From mathcomp Require Import complex.
From Verif Require Import RStruct Cplx Base Fourier_Model Fourier_Spec Sim_Model Setup_Model.
From Verif Require Import Fourier_Proofs Energy_Proofs Symm_Spec Symm_Proofs4 Symm_Proofs5 Symm_Proofs6 Symm_Proofs7 Symm_Proofs8 Symm_Proofs9.

Set Implicit Arguments.
Unset Strict Implicit.
Unset Printing Implicit Defensive.

Import Order.TTheory GRing.Theory Num.Theory.
Local Open Scope ring_scope.
Local Open Scope complex_scope.

Lemma reindex_orders nh (q : order -> order) (h1 h2 : 'I_nh -> order) :
  injective q -> injective h2 -> (forall i, exists j, h1 j = q (h2 i)) ->
  exists tau : 'S_nh, (forall i, h1 (tau i) = q (h2 i)) /\ forall i j, h1 j = q (h2 i) -> tau i = j.
Proof.
move=> qi hi /fin_all_exists [f hf].
have fi : injective f.
  by move=> i j e; apply: hi; apply: qi; rewrite -!hf e.
exists (perm fi); split=> [i|i j]; first by rewrite permE.
have [g _ gK] := injF_bij fi.
by rewrite -(gK j) hf permE => /qi /hi ->.
Qed.

Section Reorder.
Variables (nh Nx Ny : nat).
Hypotheses (Nx0 : (0 < Nx)%N) (Ny0 : (0 < Ny)%N).
Variables (eig1 eig2 : forall m, 'M[C]_m -> 'rV[C]_m * 'M[C]_m).
Hypothesis eig1_ok : forall m (A : 'M[C]_m), A *m (eig1 A).2 = (eig1 A).2 *m diag_mx (eig1 A).1.
Hypothesis eig2_ok : forall m (A : 'M[C]_m), A *m (eig2 A).2 = (eig2 A).2 *m diag_mx (eig2 A).1.
Variables (pw : planewave) (rec : 'M[R]_2) (h1 h2 : 'I_nh -> order) (i1 i2 : 'I_nh).
Hypothesis hinj : injective h2.
Hypothesis hh : forall i, exists j, h1 j = h2 i.
Hypothesis hi : h1 i1 = h2 i2.
Variables (form : formulation_t Nx Ny).
Variables (l1 : layer_in Nx Ny) (rest1 : seq (layer_in Nx Ny)) (e0 eN : C).
Hypotheses (he1 : li_eps l1 = EpsUniform Nx Ny e0).
Hypotheses (heN1 : li_eps (last l1 rest1) = EpsUniform Nx Ny eN).
(** tensor layers only with 'original' *)
Hypothesis hten : form = Original Nx Ny \/ List.Forall (fun l => forall u, li_eps l <> EpsTensorGrid u) (l1 :: rest1).

Lemma refl_lay : (forall l, List.In l (l1 :: rest1) -> forall u, li_eps l <> EpsTensorUniform Nx Ny u) ->
  stack_by id eq (if_original form eq) (l1 :: rest1) (l1 :: rest1).
Proof.
move: hten; elim: (l1 :: rest1) => [|x s ih] ht hu; first by constructor.
constructor; last first.
  apply: ih => [|l hl]; last by apply: hu; right.
  by case: ht => [->|ht]; [left|right; inversion ht].
split; first by case: (li_thick x).
have := hu x (or_introl erefl); case: ht => [ef|ht].
  by case: (li_eps x) => // v /(_ v).
have : forall u, li_eps x <> EpsTensorGrid u by inversion ht.
by case: (li_eps x) => // v; [move=> /(_ v) | move=> _ /(_ v)].
Qed.

Hypothesis hun : forall l, List.In l (l1 :: rest1) -> forall u, li_eps l <> EpsTensorUniform Nx Ny u.

Lemma reorder :
  (forall r1 r2,
  run_efficiencies eig1 pw rec h1 form (l1 :: rest1) i1 = Ok r1 ->
  run_efficiencies eig2 pw rec h2 form (l1 :: rest1) i2 = Ok r2 ->
  forall i j, h1 j = h2 i -> r2.1 i ord0 = r1.1 j ord0 /\ r2.2 i ord0 = r1.2 j ord0) /\
  (forall k z F1 F2,
  run_field eig1 pw rec h1 form (l1 :: rest1) i1 k z = Ok F1 ->
  run_field eig2 pw rec h2 form (l1 :: rest1) i2 k z = Ok F2 ->
  forall i j, h1 j = h2 i -> field_signs F2 F1 i j 1 1 1 1 1 1 1).
Proof.
have [tau [ht hu]] := @reindex_orders nh id h1 h2 (fun _ _ => id) hinj hh.
unshelve epose proof (@comb nh tau (fun i => 1) _
  1%Re _ 1%Re 0%Re 0%Re 1%Re _ _ _ 1%Re _ _ _ 1%Re 1%Re _ _ Nx Ny Nx Ny Nx0 Ny0 Nx0 Ny0 h1 h2
  id _ _ form form
  eig1 eig2 eig1_ok eig2_ok pw pw rec rec _ _ _ _ _ _ _ _ i1 i2 _ _ id eq
  eq True (fun s0 s1 t0 t1 => s0 = t0 /\ s1 = t1)
  _ _ _ _ _ _ l1 rest1 l1 rest1 e0 eN he1 heN1 (refl_lay hun)) as [K1 K2].
all: try (cbv beta; lra).
- by move=> i; rewrite conjc1 mulr1.
- by exists id.
- by move=> i x y; rewrite ht conjc1 mul1r.
- by move=> i /=; rewrite ht; field.
- by move=> i /=; rewrite ht; field.
- exact: hu.
- by [].
- by move=> t; rewrite Rmult_1_l.
- by move=> u2 u1 ->; rewrite pull_id.
- move=> u2 u1 ->; apply: (@tensor_diag _ _ _ _ _ eq); try lra; first by move=> v2 v1 ->; rewrite pull_id.
  by rewrite Rmult_1_l; split; csts.
- by move=> x0 x1 t0 t1 [-> ->]; split; csts; rewrite pull_id.
- by rewrite /form_by; case: form => // tan u2 u1 t2 t1 -> -> [->].
split=> [r1 r2 H1 H2 i j e|k z F1 F2 H1 H2 i j e]; first by have := K1 _ _ H1 H2 i; rewrite (hu _ _ e).
have ez : 1 * z = z by rewrite mul1r.
rewrite -ez in H2; have := K2 _ _ _ _ H1 H2 i; rewrite /moved (hu _ _ e) => -[[a1 a2 a3] [a4 a5 a6]].
by rewrite /field_signs /comp a1 a2 a3 a4 a5 a6; csts.
Qed.
End Reorder.

Lemma flip_h (d b a k l r : R) : (d * b = a -> r = a * k -> r = d / 1 * (b * k + 0 * l))%Re.
Proof. by move=> <- ->; field. Qed.
Lemma flip_h' (d b a k l r : R) : (d * b = a -> r = a * k -> r = d / 1 * (0 * l + b * k))%Re.
Proof. by move=> <- ->; field. Qed.

Lemma flip_c (d b a p q : C) : d * b = a -> d * p * (b * q) = p * a * q.
Proof. by move=> <-; cring. Qed.
Lemma flip_c1 (d p q : C) : d * d = 1 -> d * p * (d * q) = p * q.
Proof. by move=> e; rewrite (_ : d * p * (d * q) = d * d * (p * q)); [rewrite e mul1r|cring]. Qed.

(** ** One or both coordinates reversed *)
Section Flip.
Variables (nh Nx Ny : nat).
Hypotheses (Nx0 : (0 < Nx)%N) (Ny0 : (0 < Ny)%N).
Variables (bx by' : bool) (c c' : Z).
Let sx : R := if bx then (-1)%Re else 1%Re.
Let sy : R := if by' then (-1)%Re else 1%Re.
Let cx := if bx then c else 0%Zc.
Let cy := if by' then c' else 0%Zc.
Definition flip_order (o : order) : order := (if bx then (- o.1)%Zc else o.1, if by' then (- o.2)%Zc else o.2).
Definition flipped (u2 u1 : 'M[C]_(Nx, Ny)) : Prop := forall (x x' : 'I_Nx) (y y' : 'I_Ny),
  (if bx then cong Nx (Z.of_nat x') (c - Z.of_nat x)%Zc else x' = x) ->
  (if by' then cong Ny (Z.of_nat y') (c' - Z.of_nat y)%Zc else y' = y) -> u2 x' y' = u1 x y.
Let gx x : 'I_Nx := if bx then fl Nx0 c x else x.
Let gy y : 'I_Ny := if by' then fl Ny0 c' y else y.
Let g (p : 'I_Nx * 'I_Ny) := (gx p.1, gy p.2).
Let sx1 : (sx * sx = 1)%Re. Proof. by rewrite /sx; case: bx; lra. Qed.
Let sy1 : (sy * sy = 1)%Re. Proof. by rewrite /sy; case: by'; lra. Qed.

Lemma flip_bij : bijective g.
Proof.
apply: (pair_bij (f := gx) (g := gy)).
  by rewrite /gx; case: bx; [exact: fl_bij | exists id].
by rewrite /gy; case: by'; [exact: fl_bij | exists id].
Qed.
Lemma flip_inj : injective flip_order.
Proof.
move=> [m n] [m' n']; rewrite /flip_order /= => -[].
case: bx; case: by' => e1 e2; congr pair => //.
- exact: Z.opp_inj. - exact: Z.opp_inj. - exact: Z.opp_inj. - exact: Z.opp_inj.
Qed.
Lemma flip_pull u2 u1 : flipped u2 u1 -> u2 = pull g u1.
Proof.
move=> h; apply/matrixP=> x y; rewrite mxE /=; apply: h.
  by rewrite /gx; case: bx => //; exact: flP.
by rewrite /gy; case: by' => //; exact: flP.
Qed.
Lemma flip_wave (o : order) x y : wave o.1 o.2 x y =
  conj (shift_phase Nx Ny o cx cy) * wave (flip_order o).1 (flip_order o).2 (g (x, y)).1 (g (x, y)).2.
Proof.
rewrite shift_phaseE conjcK !waveE /= mulrACA; congr (_ * _).
  rewrite /cx /gx; case: bx; last by rewrite Z.mul_0_r root0 mul1r.
  by rewrite (root_cong Nx0 _ (flP Nx0 c x)) -rootD; congr root; ring.
rewrite /cy /gy; case: by'; last by rewrite Z.mul_0_r root0 mul1r.
by rewrite (root_cong Ny0 _ (flP Ny0 c' y)) -rootD; congr root; ring.
Qed.

Variables (eig1 eig2 : forall m, 'M[C]_m -> 'rV[C]_m * 'M[C]_m).
Hypothesis eig1_ok : forall m (A : 'M[C]_m), A *m (eig1 A).2 = (eig1 A).2 *m diag_mx (eig1 A).1.
Hypothesis eig2_ok : forall m (A : 'M[C]_m), A *m (eig2 A).2 = (eig2 A).2 *m diag_mx (eig2 A).1.
Variables (pw1 pw2 : planewave) (sg : R).
Hypothesis sg1 : (sg * sg = 1)%Re.
Hypothesis hl : pw_lambda pw2 = pw_lambda pw1.
Hypothesis hth : pw_theta pw2 = pw_theta pw1.
Hypothesis hdx : dir_x pw2 = (sx * dir_x pw1)%Re.
Hypothesis hdy : dir_y pw2 = (sy * dir_y pw1)%Re.
Hypothesis hpx : pol_x pw2 = (sg * (sx * pol_x pw1))%Re.
Hypothesis hpy : pol_y pw2 = (sg * (sy * pol_y pw1))%Re.
Variables (rec : 'M[R]_2) (h1 h2 : 'I_nh -> order) (i1 i2 : 'I_nh).
Hypothesis hrec : bx = by' \/ (rec ord0 ord_max = 0%Re /\ rec ord_max ord0 = 0%Re).
Hypothesis hinj : injective h2.
Hypothesis hh : forall i, exists j, h1 j = flip_order (h2 i).
Hypotheses (h10 : h1 i1 = (0%Zc, 0%Zc)) (h20 : h2 i2 = (0%Zc, 0%Zc)).
Variables (form1 form2 : formulation_t Nx Ny).
Hypothesis hform : form_by True flipped (fun s0 s1 t0 t1 => flipped s0 (rc sx *: t0) /\ flipped s1 (rc sy *: t1)) form2 form1.
Variables (l1 l2 : layer_in Nx Ny) (rest1 rest2 : seq (layer_in Nx Ny)) (e0 eN : C).
Hypotheses (he1 : li_eps l1 = EpsUniform Nx Ny e0).
Hypotheses (heN1 : li_eps (last l1 rest1) = EpsUniform Nx Ny eN).
Hypothesis hlay : stack_by id flipped (if_original form1 (tensor_signs flipped (sx * sy))) (l2 :: rest2) (l1 :: rest1).

Lemma flip :
  (forall r1 r2,
  run_efficiencies eig1 pw1 rec h1 form1 (l1 :: rest1) i1 = Ok r1 ->
  run_efficiencies eig2 pw2 rec h2 form2 (l2 :: rest2) i2 = Ok r2 ->
  forall i j, h1 j = flip_order (h2 i) -> r2.1 i ord0 = r1.1 j ord0 /\ r2.2 i ord0 = r1.2 j ord0) /\
  (forall k z F1 F2,
  run_field eig1 pw1 rec h1 form1 (l1 :: rest1) i1 k z = Ok F1 ->
  run_field eig2 pw2 rec h2 form2 (l2 :: rest2) i2 k z = Ok F2 ->
  forall i j, h1 j = flip_order (h2 i) ->
  field_signs F2 F1 i j (rc sg * shift_phase Nx Ny (h2 i) cx cy) sy sx (sx * sy) sx sy 1).
Proof.
have [tau [ht hu]] := reindex_orders flip_inj hinj hh.
have ex : pw_kx pw2 = (sx * pw_kx pw1)%Re.
  by move: hdx; rewrite /pw_kx /pw_k0 hl /dir_x => ->; ring.
have ey : pw_ky pw2 = (sy * pw_ky pw1)%Re.
  by move: hdy; rewrite /pw_ky /pw_k0 hl /dir_y => ->; ring.
have px : pw_cx pw2 = (sg * (sx * pw_cx pw1))%Re by exact: hpx.
have py : pw_cy pw2 = (sg * (sy * pw_cy pw1))%Re by exact: hpy.
have ss : (sx * sy * (sx * sy) = 1)%Re.
  transitivity (sx * sx * (sy * sy))%Re; first by ring.
  by rewrite sx1 sy1; ring.
have xxy : (sx * sy * sy = sx)%Re by rewrite Rmult_assoc sy1 Rmult_1_r.
have xyx : (sx * sy * sx = sy)%Re by rewrite (Rmult_comm sx) Rmult_assoc sx1 Rmult_1_r.
have hG (a : 'I_2) i : ((rec a ord0 * IZR (h2 i).1 + rec a ord_max * IZR (h2 i).2) =
   (if a == ord0 then sx else sy) * (rec a ord0 * IZR (h1 (tau i)).1 + rec a ord_max * IZR (h1 (tau i)).2))%Re.
  have C2 : a = ord0 \/ a = ord_max.
    by case: a => [[|[|x]] hx] //; [left|right]; apply: ord_inj.
  rewrite ht /flip_order /sx /sy; case: C2 => -> /=.
    by case: hrec => [->|[-> z]]; case: by'; case: bx; rewrite ?opp_IZR; ring.
  by case: hrec => [->|[z ->]]; case: by'; case: bx; rewrite ?opp_IZR; ring.
unshelve epose proof (@comb nh tau (fun i => shift_phase Nx Ny (h2 i) cx cy) (fun i => shift_phase1 _ _ _ _ _)
  sg sg1 sy 0%Re 0%Re sx _ _ _ (sx * sy)%Re ss _ _ 1%Re (sx * sy)%Re _ ss Nx Ny Nx Ny Nx0 Ny0 Nx0 Ny0 h1 h2
  g flip_bij _ form1 form2
  eig1 eig2 eig1_ok eig2_ok pw1 pw2 rec rec _ hth _ _ _ _ _ _ i1 i2 _ _ id flipped
  (tensor_signs flipped (sx * sy)) True (fun s0 s1 t0 t1 => flipped s0 (rc sx *: t0) /\ flipped s1 (rc sy *: t1))
  _ flip_pull _ _ _ hform l1 rest1 l2 rest2 e0 eN he1 heN1 hlay) as [K1 K2].
all: try (cbv beta; lra).
- by move=> i x y; rewrite ht flip_wave.
- by rewrite /pw_k0 hl; ring.
- exact: flip_h xxy ex.
- exact: flip_h' xyx ey.
- by move=> i /=; exact: (flip_h _ xxy (hG ord0 i)).
- by move=> i /=; exact: (flip_h' _ xyx (hG ord_max i)).
- by apply: hu; rewrite h20 h10 /flip_order; case: bx; case: by'.
- by rewrite /= h20 shift_phase0.
- by move=> t; rewrite Rmult_1_l.
- move=> u2 u1 hs; apply: (tensor_diag flip_pull) => //.
  by rewrite Rmult_comm.
- move=> s0 s1 t0 t1 [v0 v1]; rewrite (flip_pull v0) (flip_pull v1).
  by split; csts.
split=> [r1 r2 H1 H2 i j e|k z F1 F2 H1 H2 i j e]; first by have := K1 _ _ H1 H2 i; rewrite (hu _ _ e).
have ez : 1 * z = z by rewrite mul1r.
rewrite -ez in H2; have := K2 _ _ _ _ H1 H2 i; rewrite /moved (hu _ _ e) => -[[a1 a2 a3] [a4 a5 a6]].
rewrite /field_signs /comp a1 a2 a3 a4 a5 a6; csts.
have r1 : rc (sx * sy)%Re * rc sy = rc sx by rewrite -rmorphM; congr (rc _).
have r2 : rc (sx * sy)%Re * rc sx = rc sy by rewrite -rmorphM; congr (rc _).
have r3 : rc (sx * sy)%Re * rc (sx * sy)%Re = 1 by rewrite -rmorphM; congr (rc _).
split; first by rewrite !mulrA.
by split; [exact: flip_c r1|exact: flip_c r2|exact: flip_c1 r3].
Qed.
End Flip.

(** ** The axes exchanged *)
Section Exchange.
Variables (nh Nx Ny : nat).
Hypotheses (Nx0 : (0 < Nx)%N) (Ny0 : (0 < Ny)%N).
Let g (p : 'I_Ny * 'I_Nx) := (p.2, p.1).
Definition swap_order (o : order) : order := (o.2, o.1).
Lemma exchanged_pull (u2 : 'M[C]_(Ny, Nx)) (u1 : 'M[C]_(Nx, Ny)) : exchanged u2 u1 -> u2 = pull g u1.
Proof. by move=> h; apply/matrixP=> x y; rewrite mxE /=; apply: h. Qed.
Lemma exchange_wave (o : order) (x : 'I_Ny) (y : 'I_Nx) :
  wave o.1 o.2 x y = wave (swap_order o).1 (swap_order o).2 (g (x, y)).1 (g (x, y)).2.
Proof. by rewrite !waveE mulrC. Qed.

Variables (eig1 eig2 : forall m, 'M[C]_m -> 'rV[C]_m * 'M[C]_m).
Hypothesis eig1_ok : forall m (A : 'M[C]_m), A *m (eig1 A).2 = (eig1 A).2 *m diag_mx (eig1 A).1.
Hypothesis eig2_ok : forall m (A : 'M[C]_m), A *m (eig2 A).2 = (eig2 A).2 *m diag_mx (eig2 A).1.
Variables (pw : planewave) (rec1 rec2 : 'M[R]_2) (h1 h2 : 'I_nh -> order) (i1 i2 : 'I_nh).
Hypothesis hrec : [/\ rec2 ord0 ord0 = rec1 ord_max ord_max, rec2 ord0 ord_max = rec1 ord_max ord0,
  rec2 ord_max ord0 = rec1 ord0 ord_max & rec2 ord_max ord_max = rec1 ord0 ord0].
Hypothesis hinj : injective h2.
Hypothesis hh : forall i, exists j, h1 j = swap_order (h2 i).
Hypotheses (h10 : h1 i1 = (0%Zc, 0%Zc)) (h20 : h2 i2 = (0%Zc, 0%Zc)).
Variables (form1 : formulation_t Nx Ny) (form2 : formulation_t Ny Nx).
Hypothesis hform : form_by False (@exchanged Nx Ny) (fun s0 s1 t0 t1 => exchanged s0 t1 /\ exchanged s1 t0) form2 form1.
Variables (l1 : layer_in Nx Ny) (l2 : layer_in Ny Nx) (rest1 : seq (layer_in Nx Ny)) (rest2 : seq (layer_in Ny Nx)) (e0 eN : C).
Hypotheses (he1 : li_eps l1 = EpsUniform Nx Ny e0).
Hypotheses (heN1 : li_eps (last l1 rest1) = EpsUniform Nx Ny eN).
Hypothesis hlay : stack_by id (@exchanged Nx Ny) (if_original form1 (@tensor_exchanged Nx Ny)) (l2 :: rest2) (l1 :: rest1).
Notation pw2 := (wave_turned (fun p => PI / 2 - p)%Re Ropp pw).

Lemma exchange :
  (forall r1 r2,
  run_efficiencies eig1 pw rec1 h1 form1 (l1 :: rest1) i1 = Ok r1 ->
  run_efficiencies eig2 pw2 rec2 h2 form2 (l2 :: rest2) i2 = Ok r2 ->
  forall i j, h1 j = swap_order (h2 i) -> r2.1 i ord0 = r1.1 j ord0 /\ r2.2 i ord0 = r1.2 j ord0) /\
  (forall k z F1 F2,
  run_field eig1 pw rec1 h1 form1 (l1 :: rest1) i1 k z = Ok F1 ->
  run_field eig2 pw2 rec2 h2 form2 (l2 :: rest2) i2 k z = Ok F2 ->
  forall i j, h1 j = swap_order (h2 i) -> field_exchanged F2 F1 i j).
Proof.
have si : injective swap_order by move=> [m n] [m' n'] [-> ->].
have [tau [ht hu]] := reindex_orders si hinj hh.
have [q00 q01 q10 q11] := hrec.
unshelve epose proof (@comb nh tau (fun i => 1) _
  (-1)%Re _ 0%Re 1%Re 1%Re 0%Re _ _ _ (-1)%Re _ _ _ 1%Re 1%Re _ _ Nx Ny Ny Nx Nx0 Ny0 Ny0 Nx0 h1 h2
  g _ _ form1 form2
  eig1 eig2 eig1_ok eig2_ok pw pw2 rec1 rec2 _ _ _ _ _ _ _ _ i1 i2 _ _ id (@exchanged Nx Ny)
  (@tensor_exchanged Nx Ny) False (fun s0 s1 t0 t1 => exchanged s0 t1 /\ exchanged s1 t0)
  _ exchanged_pull _ _ _ hform l1 rest1 l2 rest2 e0 eN he1 heN1 hlay) as [K1 K2].
all: try (cbv beta; lra).
- by move=> i; rewrite conjc1 mulr1.
- by exists (fun p => (p.2, p.1)) => -[].
- by move=> i x y; rewrite ht conjc1 mul1r exchange_wave.
- by rewrite /pw_k0 /=; ring.
- by [].
- by rewrite /pw_kx /pw_ky (_ : pw_k0 pw2 = pw_k0 pw) //= cos_shift; field.
- by rewrite /pw_kx /pw_ky (_ : pw_k0 pw2 = pw_k0 pw) //= sin_shift; field.
- by rewrite /pw_cx /pw_cy /= cos_shift sin_shift cos_neg sin_neg; ring.
- by rewrite /pw_cx /pw_cy /= cos_shift sin_shift cos_neg sin_neg; ring.
- by move=> i /=; rewrite ht q00 q01 /=; field.
- by move=> i /=; rewrite ht q10 q11 /=; field.
- by apply: hu; rewrite h20 h10.
- by [].
- by move=> t; rewrite Rmult_1_l.
- move=> u2 u1 [hz hxx hxy hyx hyy]; split; first exact: exchanged_pull.
  have C2 (x : 'I_2) : x = ord0 \/ x = ord_max.
    by case: x => [[|[|x]] hx] //; [left|right]; apply: ord_inj.
  rewrite /conj_tensor => i j; apply/matrixP=> x y.
  case: (C2 i) => ->; case: (C2 j) => ->; rewrite !mxE /= rc0 rc1.
  + by rewrite hxx; csts.
  + by rewrite hxy; csts.
  + by rewrite hyx; csts.
  + by rewrite hyy; csts.
- move=> s0 s1 t0 t1 [v0 v1]; rewrite (exchanged_pull v0) (exchanged_pull v1).
  by split; csts.
split=> [r1 r2 H1 H2 i j e|k z F1 F2 H1 H2 i j e]; first by have := K1 _ _ H1 H2 i; rewrite (hu _ _ e).
have ez : 1 * z = z by rewrite mul1r.
rewrite -ez in H2; have := K2 _ _ _ _ H1 H2 i; rewrite /moved (hu _ _ e) => -[[a1 a2 a3] [a4 a5 a6]].
by rewrite /field_exchanged /comp a1 a2 a3 a4 a5 a6; csts; rewrite ?mulNr ?opprK; csts; rewrite ?opprK; csts.
Qed.
End Exchange.

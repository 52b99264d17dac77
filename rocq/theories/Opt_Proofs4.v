(** The "opt" tangent field of square images of at most 64 points; the first step of the
    minimisation. *)
From Coq Require Import Reals ZArith Lra Lia.
From mathcomp Require Import all_ssreflect all_algebra fingroup perm.
From mathcomp Require Import complex.
From Verif Require Import RStruct Cplx Base Fourier_Model Fourier_Spec Fourier_Proofs Sim_Model Filter_Model Filter_Proofs Tangent_Model Opt_Model Opt_Spec.
From Verif Require Import Energy_Proofs Energy_Proofs2 Tangent_Proofs Grid_Spec Grid_Proofs Recip_Spec Props_Filter Opt_Proofs Opt_Proofs2 Opt_Proofs3.

Set Implicit Arguments.
Unset Strict Implicit.
Unset Printing Implicit Defensive.

Import Order.TTheory GRing.Theory Num.Theory.
Local Open Scope ring_scope.
Local Open Scope complex_scope.

Section Square.
Variables (n nh : nat) (h : 'I_nh -> order).
Variable minimize : (('rV[C]_nh * 'rV[C]_nh) -> R) -> 'rV[C]_nh * 'rV[C]_nh.
Variable u : 'M[C]_n.
Hypotheses (n1 : (1 < n)%N) (n64 : (n <= 64)%N).
Hypothesis hi : indexed h n n.
Hypothesis unz : exists i j, u i j <> 0.
Hypothesis hmin : forall f, (exists c0, forall c, (f c0 <= f c)%Re) -> forall c, (f (minimize f) <= f c)%Re.
Hypothesis hres : resolved h n n.
Hypothesis hopp : opposite_closed h.

Lemma raw_square k (sx sy : 'M[C]_n) : (forall i j, conj (sx i j) = sx i j) -> (forall i j, conj (sy i j) = sy i j) ->
  let t := raw_opt h minimize n (rc k *: sx, rc k *: sy) in forall i j,
  t.1 i j = (k * complex.Re (band h sy i j))%Re /\ t.2 i j = (- (k * complex.Re (band h sx i j)))%Re.
Proof.
move=> rx ry t i j; rewrite /t /raw_opt; cbn [fst snd]; have n0 : (0 < n)%N by exact: ltnW.
rewrite divnn n0 !sampled_id !interpolated_id //.
have ok : amps_ok h n by apply/amps_okP.
have sp : (0 < n * n)%N by rewrite muln_gt0 n0.
have kx := scaleC_real k rx; have ky := scaleC_real k ry.
have [cx cy] : (forall x y, complex.Re (amps h n (n * n) (minimize (objective h (n * n) (rc k *: sx) (rc k *: sy))).1 x y) = complex.Re (band h (rc k *: sx) x y)) /\
  (forall x y, complex.Re (amps h n (n * n) (minimize (objective h (n * n) (rc k *: sx) (rc k *: sy))).2 x y) = complex.Re (band h (rc k *: sy) x y)).
  apply: (minimum n0 hres ok hopp kx ky sp); apply: hmin.
  by exists (best h (rc k *: sx) (n * n), best h (rc k *: sy) (n * n)) => d; exact: (attained n0 hres ok hopp kx ky sp).
by split; rewrite [LHS]mxE ?cx ?cy band_scale [X in complex.Re X]mxE Re_rcM.
Qed.

Lemma square_field normalize : exists k sx sy, [/\ (0 < k)%Re, edges0 u = Ok sx, edges1 u = Ok sy &
  exists m t, [/\ (0 < m)%Re, opt_field h minimize normalize u = Ok t &
   forall i j, let a := (k * complex.Re (band h sy i j))%Re in let b := (- (k * complex.Re (band h sx i j)))%Re in
   (t.1 i j, t.2 i j) = finish normalize m (a, b)]].
Proof.
have [k [sx [sy [k0 ex ey [rx ry] eg]]]] := opt_gradientE n1 n1 unz.
exists k, sx, sy; split=> //.
have e : minn (2 ^ 6) n = n by apply/minn_idPr.
have w : workable n n by left.
have hi' : indexed h (minn (2 ^ 6) n) (minn (2 ^ 6) n) by rewrite e.
have := opt_fieldE minimize normalize n1 n1 hi' hi' w unz eg.
rewrite e; have rs := raw_square k rx ry; move: rs; cbv zeta.
move: (raw_opt h minimize n (rc k *: sx, rc k *: sy)) => T rs ->; set M := grid_max _.
refine (ex_intro _ M (ex_intro _ _ (And3 _ (erefl _) _))); last first.
  by move=> i j; cbv zeta; have [<- <-] := rs i j; rewrite /= !mxE -surjective_pairing.
have [i [j _]] := unz; apply: Rlt_le_trans (onorm_pos (T.1 i j) (T.2 i j)) _.
exact: (grid_max_ge (fun i j => onorm (T.1 i j) (T.2 i j)) i j).
Qed.
End Square.

(** ** The first step *)
Section First.
Variables (nh : nat) (h : 'I_nh -> order) (n : nat).
Hypothesis n0 : (0 < n)%N.
Hypothesis hres : resolved h n n.
Hypothesis hok : amps_ok h n.
Hypothesis hopp : opposite_closed h.
Variable scale : nat.
Hypothesis s0 : (0 < scale)%N.
Let kappa : R := (INR scale / INR (n * n))%Re.
Let w (i : 'I_nh) (t : 'I_n * 'I_n) : C := wave (h i).1 (h i).2 t.1 t.2.

Lemma fit_scale s (b : 'rV[C]_nh) t : fit w kappa ((rc s *: b) ord0) t = (s * fit w kappa (b ord0) t)%Re.
Proof.
rewrite /fit (_ : \sum_i (rc s *: b) ord0 i * w i t = rc s * \sum_i b ord0 i * w i t) ?Re_rcM.
  exact: mulrCA.
by rewrite mulr_sumr; apply: eq_bigr => i _; rewrite mxE mulrA.
Qed.

Variable g : 'M[C]_n.
Hypothesis greal : forall x y, conj (g x y) = g x y.
Notation b0 := (best h g scale).
Notation P := (fun t : 'I_n * 'I_n => complex.Re (band h g t.1 t.2)).
Notation G := (fun t : 'I_n * 'I_n => complex.Re (g t.1 t.2)).

Lemma cross (b : 'rV[C]_nh) : \sum_t fit w kappa (b ord0) t * G t =
  (kappa * kappa * INR (n * n) * rdot b0 b)%Re.
Proof.
have kp := kappa_pos n0 s0.
have k0 : rc kappa != 0 by apply/eqP => -[] e; move: kp; rewrite -/kappa e; exact: Rlt_irrefl.
have ort := orth_fit kappa (band_orth' n0 hres hopp greal) (b ord0).
have -> : \sum_t fit w kappa (b ord0) t * G t = \sum_t fit w kappa (b ord0) t * P t.
  apply/eqP; rewrite eq_sym -subr_eq0 -sumrB; apply/eqP; apply: etrans ort.
  by apply: eq_bigr => t _; rewrite mulrBr.
have pv := parseval n0 n0 hres (b^T) (\col_i coef g (h i).1 (h i).2).
have nn : ((n * n)%:R : C) != 0 := NxNy_neq0 n0 n0.
have {}pv : \sum_(t : 'I_n * 'I_n) (\sum_i b ord0 i * w i t) * band h g t.1 t.2 =
    (n * n)%:R * \sum_i b ord0 i * conj (coef g (h i).1 (h i).2).
  have -> : \sum_i b ord0 i * conj (coef g (h i).1 (h i).2) =
     \sum_i (b^T) i ord0 * conj ((\col_i coef g (h i).1 (h i).2) i ord0).
    by apply: eq_bigr => i _; rewrite !mxE.
  rewrite -pv /mean mulrC divfK // pair_bigA; apply: eq_bigr => -[x y] _ /=; rewrite mxE.
  rewrite -[band h g x y](band_real hres hopp greal) bandE; congr (_ * _).
  by apply: eq_bigr => i _; rewrite mxE.
have -> : \sum_t fit w kappa (b ord0) t * P t =
   kappa * complex.Re (\sum_(t : 'I_n * 'I_n) (\sum_i b ord0 i * w i t) * band h g t.1 t.2).
  rewrite Energy_Proofs.Re_sum mulr_sumr; apply: eq_bigr => -[x y] _ /=; rewrite /fit -mulrA; congr (_ * _).
  rewrite {2}(real_rc (band_real hres hopp greal x y)).
  case: (\sum_i _) => p q /=; by rewrite mulr0 subr0.
rewrite pv natc Re_rcM Energy_Proofs.Re_sum /rdot.
have -> : \sum_i complex.Re (b ord0 i * conj (coef g (h i).1 (h i).2)) =
   kappa * \sum_i complex.Re (b ord0 i * conj (b0 ord0 i)).
  rewrite mulr_sumr; apply: eq_bigr => i _; rewrite mxE -/kappa -Re_rcM; congr complex.Re.
  rewrite conjM conjV rc_conj mulrCA; congr (_ * _).
  by rewrite mulrC divfK.
by rfold; ring.
Qed.

Lemma err_line s (b : 'rV[C]_nh) : sq_err h scale (rc s *: b) g =
  (sq_err h scale 0 g - 2 * s * (kappa * kappa * INR (n * n) * rdot b0 b) +
    s * s * \sum_t fit w kappa (b ord0) t * fit w kappa (b ord0) t)%Re.
Proof.
rewrite !(sq_errE n0 hres hok) // -cross /err.
have z t : fit w kappa ((0 : 'rV[C]_nh) ord0) t = 0.
  by rewrite /fit big1 /= ?mulr0 // => i _; rewrite mxE mul0r.
set A := \sum_t (_ - G t) * _; set B := \sum_t (fit w kappa ((0 : 'rV[C]_nh) ord0) t - _) * _.
have -> : A = \sum_t (G t * G t - (s + s) * (fit w kappa (b ord0) t * G t) + (s * s) * (fit w kappa (b ord0) t * fit w kappa (b ord0) t)).
  by apply: eq_bigr => t _; rewrite -/kappa fit_scale; move: (fit w kappa (b ord0) t) (complex.Re (g t.1 t.2)) => x v; rfold; ring.
have -> : B = \sum_t G t * G t by apply: eq_bigr => t _; rewrite z; move: (complex.Re (g t.1 t.2)) => v; rfold; ring.
rewrite big_split /= sumrB -!mulr_sumr.
move: (\sum_t G t * G t) (\sum_t fit w kappa (b ord0) t * G t) (\sum_t fit w kappa (b ord0) t * fit w kappa (b ord0) t) => p q r.
by rfold; ring.
Qed.
End First.

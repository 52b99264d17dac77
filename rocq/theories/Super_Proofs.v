(** Supercells. *)
From Coq Require Import Reals ZArith Lra Lia.
From mathcomp Require Import all_ssreflect all_algebra.
From mathcomp Require Import complex.
From Verif Require Import RStruct Cplx Base Fourier_Model Fourier_Spec Sim_Model Setup_Model Fourier_Proofs Super_Spec.

Set Implicit Arguments.
Unset Strict Implicit.
Unset Printing Implicit Defensive.

Import Order.TTheory GRing.Theory Num.Theory.
Local Open Scope ring_scope.
Local Open Scope complex_scope.

Lemma sum_tile (p N : nat) (f : nat -> C) : (forall a x, f (a * N + x)%N = f x) ->
  \sum_(x < p * N) f x = p%:R * \sum_(x < N) f x.
Proof.
move=> hf; rewrite -(big_mkord xpredT f) big_nat_mul.
under eq_bigr => a _.
  rewrite -{1}[(a * N)%N]add0n big_addn mulSn addnK big_mkord.
  under eq_bigr => x _ do rewrite addnC hf.
  over.
by rewrite big_const_nat subn0 iter_addr addr0 mulr_natl.
Qed.

Lemma INRm p N : INR (p * N)%N = (INR p * INR N)%Re.
Proof. exact: mult_INR. Qed.

Lemma root_mul p N m : (0 < p)%N -> (0 < N)%N -> root (p * N) (Z.of_nat p * m) = root N m.
Proof.
move=> p0 N0; rewrite /root INRm mult_IZR -INR_IZR_INZ; congr (cexp (_ * rc _)).
have hp : INR p <> 0%Re by apply: not_0_INR => e; rewrite e in p0.
have hN : INR N <> 0%Re by apply: not_0_INR => e; rewrite e in N0.
by rfold; field.
Qed.

Section T.
Variables (Nx Ny p q : nat).
Hypotheses (Nx0 : (0 < Nx)%N) (Ny0 : (0 < Ny)%N) (p0 : (0 < p)%N) (q0 : (0 < q)%N).
Notation Px := (p * Nx)%N.
Notation Py := (q * Ny)%N.

Definition mo N (N0 : (0 < N)%N) (x : nat) : 'I_N := Ordinal (ltn_pmod x N0).

Lemma mo_add N (N0 : (0 < N)%N) a x : mo N0 (a * N + x)%N = mo N0 x.
Proof. by apply/val_inj; rewrite /= modnMDl. Qed.
Lemma mo_val N (N0 : (0 < N)%N) (x : 'I_N) : mo N0 x = x.
Proof. by apply/val_inj; rewrite /= modn_small. Qed.

Lemma tiledE (u : 'M[C]_(Nx, Ny)) (u' : 'M[C]_(Px, Py)) x' y' : tiled u u' -> u' x' y' = u (mo Nx0 x') (mo Ny0 y').
Proof. by move=> h; apply: h. Qed.

Lemma root_add N m a x : (0 < N)%N -> root N (m * Z.of_nat (a * N + x)%N) = root N (m * Z.of_nat x).
Proof.
move=> N0; rewrite Nat2Z.inj_add Nat2Z.inj_mul.
have -> : (m * (Z.of_nat a * Z.of_nat N + Z.of_nat x) = m * Z.of_nat x + Z.of_nat N * (m * Z.of_nat a))%Zc by ring.
exact: root_shift.
Qed.

Lemma coef_tiled (u : 'M[C]_(Nx, Ny)) (u' : 'M[C]_(Px, Py)) m n : tiled u u' ->
  coef u' (Z.of_nat p * m) (Z.of_nat q * n) = coef u m n.
Proof.
move=> h; rewrite /coef.
pose g (x y : nat) := u (mo Nx0 x) (mo Ny0 y) * (root Nx (- m * Z.of_nat x) * root Ny (- n * Z.of_nat y)).
have -> : \sum_(x < Px) \sum_(y < Py) u' x y * wave (- (Z.of_nat p * m)) (- (Z.of_nat q * n)) x y =
          \sum_(x < Px) \sum_(y < Py) g x y.
  apply: eq_bigr => x _; apply: eq_bigr => y _; rewrite waveE (tiledE _ _ h) /g.
  have -> : (- (Z.of_nat p * m) * Z.of_nat x = Z.of_nat p * (- m * Z.of_nat x))%Zc by ring.
  have -> : (- (Z.of_nat q * n) * Z.of_nat y = Z.of_nat q * (- n * Z.of_nat y))%Zc by ring.
  by rewrite !root_mul.
have -> : \sum_(x < Nx) \sum_(y < Ny) u x y * wave (- m) (- n) x y = \sum_(x < Nx) \sum_(y < Ny) g x y.
  by apply: eq_bigr => x _; apply: eq_bigr => y _; rewrite waveE /g !mo_val.
have gy x a y : g x (a * Ny + y)%N = g x y by rewrite /g mo_add root_add.
have gx a x y : g (a * Nx + x)%N y = g x y by rewrite /g mo_add root_add.
rewrite (sum_tile p (f := fun x => \sum_(y < Py) g x y)); last first.
  by move=> a x; apply: eq_bigr => y _; rewrite gx.
under eq_bigr => x _ do rewrite (sum_tile q (f := g x) (gy x)).
rewrite -mulr_sumr !natrM.
have n0 k : (0 < k)%N -> (k%:R : C) != 0 by rewrite pnatr_eq0; case: k.
have := n0 _ p0; have := n0 _ q0; have := n0 _ Nx0; have := n0 _ Ny0.
move: (\sum_x _) (p%:R : C) (q%:R : C) (Nx%:R : C) (Ny%:R : C) => S a b c d /eqP hd /eqP hc /eqP hb /eqP ha.
by cfield; do !split.
Qed.

Section H.
Variables (nh : nat) (h h' : 'I_nh -> order).
Hypothesis hh : forall i, h' i = ((Z.of_nat p * (h i).1)%Zc, (Z.of_nat q * (h i).2)%Zc).

Lemma index_tiled N k d : (0 < k)%N -> index_ok (k * N) (Z.of_nat k * d) <-> index_ok N d.
Proof.
move=> k0; have k1 : (0 < Z.of_nat k)%Zc by case: k k0 => // k _; lia.
rewrite /index_ok Nat2Z.inj_mul; split; nia.
Qed.

Lemma toeplitz_tiled (u : 'M[C]_(Nx, Ny)) (u' : 'M[C]_(Px, Py)) : tiled u u' -> toeplitz h' u' = toeplitz h u.
Proof.
move=> ht; have Px0 : (0 < Px)%N by rewrite muln_gt0 p0. have Py0 : (0 < Py)%N by rewrite muln_gt0 q0.
have dE i j : (((h' i).1 - (h' j).1) = Z.of_nat p * ((h i).1 - (h j).1))%Zc /\
              (((h' i).2 - (h' j).2) = Z.of_nat q * ((h i).2 - (h j).2))%Zc.
  by rewrite !hh /=; split; ring.
have io : (forall i j, indexable Px Py (odiff (h' i) (h' j))) <-> (forall i j, indexable Nx Ny (odiff (h i) (h j))).
  split=> H i j; have := H i j; rewrite /indexable /odiff /=; have [-> ->] := dE i j;
    by rewrite !index_tiled.
case: (toeplitzP Px0 Py0 h' u') => [[H ->]|[H ->]]; case: (toeplitzP Nx0 Ny0 h u) => [[G ->]|[G ->]] //.
- congr Some; apply/matrixP => i j; rewrite !mxE; have [-> ->] := dE i j; exact: coef_tiled.
- by case: G; apply/io.
- by case: H; apply/io.
Qed.

Lemma get_toeplitz_tiled (u : 'M[C]_(Nx, Ny)) (u' : 'M[C]_(Px, Py)) : tiled u u' -> get_toeplitz h' u' = get_toeplitz h u.
Proof. by move=> ht; rewrite /get_toeplitz (toeplitz_tiled ht). Qed.

Lemma up_x (x : 'I_Nx) : exists x' : 'I_Px, (x' %% Nx)%N = x.
Proof.
have hx : (x < Px)%N by apply: (leq_trans (ltn_ord x)); rewrite leq_pmull.
by exists (Ordinal hx); rewrite /= modn_small.
Qed.
Lemma up_y (y : 'I_Ny) : exists y' : 'I_Py, (y' %% Ny)%N = y.
Proof.
have hy : (y < Py)%N by apply: (leq_trans (ltn_ord y)); rewrite leq_pmull.
by exists (Ordinal hy); rewrite /= modn_small.
Qed.

Lemma inv_tiled (u : 'M[C]_(Nx, Ny)) (u' : 'M[C]_(Px, Py)) : tiled u u' ->
  (exists v v', [/\ pointwise_inv u = Ok v, pointwise_inv u' = Ok v' & tiled v v']) \/
  (pointwise_inv u = Err NaN /\ pointwise_inv u' = Err NaN).
Proof.
move=> ht; rewrite /pointwise_inv.
have -> : [forall i, forall j, u' i j != 0] = [forall i, forall j, u i j != 0].
  apply/forallP/forallP => H i; apply/forallP => j.
  - have [i' hi] := up_x i; have [j' hj] := up_y j.
    by have /forallP/(_ j') := H i'; rewrite (ht i j i' j').
  - by rewrite (tiledE _ _ ht); have /forallP := H (mo Nx0 i).
case: ifP => _; last by right.
left; eexists; eexists; split; [by []|by []|] => x y x' y' hx hy.
by rewrite !mxE (ht x y x' y').
Qed.

Lemma nu_tiled (u : 'M[C]_(Nx, Ny)) (u' : 'M[C]_(Px, Py)) : tiled u u' -> nu_hat_inv_iso h' u' = nu_hat_inv_iso h u.
Proof.
move=> ht; rewrite /nu_hat_inv_iso.
case: (inv_tiled ht) => [[v [v' [-> -> hv]]]|[-> ->]] //; cbn [bind].
by rewrite (get_toeplitz_tiled hv).
Qed.

Lemma proj_tiled (t0 t1 : 'M[C]_(Nx, Ny)) (t0' t1' : 'M[C]_(Px, Py)) : tiled t0 t0' -> tiled t1 t1' ->
  proj_blocks h' t0' t1' = proj_blocks h t0 t1.
Proof.
move=> h0 h1; rewrite /proj_blocks; cbv zeta.
have H (a b : 'M[C]_(Nx, Ny)) (a' b' : 'M[C]_(Px, Py)) : tiled a a' -> tiled b b' ->
  get_toeplitz h' (\matrix_(i, j) (a' i j * conj (b' i j) / nt2 (t0' i j) (t1' i j))) =
  get_toeplitz h (\matrix_(i, j) (a i j * conj (b i j) / nt2 (t0 i j) (t1 i j))).
  move=> ha hb; apply: get_toeplitz_tiled => x y x' y' hx hy.
  by rewrite !mxE (h0 x y x' y') // (h1 x y x' y') // (ha x y x' y') // (hb x y x' y').
by rewrite !(H _ _ _ _ h0 h0) !(H _ _ _ _ h1 h1) !(H _ _ _ _ h0 h1) !(H _ _ _ _ h1 h0).
Qed.

Variables (omega : R) (kx ky : 'rV[C]_nh).
Variables (f : formulation_t Nx Ny) (f' : formulation_t Px Py).
Hypothesis hf : form_tiled f f'.

Lemma build_tiled mu e e' : eps_tiled f e e' ->
  build_matrix omega kx ky h' f' mu e' = build_matrix omega kx ky h f mu e.
Proof.
case: e => [a|u|u|a]; case: e' => [a'|u'|u'|a'] //=.
- by move=> ->.
- move=> ht; rewrite (get_toeplitz_tiled ht).
  case: (get_toeplitz h u) => [E|]; last by []. cbn [bind].
  case: (linv E) => [Ei|]; last by []. cbn [bind].
  case: f f' hf => [||t] [||t'] //=; first by rewrite (nu_tiled ht).
  move=> H; have := H u u' ht.
  case: (t u) => [s|er]; case: (t' u') => [s'|er'] //; last by move=> ->.
  move=> [hs0 hs1]; cbn [bind]; rewrite (nu_tiled ht).
  by rewrite /get_Peps (proj_tiled hs0 hs1).
- move=> [ht hn]; rewrite (get_toeplitz_tiled (ht _ _)).
  case: (get_toeplitz h _) => [E|]; last by []. cbn [bind].
  case: (linv E) => [Ei|]; last by []. cbn [bind].
  have -> : toeplitz_transverse h' (fun a b => u' (xy a) (xy b)) = toeplitz_transverse h (fun a b => u (xy a) (xy b)).
    by rewrite /toeplitz_transverse !(get_toeplitz_tiled (ht _ _)).
  by case: (f) (f') hf hn => [||t] [||t'].
Qed.
End H.
End T.

(** whole simulations *)
Section Sim.
Variables (Nx Ny p q nh : nat).
Hypotheses (Nx0 : (0 < Nx)%N) (Ny0 : (0 < Ny)%N) (p0 : (0 < p)%N) (q0 : (0 < q)%N).
Variable eig : forall m, 'M[C]_m -> 'rV[C]_m * 'M[C]_m.
Variable pw : planewave.
Variables (rec rec' : 'M[R]_2) (h h' : 'I_nh -> order).
Hypothesis hh : forall i, h' i = ((Z.of_nat p * (h i).1)%Zc, (Z.of_nat q * (h i).2)%Zc).
Hypothesis hr : forall a, rec' a ord0 = (rec a ord0 / INR p)%Re /\ rec' a ord_max = (rec a ord_max / INR q)%Re.
Variables (f : formulation_t Nx Ny) (f' : formulation_t (p * Nx) (q * Ny)).
Hypothesis hf : form_tiled f f'.

Lemma scaled (r : R) k z : (0 < k)%N -> rc (r / INR k)%Re * zC (Z.of_nat k * z) = rc r * zC z.
Proof.
move=> k0; rewrite /zC -!rmorphM; congr (rc _); rewrite mult_IZR -INR_IZR_INZ; rfold.
have hk : INR k <> 0%Re by apply: not_0_INR => e; rewrite e in k0.
by field.
Qed.

Lemma kx_tiled e0 : sim_kx pw rec' h' e0 = sim_kx pw rec h e0.
Proof. by apply/rowP => i; rewrite !mxE hh /= (hr _).1 (hr _).2 !scaled. Qed.
Lemma ky_tiled e0 : sim_ky pw rec' h' e0 = sim_ky pw rec h e0.
Proof. by apply/rowP => i; rewrite !mxE hh /= (hr _).1 (hr _).2 !scaled. Qed.

Lemma solve_tiled om kx ky th mu e e' : eps_tiled f e e' ->
  solve_layer eig om kx ky h' f' th mu e' = solve_layer eig om kx ky h f th mu e.
Proof.
move=> he; rewrite /solve_layer (build_tiled Nx0 Ny0 p0 q0 hh _ _ _ hf _ he).
case: (build_matrix _ _ _ _ _ _ _) => [b|]; last by []. cbn [bind].
by case: e e' he => [a|u|u|a] [a'|u'|u'|a'] //= ->.
Qed.

Lemma stack_tiled e0 ls ls' : List.Forall2 (layer_tiled f) ls ls' ->
  solve_stack eig pw rec' h' f' e0 ls' = solve_stack eig pw rec h f e0 ls.
Proof.
rewrite /solve_stack kx_tiled ky_tiled.
elim=> [|l l' s s' [ht he] _ IH]; first by [].
by rewrite /= ht (solve_tiled _ _ _ _ _ he) IH.
Qed.

Lemma run_tiled ls ls' i0 : List.Forall2 (layer_tiled f) ls ls' ->
  run_efficiencies eig pw rec' h' f' ls' i0 = run_efficiencies eig pw rec h f ls i0.
Proof.
move=> H; have := stack_tiled _ H.
case: H => [|l l' s s' [ht he] _]; first by [].
move=> E; rewrite /run_efficiencies.
have -> : scalar_eps (li_eps l') = scalar_eps (li_eps l).
  by move: he; case: (li_eps l) (li_eps l') => [a|u|u|a] [a'|u'|u'|a'] //= ->.
case: (scalar_eps _) => [e0|]; last by []. cbn [bind].
case: (pw_a0 pw) => [a|]; last by []. cbn [bind].
by rewrite E.
Qed.

Lemma run_field_tiled ls ls' i0 k z : List.Forall2 (layer_tiled f) ls ls' ->
  run_field eig pw rec' h' f' ls' i0 k z = run_field eig pw rec h f ls i0 k z.
Proof.
move=> H; have := stack_tiled _ H.
case: H => [|l l' s s' [ht he] _]; first by [].
move=> E; rewrite /run_field.
have -> : scalar_eps (li_eps l') = scalar_eps (li_eps l).
  by move: he; case: (li_eps l) (li_eps l') => [a|u|u|a] [a'|u'|u'|a'] //= ->.
case: (scalar_eps _) => [e0|]; last by []. cbn [bind].
case: (pw_a0 pw) => [a|]; last by []. cbn [bind].
by rewrite E kx_tiled ky_tiled.
Qed.
End Sim.

(** The "opt" tangent field: accepted grids, least squares. *)
From Coq Require Import Reals ZArith Lra Lia.
From mathcomp Require Import all_ssreflect all_algebra.
From mathcomp Require Import complex.
From Verif Require Import RStruct Cplx Base Fourier_Model Fourier_Spec Fourier_Proofs Sim_Model Filter_Model Tangent_Model Opt_Model Opt_Spec.
From Verif Require Import Energy_Proofs Energy_Proofs2 Tangent_Proofs Grid_Spec Grid_Proofs Recip_Spec.

Set Implicit Arguments.
Unset Strict Implicit.
Unset Printing Implicit Defensive.

Import Order.TTheory GRing.Theory Num.Theory.
Local Open Scope ring_scope.
Local Open Scope complex_scope.

(** ** Shapes *)
Lemma kept1 N : kept N 1 = N.
Proof. by rewrite /kept divn1 addn1. Qed.

Lemma kept_self d : (0 < d)%N -> kept (64 * d) d = 64%N.
Proof.
move=> d0; rewrite /kept -subn1 -addnBA // divnMDl // divn_small ?addn0 //.
by rewrite subn1 prednK.
Qed.

Lemma keptP N : (64 <= N)%N -> (kept N (N %/ 64)%N == 64%N) = (64 %| N)%N.
Proof.
move=> hN; have d0 : (0 < N %/ 64)%N by rewrite divn_gt0.
set d := (N %/ 64)%N in d0 *; rewrite /dvdn; set r := (N %% 64)%N.
have eN : N = (64 * d + r)%N by rewrite /d /r mulnC -divn_eq.
rewrite /kept [in LHS]eN -addnA -subn1 -addnBA; last by rewrite addn_gt0 d0 orbT.
rewrite divnMDl // -[X in _ == X]addn0 eqn_add2l -leqn0 -ltnS ltn_divLR // mul1n subn1 prednK ?addn_gt0 ?d0 ?orbT //.
by rewrite -[X in (_ <= X)%N]add0n leq_add2r leqn0.
Qed.

Lemma shapesP Nx Ny : (1 < Nx)%N -> (1 < Ny)%N ->
  reflect (workable Nx Ny)
    [&& minn (2 ^ 6)%N Nx == minn (2 ^ 6)%N Ny, kept Nx (Nx %/ minn (2 ^ 6)%N Nx)%N == minn (2 ^ 6)%N Nx
      & kept Ny (Ny %/ minn (2 ^ 6)%N Nx)%N == minn (2 ^ 6)%N Nx].
Proof.
move=> hx hy; rewrite -[(2 ^ 6)%N]/64%N.
have px : (0 < Nx)%N by exact: ltnW. have py : (0 < Ny)%N by exact: ltnW.
apply: (iffP idP).
- case/and3P=> /eqP e k1 k2; case: (leqP 64 Nx) => lx; last first.
    left; have ex : minn 64 Nx = Nx by apply/minn_idPr; exact: ltnW.
    split; last exact: ltnW.
    by move: e; rewrite ex minnC /minn; case: ltnP => // _ e; rewrite e ltnn in lx.
  have ex : minn 64 Nx = 64%N by apply/minn_idPl.
  have ly : (64 <= Ny)%N by rewrite ex in e; rewrite e; exact: geq_minr.
  move: k1 k2; rewrite ex !keptP // => /dvdnP [k ek] /dvdnP [l el]; right.
  by exists k, l; rewrite ek el ![(_ * 64)%N]mulnC.
- case=> [[<- l]|[k [l [ek el]]]].
    have -> : minn 64 Nx = Nx by apply/minn_idPr.
    by rewrite divnn px kept1 !eqxx.
  have k0 : (0 < k)%N by move: px; rewrite ek muln_gt0; case/andP.
  have l0 : (0 < l)%N by move: py; rewrite el muln_gt0; case/andP.
  have lx : (64 <= Nx)%N by rewrite ek leq_pmulr.
  have ly : (64 <= Ny)%N by rewrite el leq_pmulr.
  have -> : minn 64 Nx = 64%N by apply/minn_idPl.
  have -> : minn 64 Ny = 64%N by apply/minn_idPl.
  by rewrite eqxx !keptP // ek el !dvdn_mulr.
Qed.

(** ** The table of amplitudes *)
Lemma last_filter (I : finType) (P : pred I) (f : I -> C) : (forall i j, P i -> P j -> i = j) ->
  last 0 [seq f i | i <- enum I & P i] = \sum_i f i * (P i)%:R.
Proof.
move=> uq; case: (pickP P) => [i0 pi|none].
- have -> : filter P (enum I) = [:: i0].
    rewrite -(filter_pred1_uniq (enum_uniq I) (mem_enum I i0)).
    by apply: eq_filter => i /=; apply/idP/eqP => [pj|->]; [exact: uq|].
  rewrite /= (bigD1 i0) //= pi mulr1 big1 ?addr0 // => i hi.
  by case E: (P i); rewrite ?mulr0 //; move: hi; rewrite (uq _ _ E pi) eqxx.
- rewrite (eq_filter (a2 := pred0)) // filter_pred0 /= big1 // => i _; by rewrite none mulr0.
Qed.

Section Amps.
Variables (nh : nat) (h : 'I_nh -> order) (n : nat).
Hypothesis n0 : (0 < n)%N.
Hypothesis hres : resolved h n n.
Hypothesis hok : amps_ok h n.

Lemma falls_uniq p q i j : falls_on h (n := n) i p q -> falls_on h j p q -> i = j.
Proof.
move=> /andP [/eqP a1 /eqP a2] /andP [/eqP b1 /eqP b2]; apply/eqP/negP => /negP nij.
have mods d d' (k : 'I_n) : pyidx n d = Some k -> pyidx n d' = Some k -> ((d - d') mod Z.of_nat n = 0)%Zc.
  move=> e e'; case: (pyidxP n d) => [[_ [k1 [h1 [x hx]]]]|[_ h1]]; last by rewrite h1 in e.
  case: (pyidxP n d') => [[_ [k2 [h2 [y hy]]]]|[_ h2]]; last by rewrite h2 in e'.
  rewrite e in h1; rewrite e' in h2; case: h1 => ?; case: h2 => ?; subst k1 k2.
  apply/Z.mod_divide; first by move: n0 => /ssrnat.ltP; lia.
  by exists (y - x)%Zc; lia.
by case: (hres nij); split; apply: mods; [exact: a1|exact: b1|exact: a2|exact: b2].
Qed.

Lemma tableE (a : 'rV[C]_nh) : table h n a = \sum_i a ord0 i *: \matrix_(p, q) (falls_on h i p q)%:R.
Proof.
apply/matrixP=> p q; rewrite summxE mxE (last_filter _ (fun i j => @falls_uniq p q i j)).
by apply: eq_bigr => i _; rewrite !mxE.
Qed.

Lemma falls_delta i : exists p q, (\matrix_(p', q') (falls_on h i p' q')%:R : 'M[C]_n) = delta_mx p q /\
  (exists x, Z.of_nat (p : 'I_n) = (h i).1 + Z.of_nat n * x)%Zc /\ (exists y, Z.of_nat (q : 'I_n) = (h i).2 + Z.of_nat n * y)%Zc.
Proof.
have /andP [s1 s2] := forallP hok i.
case: (pyidxP n (h i).1) => [[_ [p [e1 hx]]]|[_ e1]]; last by rewrite e1 in s1.
case: (pyidxP n (h i).2) => [[_ [q [e2 hy]]]|[_ e2]]; last by rewrite e2 in s2.
exists p, q; split=> //; apply/matrixP=> p' q'; rewrite !mxE /falls_on e1 e2.
by rewrite !(inj_eq Some_inj) (eq_sym p) (eq_sym q).
Qed.

Lemma ampsE scale (a : 'rV[C]_nh) x y :
  amps h n scale a x y = scale%:R / (n * n)%:R * \sum_i a ord0 i * wave (h i).1 (h i).2 x y.
Proof.
have nn := NxNy_neq0 n0 n0.
have -> : amps h n scale a x y = scale%:R / (n * n)%:R * inverse_fourier_transform (table h n a) x y.
  by rewrite /amps /inverse_fourier_transform !mxE mulrC -mulrA [(n * n)%:R^-1 * _]mulrC divfK.
congr (_ * _); rewrite tableE.
have -> : inverse_fourier_transform (\sum_i a ord0 i *: \matrix_(p, q) (falls_on h i p q)%:R) =
   \sum_i a ord0 i *: inverse_fourier_transform (\matrix_(p, q) (falls_on h i p q)%:R : 'M[C]_n).
  elim/big_rec2: _ => [|i u v _ ih]; first exact: ift0.
  by rewrite ift_add // ift_scale // -ih.
rewrite summxE; apply: eq_bigr => i _; rewrite mxE.
by have [p [q [-> [[b hb] [c hc]]]]] := falls_delta i; rewrite (ift_delta _ _ _ _ hb hc).
Qed.
End Amps.

(** ** Least squares *)
Section LS.
Variables (T I : finType) (w : I -> T -> C) (g P : T -> R) (kappa : R) (b0 : I -> C).
Definition fit (a : I -> C) (t : T) : R := (kappa * complex.Re (\sum_i a i * w i t))%R.
Definition err (a : I -> C) : R := \sum_t (fit a t - g t) * (fit a t - g t).
Hypothesis hP : forall t, fit b0 t = P t.
Hypothesis orth : forall i, \sum_t rc (P t - g t) * w i t = 0.

Lemma fitB a t : fit a t - P t = fit (fun i => a i - b0 i) t.
Proof.
rewrite -hP /fit -mulrBr -raddfB -sumrB; congr (_ * complex.Re _).
by apply: eq_bigr => i _; rewrite mulrBl.
Qed.

Lemma orth_fit a : \sum_t fit a t * (P t - g t) = 0.
Proof.
have -> : \sum_t fit a t * (P t - g t) = kappa * complex.Re (\sum_i a i * \sum_t rc (P t - g t) * w i t).
  rewrite (eq_bigr (fun i => \sum_t a i * (rc (P t - g t) * w i t))); last by move=> i _; rewrite mulr_sumr.
  rewrite exchange_big /= Re_sum mulr_sumr; apply: eq_bigr => t _.
  rewrite /fit -mulrA; congr (_ * _).
  have -> : \sum_i a i * (rc (P t - g t) * w i t) = rc (P t - g t) * \sum_i a i * w i t.
    by rewrite mulr_sumr; apply: eq_bigr => i _; rewrite mulrCA.
  case: (\sum_i _) => p q /=; rewrite mul0r subr0; exact: mulrC.
by rewrite big1 ?mulr0 // => i _; rewrite orth mulr0.
Qed.

Lemma errE a : err a = \sum_t (fit a t - P t) * (fit a t - P t) + \sum_t (P t - g t) * (P t - g t).
Proof.
have z : \sum_t (fit a t - P t) * (P t - g t) = 0.
  by apply: etrans (orth_fit (fun i => a i - b0 i)); apply: eq_bigr => t _; rewrite fitB.
have e t : (fit a t - g t) * (fit a t - g t) =
    (fit a t - P t) * (fit a t - P t) + ((P t - g t) * (P t - g t) + 2%:R * ((fit a t - P t) * (P t - g t))).
  by rewrite mulr_natl mulr2n; rfold; ring.
by rewrite /err (eq_bigr _ (fun t _ => e t)) !big_split /= -mulr_sumr z mulr0 addr0.
Qed.

Lemma best_is_min a : (err b0 <= err a)%Re.
Proof.
rewrite !errE; apply: Rplus_le_compat_r; rewrite [X in (X <= _)%Re]big1; last by move=> t _; rewrite hP subrr mulr0.
by apply/RleP; apply: sumr_ge0 => t _; exact: sqr_ge0.
Qed.

Lemma min_is_best a : (err a <= err b0)%Re -> forall t, fit a t = P t.
Proof.
rewrite !errE => hle.
have {}hle : (\sum_t (fit a t - P t) * (fit a t - P t) <= 0)%Re.
  move: hle; rewrite [X in (_ <= X + _)%Re]big1 => [|t _]; last by rewrite hP subrr mulr0.
  by rfold; lra.
have ge t : true -> 0 <= (fit a t - P t) * (fit a t - P t) by move=> _; exact: sqr_ge0.
have e0 : \sum_t (fit a t - P t) * (fit a t - P t) == 0.
  by rewrite eq_le; apply/andP; split; [apply/RleP|exact: sumr_ge0].
move=> t; move: e0; rewrite psumr_eq0 // => /allP /(_ t (mem_index_enum t)) /=.
by rewrite mulf_eq0 orbb subr_eq0 => /eqP.
Qed.
End LS.

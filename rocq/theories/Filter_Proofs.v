From Coq Require Import Reals ZArith Lra Lia.
From mathcomp Require Import all_ssreflect all_algebra.
From mathcomp Require Import complex.
From Verif Require Import RStruct Cplx Base Fourier_Model Fourier_Spec Fourier_Proofs Sim_Model Filter_Model.

Set Implicit Arguments.
Unset Strict Implicit.
Unset Printing Implicit Defensive.

Import Order.TTheory GRing.Theory Num.Theory.
Local Open Scope ring_scope.
Local Open Scope complex_scope.

(** ** Periodic functions *)
Lemma psum_shift1 N (f : Z -> C) : (forall m, f (m + Z.of_nat N)%Zc = f m) ->
  \sum_(x < N) f (Z.of_nat x - 1)%Zc = \sum_(x < N) f (Z.of_nat x).
Proof.
case: N => [|n] per_f; first by rewrite !big_ord0.
rewrite big_ord_recl big_ord_recr addrC; congr (_ + _).
- by apply: eq_bigr => x _; congr f; rewrite lift0 [nat_of_ord (widen_ord _ _)]/= Nat2Z.inj_succ; lia.
- by rewrite -(per_f (Z.of_nat ord0 - 1)%Zc) [nat_of_ord ord0]/= [nat_of_ord ord_max]/=; congr f; lia.
Qed.
Lemma psum_shift N (f : Z -> C) (a : nat) : (forall m, f (m + Z.of_nat N)%Zc = f m) ->
  \sum_(x < N) f (Z.of_nat x - Z.of_nat a)%Zc = \sum_(x < N) f (Z.of_nat x).
Proof.
elim: a f => [|a IH] f pf; first by apply: eq_bigr => x _; congr f; lia.
rewrite -[RHS](psum_shift1 pf) -(IH (fun m => f (m - 1)%Zc)).
- by apply: eq_bigr => x _; congr f; lia.
- by move=> m; rewrite -[RHS]pf; congr f; lia.
Qed.

Section Per.
Variables (Nx Ny : nat).
Hypothesis (Nx0 : (0 < Nx)%N) (Ny0 : (0 < Ny)%N).
Implicit Types u v : 'M[C]_(Nx, Ny).

Lemma per_at u (m n : Z) (i : 'I_Nx) (j : 'I_Ny) :
  (m mod Z.of_nat Nx = Z.of_nat i)%Zc -> (n mod Z.of_nat Ny = Z.of_nat j)%Zc -> per u m n = u i j.
Proof.
move=> hm hn; rewrite /per hm hn !Nat2Z.id.
by rewrite !insubT // => hi hj; congr (u _ _); apply: val_inj.
Qed.
Lemma mod_small N (i : 'I_N) : (Z.of_nat i mod Z.of_nat N = Z.of_nat i)%Zc.
Proof. apply: Z.mod_small; have /ssrnat.ltP := ltn_ord i; lia. Qed.
Lemma per_ord u (i : 'I_Nx) (j : 'I_Ny) : per u (Z.of_nat i) (Z.of_nat j) = u i j.
Proof. by apply: per_at; rewrite mod_small. Qed.
Lemma per_mod u m n m' n' : (m mod Z.of_nat Nx = m' mod Z.of_nat Nx)%Zc ->
  (n mod Z.of_nat Ny = n' mod Z.of_nat Ny)%Zc -> per u m n = per u m' n'.
Proof. by move=> hm hn; rewrite /per hm hn. Qed.
Lemma zord N (N0 : (0 < N)%N) (m : Z) : exists i : 'I_N, (m mod Z.of_nat N = Z.of_nat i)%Zc.
Proof.
have h := Z.mod_pos_bound m (Z.of_nat N).
have {}h : (0 <= m mod Z.of_nat N < Z.of_nat N)%Zc by apply: h; move/ssrnat.ltP: N0; lia.
have lt : (Z.to_nat (m mod Z.of_nat N) < N)%N by apply/ssrnat.ltP; lia.
by exists (Ordinal lt); rewrite /= Z2Nat.id //; lia.
Qed.
Lemma modD1 N m : ((m + Z.of_nat N) mod Z.of_nat N = m mod Z.of_nat N)%Zc.
Proof.
case: N => [|N]; first by rewrite Z.add_0_r.
by rewrite -{1}(Z.mul_1_l (Z.of_nat N.+1)) Z_mod_plus_full.
Qed.
Lemma per_x u m n : per u (m + Z.of_nat Nx) n = per u m n.
Proof. by apply: per_mod; rewrite ?modD1. Qed.
Lemma per_y u m n : per u m (n + Z.of_nat Ny) = per u m n.
Proof. by apply: per_mod; rewrite ?modD1. Qed.

Lemma perD u v m n : per (u + v) m n = per u m n + per v m n.
Proof.
case: (zord Nx0 m) => i hi; case: (zord Ny0 n) => j hj.
by rewrite !(per_at _ hi hj) mxE.
Qed.
Lemma perZ c u m n : per (c *: u) m n = c * per u m n.
Proof.
case: (zord Nx0 m) => i hi; case: (zord Ny0 n) => j hj.
by rewrite !(per_at _ hi hj) mxE.
Qed.
Lemma per_const c m n : per (const_mx c : 'M[C]_(Nx, Ny)) m n = c.
Proof.
case: (zord Nx0 m) => i hi; case: (zord Ny0 n) => j hj.
by rewrite !(per_at _ hi hj) mxE.
Qed.
Lemma per_translated p q u m n : per (translated p q u) m n = per u (m - p) (n - q).
Proof.
case: (zord Nx0 m) => i hi; case: (zord Ny0 n) => j hj.
rewrite (per_at _ hi hj) mxE; apply: per_mod; rewrite -?hi -?hj.
- by rewrite Zminus_mod_idemp_l.
- by rewrite Zminus_mod_idemp_l.
Qed.
Lemma per_reflected u m n : per (reflected u) m n = per u (- m) (- n).
Proof.
case: (zord Nx0 m) => i hi; case: (zord Ny0 n) => j hj.
rewrite (per_at _ hi hj) mxE; apply: per_mod; rewrite -?hi -?hj.
- by rewrite -!Z.sub_0_l Zminus_mod_idemp_r.
- by rewrite -!Z.sub_0_l Zminus_mod_idemp_r.
Qed.

(** ** The convolution theorem *)
Definition conv (K u : 'M[C]_(Nx, Ny)) : 'M[C]_(Nx, Ny) :=
  \matrix_(i, j) \sum_(a < Nx) \sum_(b < Ny) K a b * per u (Z.of_nat i - Z.of_nat a) (Z.of_nat j - Z.of_nat b).

Lemma ft_conv K u k l :
  fourier_transform (conv K u) k l = (Nx * Ny)%:R * (fourier_transform K k l * fourier_transform u k l).
Proof.
rewrite !fourier_transformE.
set w : C := (Nx * Ny)%:R.
have w0 : w != 0 by exact: NxNy_neq0.
set SK := \sum_(x < Nx) \sum_(y < Ny) K x y * _.
set Su := \sum_(x < Nx) \sum_(y < Ny) u x y * _.
suff -> : \sum_(x < Nx) \sum_(y < Ny) conv K u x y * (root Nx (- (Z.of_nat k * Z.of_nat x)) * root Ny (- (Z.of_nat l * Z.of_nat y))) = SK * Su.
  by rewrite mulrA (mulrCA w SK) mulfV // mulr1 mulrA.
(* expand the left-hand side and exchange the sums *)
transitivity (\sum_(a < Nx) \sum_(b < Ny) (K a b * (root Nx (- (Z.of_nat k * Z.of_nat a)) * root Ny (- (Z.of_nat l * Z.of_nat b)))) *
   \sum_(x < Nx) \sum_(y < Ny) per u (Z.of_nat x - Z.of_nat a) (Z.of_nat y - Z.of_nat b) *
     (root Nx (- (Z.of_nat k * (Z.of_nat x - Z.of_nat a))) * root Ny (- (Z.of_nat l * (Z.of_nat y - Z.of_nat b))))).
  transitivity (\sum_(x < Nx) \sum_(y < Ny) \sum_(a < Nx) \sum_(b < Ny)
     (K a b * per u (Z.of_nat x - Z.of_nat a) (Z.of_nat y - Z.of_nat b) *
      (root Nx (- (Z.of_nat k * Z.of_nat x)) * root Ny (- (Z.of_nat l * Z.of_nat y))))).
    apply: eq_bigr => x _; apply: eq_bigr => y _; rewrite mxE mulr_suml.
    by apply: eq_bigr => a _; rewrite mulr_suml.
  under eq_bigr => x _ do rewrite exchange_big /=.
  rewrite exchange_big /=; apply: eq_bigr => a _.
  under eq_bigr => x _ do rewrite exchange_big /=.
  rewrite exchange_big /=; apply: eq_bigr => b _.
  rewrite mulr_sumr; apply: eq_bigr => x _; rewrite mulr_sumr; apply: eq_bigr => y _.
  have -> : root Nx (- (Z.of_nat k * Z.of_nat x)) =
     root Nx (- (Z.of_nat k * Z.of_nat a)) * root Nx (- (Z.of_nat k * (Z.of_nat x - Z.of_nat a))).
    by rewrite -rootD; congr root; lia.
  have -> : root Ny (- (Z.of_nat l * Z.of_nat y)) =
     root Ny (- (Z.of_nat l * Z.of_nat b)) * root Ny (- (Z.of_nat l * (Z.of_nat y - Z.of_nat b))).
    by rewrite -rootD; congr root; lia.
  cring.
rewrite /SK mulr_suml; apply: eq_bigr => a _; rewrite mulr_suml; apply: eq_bigr => b _; congr (_ * _).
rewrite /Su.
transitivity (\sum_(x < Nx) \sum_(y < Ny) per u (Z.of_nat x) (Z.of_nat y - Z.of_nat b) *
     (root Nx (- (Z.of_nat k * Z.of_nat x)) * root Ny (- (Z.of_nat l * (Z.of_nat y - Z.of_nat b))))).
  apply: (@psum_shift Nx (fun m => \sum_(y < Ny) per u m (Z.of_nat y - Z.of_nat b) *
     (root Nx (- (Z.of_nat k * m)) * root Ny (- (Z.of_nat l * (Z.of_nat y - Z.of_nat b))))) a).
  move=> m; apply: eq_bigr => y _; rewrite per_x; congr (_ * (_ * _)).
  by rewrite -(root_shift (- (Z.of_nat k * m)) (- Z.of_nat k) Nx0); congr root; lia.
apply: eq_bigr => x _.
rewrite (@psum_shift Ny (fun n => per u (Z.of_nat x) n *
     (root Nx (- (Z.of_nat k * Z.of_nat x)) * root Ny (- (Z.of_nat l * n)))) b).
  by apply: eq_bigr => y _; rewrite per_ord.
move=> n; rewrite per_y; congr (_ * (_ * _)).
by rewrite -(root_shift (- (Z.of_nat l * n)) (- Z.of_nat l) Ny0); congr root; lia.
Qed.

Lemma conv_ft K u :
  map_mx (fun z => z * (Nx * Ny)%:R)
    (inverse_fourier_transform (\matrix_(i, j) (fourier_transform K i j * fourier_transform u i j))) = conv K u.
Proof.
rewrite -[RHS](ift_ft Nx0 Ny0).
have -> : fourier_transform (conv K u) =
   (Nx * Ny)%:R *: \matrix_(i, j) (fourier_transform K i j * fourier_transform u i j).
  by apply/matrixP => k l; rewrite ft_conv [in RHS]mxE [in RHS]mxE.
rewrite ift_scale //; apply/matrixP => i j; rewrite [LHS]mxE [RHS]mxE; exact: mulrC.
Qed.

Lemma modnZ a b : (0 < b)%N -> (Z.of_nat (a %% b) = Z.of_nat a mod Z.of_nat b)%Zc.
Proof.
move=> b0; apply: (Z.mod_unique _ _ (Z.of_nat (a %/ b))).
- left; have /ssrnat.ltP := ltn_pmod a b0; lia.
- rewrite {1}(divn_eq a b) -plusE -multE Nat2Z.inj_add Nat2Z.inj_mul; lia.
Qed.
Lemma unshiftZ N (i : 'I_N) : (Z.of_nat (unshift i) = (Z.of_nat i - Z.of_nat (N %/ 2)) mod Z.of_nat N)%Zc.
Proof.
have iN := ltn_ord i; have N0 : (0 < N)%N by exact: leq_ltn_trans iN.
rewrite /unshift /=.
have le : (N %/ 2 <= N)%N by exact: leq_div.
have -> : (Z.of_nat i - Z.of_nat (N %/ 2))%Zc = (Z.of_nat (i + (N - N %/ 2)) + (-1) * Z.of_nat N)%Zc.
  move/ssrnat.leP: le => le; rewrite -plusE -minusE Nat2Z.inj_add Nat2Z.inj_sub //; lia.
rewrite Z_mod_plus_full.
exact: modnZ.
Qed.

(** ** The filter as a convolution with a real kernel *)
Lemma Re_sum (I : Type) (r : seq I) (P : pred I) (F : I -> C) :
  complex.Re (\sum_(i <- r | P i) F i) = \sum_(i <- r | P i) complex.Re (F i).
Proof. by elim/big_rec2: _ => [//|i x y _ <-]; case: (F i); case: y. Qed.
Lemma Re_rcM (k : R) (z : C) : complex.Re (rc k * z) = k * complex.Re z.
Proof. by case: z => a b /=; rewrite mul0r subr0. Qed.

Lemma Re_scale (z : C) (n : nat) : rc (complex.Re z) * n%:R = rc (complex.Re (z * n%:R)).
Proof.
have -> : (n%:R : C) = rc (INR n).
  by elim: n => [//|n IH]; rewrite mulrSr IH S_INR; apply/eqP; rewrite eq_complex /= addr0 !eqxx.
by rewrite [z * _]mulrC Re_rcM mulrC; case: z => a b; apply/eqP; rewrite eq_complex /= !mul0r !mulr0 subr0 addr0 !eqxx.
Qed.

Variable vectors : option (R * R).
Definition hw := half_widths Nx Ny vectors.
Definition ker (rx ry : R) (a b : nat) : R := Filter_Model.bump hw.1 rx Nx a * Filter_Model.bump hw.2 ry Ny b.
Definition smooth (rx ry : R) (u : 'M[C]_(Nx, Ny)) (m n : Z) : R :=
  \sum_(a < Nx) \sum_(b < Ny) ker rx ry a b *
    complex.Re (per u (m - Z.of_nat (Nx %/ 2) - Z.of_nat a) (n - Z.of_nat (Ny %/ 2) - Z.of_nat b)).

Lemma filterE rx ry u : rx != 0 -> ry != 0 -> (1 < Nx)%N -> (1 < Ny)%N ->
  apply_filter vectors rx ry u = Ok (\matrix_(i, j) rc (smooth rx ry u (Z.of_nat i) (Z.of_nat j))).
Proof.
move=> rx0 ry0 Nx1 Ny1; rewrite /apply_filter (negbTE rx0) (negbTE ry0) (leqNgt Nx 1) (leqNgt Ny 1) Nx1 Ny1; cbn [andb orb negb].
congr Ok; apply/matrixP => i j; rewrite [LHS]mxE [RHS]mxE.
set A := inverse_fourier_transform _.
have -> : fftshift (map_mx (fun z => rc (complex.Re z)) A) i j = rc (complex.Re (A (unshift i) (unshift j))).
  by rewrite mxE mxE.
rewrite Re_scale.
congr (rc _).
have E := conv_ft (kernel Nx Ny vectors rx ry) u.
move/matrixP: E => /(_ (unshift i) (unshift j)); rewrite mxE => ->.
rewrite mxE Re_sum; apply: eq_bigr => a _; rewrite Re_sum; apply: eq_bigr => b _.
rewrite mxE Re_rcM; congr (_ * complex.Re _).
by apply: per_mod; rewrite unshiftZ Zminus_mod_idemp_l.
Qed.
End Per.

(** ** The weights *)
Section Weights.
Variables (w r : R).
Local Notation g := (gauss w r).
Lemma gauss_pos N i : (0 < g N i)%Re.
Proof. exact: exp_pos. Qed.
Lemma Rsum_pos (N : nat) (f : nat -> R) : (0 < N)%N -> (forall i, 0 < f i)%Re -> (0 < \sum_(i < N) f i)%Re.
Proof.
case: N => // N _ f0; elim: N => [|N IH]; first by rewrite big_ord_recl big_ord0 addr0; exact: f0.
by rewrite big_ord_recr /=; apply: Rplus_lt_0_compat; [exact: IH|exact: f0].
Qed.
Lemma trapz_pos N : (1 < N)%N -> (0 < trapz N (g N))%Re.
Proof.
move=> N1; rewrite /trapz; apply: (@Rsum_pos N.-1 (fun i => ((g N i + g N i.+1) / 2)%Re)); first by case: N N1 => [|[]].
move=> i; have h1 := gauss_pos N i; have h2 := gauss_pos N i.+1; lra.
Qed.
Lemma trapz_sum N (f : nat -> R) : \sum_(i < N.+1) f i = (trapz N.+1 f + (f 0%N + f N) / 2)%Re.
Proof.
rewrite /trapz /=; elim: N => [|N IH].
  by rewrite big_ord0 big_ord_recl big_ord0 /=; rfold; lra.
by rewrite big_ord_recr /= IH [in RHS]big_ord_recr /=; rfold; lra.
Qed.
(** The sum of the weights is more than one. *)
Lemma mass_gt1 N : (1 < N)%N -> (1 < \sum_(i < N) Filter_Model.bump w r N i)%Re.
Proof.
move=> N1; have t0 := trapz_pos N1; set T := trapz N (g N) in t0 *.
have -> : \sum_(i < N) Filter_Model.bump w r N i = ((\sum_(i < N) g N i) / T)%Re.
  rewrite /Filter_Model.bump -/T.
  have -> : forall x : R, (x / T)%Re = x * (/ T)%Re by [].
  by rewrite mulr_suml.
apply: (Rmult_lt_reg_r T) => //; rewrite /Rdiv Rmult_assoc Rinv_l; last lra.
rewrite Rmult_1_l Rmult_1_r /T {T t0}.
case: N N1 => [//|N] _; rewrite (trapz_sum N).
have h1 := gauss_pos N.+1 0; have h2 := gauss_pos N.+1 N; lra.
Qed.
Lemma bump_pos N i : (1 < N)%N -> (0 < Filter_Model.bump w r N i)%Re.
Proof. move=> N1; apply: Rdiv_lt_0_compat; [exact: gauss_pos|exact: trapz_pos]. Qed.
(** The bump is symmetric about the middle of the grid. *)
Lemma lin_sym N i : (i < N)%N -> (1 < N)%N -> lin w N (N - 1 - i) = (- lin w N i)%Re.
Proof.
move=> iN N1; rewrite /lin leqNgt N1 /=.
have n0 : INR (N - 1) <> 0%Re.
  by apply: not_0_INR; move: N1; case: N {iN} => [|[|N]] // _; rewrite subn1.
have le : (i <= N - 1)%coq_nat by apply/ssrnat.leP; rewrite subn1 -ltnS prednK // (leq_trans _ N1).
have -> : INR (N - 1 - i) = (INR (N - 1) - INR i)%Re by exact: (minus_INR (N - 1) i le).
field; exact: n0.
Qed.
Lemma bump_sym N i : (i < N)%N -> (1 < N)%N -> Filter_Model.bump w r N (N - 1 - i) = Filter_Model.bump w r N i.
Proof.
move=> iN N1; rewrite /Filter_Model.bump /gauss lin_sym //.
by have -> : (- lin w N i * - lin w N i)%Re = (lin w N i * lin w N i)%Re by lra.
Qed.
End Weights.


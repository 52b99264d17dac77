(** The smoothing filter (properties C51 and C63). *)
From Coq Require Import Reals ZArith Lra Lia.
From mathcomp Require Import all_ssreflect all_algebra.
From mathcomp Require Import complex.
From Verif Require Import RStruct Cplx Base Fourier_Model Fourier_Spec Fourier_Proofs Sim_Model.
From Verif Require Import Filter_Model Filter_Proofs.

Set Implicit Arguments.
Unset Strict Implicit.
Unset Printing Implicit Defensive.

Import Order.TTheory GRing.Theory Num.Theory.
Local Open Scope ring_scope.
Local Open Scope complex_scope.

(** Every successful call is the identity (radius zero) or the convolution. *)
Lemma filter_cases Nx Ny vectors rx ry (u : 'M[C]_(Nx, Ny)) U :
  apply_filter vectors rx ry u = Ok U ->
  (rx = 0%Re /\ ry = 0%Re /\ U = u) \/
  ([/\ rx != 0, ry != 0, (1 < Nx)%N & (1 < Ny)%N] /\
   U = \matrix_(i, j) rc (smooth vectors rx ry u (Z.of_nat i) (Z.of_nat j))).
Proof.
case: (boolP ((rx == 0) && (ry == 0))) => [/andP [/eqP -> /eqP ->]|h].
  by rewrite /apply_filter !eqxx => -[->]; left.
case: (boolP [|| rx == 0, ry == 0, (Nx <= 1)%N | (Ny <= 1)%N]) => h'.
  by rewrite /apply_filter (negbTE h) -!orbA h'.
move: h'; rewrite !negb_or (ltnNge 1 Nx) (ltnNge 1 Ny) => /and4P [rx0 ry0 nx ny].
rewrite filterE //; try by rewrite ltnNge.
- by move=> [<-]; right; split=> //; split=> //; rewrite ltnNge.
- by apply: leq_trans (_ : 1 < _)%N => //; rewrite ltnNge.
- by apply: leq_trans (_ : 1 < _)%N => //; rewrite ltnNge.
Qed.

Lemma smooth_mod Nx Ny vectors rx ry (u : 'M[C]_(Nx, Ny)) m n m' n' :
  (m mod Z.of_nat Nx = m' mod Z.of_nat Nx)%Zc -> (n mod Z.of_nat Ny = n' mod Z.of_nat Ny)%Zc ->
  smooth vectors rx ry u m n = smooth vectors rx ry u m' n'.
Proof.
move=> hm hn; apply: eq_bigr => a _; apply: eq_bigr => b _; congr (_ * complex.Re _).
apply: per_mod; rewrite -!Z.sub_add_distr.
- by rewrite Zminus_mod hm -Zminus_mod.
- by rewrite Zminus_mod hn -Zminus_mod.
Qed.

Lemma per_smooth Nx Ny vectors rx ry (u : 'M[C]_(Nx, Ny)) m n : (0 < Nx)%N -> (0 < Ny)%N ->
  per (\matrix_(i < Nx, j < Ny) rc (smooth vectors rx ry u (Z.of_nat i) (Z.of_nat j))) m n =
  rc (smooth vectors rx ry u m n).
Proof.
move=> Nx0 Ny0; case: (zord Nx0 m) => i hi; case: (zord Ny0 n) => j hj.
by rewrite (per_at _ hi hj) mxE; congr (rc _); apply: smooth_mod; rewrite -?hi -?hj Zmod_mod.
Qed.

(** ** C51 *)
(** Radius zero: the identity. *)
Theorem C51_identity Nx Ny vectors (u : 'M[C]_(Nx, Ny)) :
  apply_filter vectors 0%Re 0%Re u = Ok u.
Proof. by rewrite /apply_filter eqxx. Qed.

(** Linear over the reals. *)
Theorem C51_linear Nx Ny vectors rx ry (c : R) (u v U V : 'M[C]_(Nx, Ny)) :
  apply_filter vectors rx ry u = Ok U -> apply_filter vectors rx ry v = Ok V ->
  apply_filter vectors rx ry (rc c *: u + v) = Ok (rc c *: U + V).
Proof.
move=> /filter_cases hu /filter_cases hv.
case: hu => [[ex [ey ->]]|[[rx0 ry0 Nx1 Ny1] ->]].
  case: hv => [[_ [_ ->]]|[[h0 _ _ _] _]]; first by rewrite ex ey C51_identity.
  by exfalso; move/eqP: h0; apply.
case: hv => [[h _]|[_ ->]]; first by exfalso; move/eqP: rx0; apply.
have Nx0 := ltnW Nx1; have Ny0 := ltnW Ny1.
rewrite filterE //; congr Ok; apply/matrixP => i j.
rewrite !mxE -rmorphM -rmorphD; congr (rc _).
rewrite /smooth mulr_sumr -big_split /=; apply: eq_bigr => a _.
rewrite mulr_sumr -big_split /=; apply: eq_bigr => b _.
rewrite perD // perZ //.
set z := per u _ _; set z' := per v _ _.
have -> : complex.Re (rc c * z + z') = c * complex.Re z + complex.Re z'.
  by rewrite -Re_rcM; case: (rc c * z) => ? ?; case: z' => ? ?.
by rewrite mulrDr mulrCA.
Qed.

(** Commutes with cyclic shifts. *)
Theorem C51_shift Nx Ny vectors rx ry (p q : Z) (u U : 'M[C]_(Nx, Ny)) :
  apply_filter vectors rx ry u = Ok U ->
  apply_filter vectors rx ry (translated p q u) = Ok (translated p q U).
Proof.
move=> /filter_cases [[-> [-> ->]]|[[rx0 ry0 Nx1 Ny1] ->]]; first by rewrite C51_identity.
have Nx0 := ltnW Nx1; have Ny0 := ltnW Ny1.
rewrite filterE //; congr Ok; apply/matrixP => i j; rewrite !mxE per_smooth //; congr (rc _).
apply: eq_bigr => a _; apply: eq_bigr => b _; congr (_ * complex.Re _); rewrite per_translated //.
by apply: per_mod; congr (_ mod _)%Zc; lia.
Qed.

(** The weights are positive and symmetric; the value at a pixel is the weighted
    sum of the real parts of the pixels of the periodic image. *)
Theorem C51_weights_partial Nx Ny vectors rx ry (u : 'M[C]_(Nx, Ny)) :
  rx <> 0%Re -> ry <> 0%Re -> (1 < Nx)%N -> (1 < Ny)%N ->
  exists K : nat -> nat -> R,
    (forall a b, 0 < K a b)%Re /\
    (forall a b, (a < Nx)%N -> (b < Ny)%N -> K (Nx - 1 - a)%N b = K a b /\ K a (Ny - 1 - b)%N = K a b) /\
    apply_filter vectors rx ry u = Ok (\matrix_(i < Nx, j < Ny) rc (\sum_(a < Nx) \sum_(b < Ny) K a b *
      complex.Re (per u (Z.of_nat i - Z.of_nat (Nx %/ 2) - Z.of_nat a)
                        (Z.of_nat j - Z.of_nat (Ny %/ 2) - Z.of_nat b)))).
Proof.
move=> /eqP rx0 /eqP ry0 Nx1 Ny1; exists (ker Nx Ny vectors rx ry); split; [|split].
- by move=> a b; apply: Rmult_lt_0_compat; exact: bump_pos.
- by move=> a b ha hb; rewrite /ker !bump_sym.
- by rewrite filterE // ?(ltnW Nx1) ?(ltnW Ny1).
Qed.

(** The total weight. *)
Definition total_weight Nx Ny vectors rx ry : R :=
  (\sum_(a < Nx) Filter_Model.bump (hw Nx Ny vectors).1 rx Nx a) *
  (\sum_(b < Ny) Filter_Model.bump (hw Nx Ny vectors).2 ry Ny b).

(** The filter does not keep constants: every constant image is multiplied by a
    number greater than one. *)
Theorem C51_constant_refuted Nx Ny vectors rx ry (c : R) :
  rx <> 0%Re -> ry <> 0%Re -> (1 < Nx)%N -> (1 < Ny)%N ->
  let F := total_weight Nx Ny vectors rx ry in
  (1 < F)%Re /\
  apply_filter vectors rx ry (const_mx (rc c) : 'M[C]_(Nx, Ny)) = Ok (const_mx (rc (F * c)%Re)) /\
  (c <> 0%Re -> apply_filter vectors rx ry (const_mx (rc c) : 'M[C]_(Nx, Ny)) <> Ok (const_mx (rc c))).
Proof.
move=> /eqP rx0 /eqP ry0 Nx1 Ny1 F.
have F1 : (1 < F)%Re.
  rewrite /F /total_weight.
  have h1 := @mass_gt1 (hw Nx Ny vectors).1 rx Nx Nx1.
  have h2 := @mass_gt1 (hw Nx Ny vectors).2 ry Ny Ny1.
  rewrite -[1%Re](Rmult_1_l 1); apply: Rmult_gt_0_lt_compat; lra.
have E : apply_filter vectors rx ry (const_mx (rc c) : 'M[C]_(Nx, Ny)) = Ok (const_mx (rc (F * c)%Re)).
  have Nx0 := ltnW Nx1; have Ny0 := ltnW Ny1.
  rewrite filterE //; congr Ok; apply/matrixP => i j; rewrite !mxE; congr (rc _).
  rewrite /smooth /F /total_weight.
  transitivity ((\sum_(a < Nx) \sum_(b < Ny) ker Nx Ny vectors rx ry a b) * c).
    rewrite mulr_suml; apply: eq_bigr => a _; rewrite mulr_suml; apply: eq_bigr => b _.
    by rewrite per_const.
  apply: (congr1 (fun x : R => x * c)); rewrite -[RHS]/(@GRing.mul R_ringType _ _) mulr_suml; apply: eq_bigr => a _; rewrite mulr_sumr; exact: eq_bigr.
split=> //; split=> // c0; rewrite E => -[] /matrixP /(_ (Ordinal (ltnW Nx1)) (Ordinal (ltnW Ny1))).
rewrite !mxE => -[H].
have : ((F - 1) * c = 0)%Re by rewrite Rmult_minus_distr_r H; lra.
by move/Rmult_integral => [|//]; lra.
Qed.

(** ** C63 *)
(** The filtered image is displaced: filtering the mirror image gives the mirror
    of the filtered image translated by 2*(N//2)-1 pixels in each direction, i.e.
    -1 pixel for even N and -2 pixels for odd N. *)
Theorem C63_mirror_partial Nx Ny vectors rx ry (u U : 'M[C]_(Nx, Ny)) :
  rx <> 0%Re ->
  apply_filter vectors rx ry u = Ok U ->
  apply_filter vectors rx ry (reflected u) =
    Ok (translated (2 * Z.of_nat (Nx %/ 2) - 1) (2 * Z.of_nat (Ny %/ 2) - 1) (reflected U)).
Proof.
move=> rxn /filter_cases [[h _]|[[rx0 ry0 Nx1 Ny1] ->]]; first by case: rxn.
have Nx0 := ltnW Nx1; have Ny0 := ltnW Ny1.
rewrite filterE //; congr Ok; apply/matrixP => i j.
rewrite mxE [RHS]mxE per_reflected // per_smooth //; congr (rc _).
rewrite /smooth (reindex_inj rev_ord_inj) /=; apply: eq_bigr => a _.
rewrite (reindex_inj rev_ord_inj) /=; apply: eq_bigr => b _.
have sa : (Nx - a.+1 = Nx - 1 - a)%N by rewrite -subnDA.
have sb : (Ny - b.+1 = Ny - 1 - b)%N by rewrite -subnDA.
rewrite /ker sa sb !bump_sym //; congr (_ * complex.Re _).
rewrite per_reflected //.
have za : Z.of_nat (Nx - 1 - a) = (Z.of_nat Nx - 1 - Z.of_nat a)%Zc.
  have /ssrnat.ltP := ltn_ord a; rewrite -!minusE; lia.
have zb : Z.of_nat (Ny - 1 - b) = (Z.of_nat Ny - 1 - Z.of_nat b)%Zc.
  have /ssrnat.ltP := ltn_ord b; rewrite -!minusE; lia.
rewrite za zb; apply: per_mod.
- set s := Z.of_nat (Nx %/ 2).
  have -> : (- (Z.of_nat i - s - (Z.of_nat Nx - 1 - Z.of_nat a)) =
     (- (Z.of_nat i - (2 * s - 1)) - s - Z.of_nat a) + Z.of_nat Nx)%Zc by lia.
  exact: modD1.
- set s := Z.of_nat (Ny %/ 2).
  have -> : (- (Z.of_nat j - s - (Z.of_nat Ny - 1 - Z.of_nat b)) =
     (- (Z.of_nat j - (2 * s - 1)) - s - Z.of_nat b) + Z.of_nat Ny)%Zc by lia.
  exact: modD1.
Qed.

(** A single bright pixel at (0,0), on a grid with odd sizes: after smoothing the
    brightest pixel is not (0,0) but (-1,-1). *)
Lemma bump_centre w r (k : nat) : w <> 0%Re -> r <> 0%Re -> (0 < k)%N ->
  (Filter_Model.bump w r (2 * k).+1 k.+1 < Filter_Model.bump w r (2 * k).+1 k)%Re.
Proof.
move=> w0 r0 k0.
have N1 : (1 < (2 * k).+1)%N by rewrite ltnS muln_gt0 k0.
rewrite /Filter_Model.bump; apply: Rmult_lt_compat_r.
  by apply: Rinv_0_lt_compat; exact: trapz_pos.
rewrite /gauss /lin leqNgt N1 [~~ true]/=.
have -> : ((2 * k).+1 - 1 = 2 * k)%N by rewrite subn1.
have kR : (0 < INR k)%Re by apply: lt_0_INR; apply/ssrnat.ltP.
have -> : INR (2 * k) = (2 * INR k)%Re by rewrite -multE mult_INR /=; lra.
rewrite S_INR.
have -> : (- w + INR k * ((w + w) / (2 * INR k)))%Re = 0%Re by field; lra.
have -> : (- w + (INR k + 1) * ((w + w) / (2 * INR k)))%Re = (w / INR k)%Re by field; lra.
apply: exp_increasing.
have h : (0 < (w / INR k * (w / INR k)) / (r * r))%Re.
  have q0 : (w / INR k <> 0)%Re.
    move=> H; apply: w0; have E : (w / INR k * INR k)%Re = w by field; lra.
    by rewrite -E H; lra.
  apply: Rdiv_lt_0_compat.
  - by have := Rlt_0_sqr _ q0.
  - by have := Rlt_0_sqr _ r0.
by rewrite !Rmult_0_l; lra.
Qed.

Lemma ord_bound N (a : 'I_N) : (0 <= Z.of_nat a < Z.of_nat N)%Zc.
Proof. have /ssrnat.ltP := ltn_ord a; lia. Qed.

Lemma sub_mod0 N (x : Z) (a b : 'I_N) : (x mod Z.of_nat N = Z.of_nat a)%Zc ->
  ((x - Z.of_nat b) mod Z.of_nat N = 0)%Zc <-> a = b.
Proof.
move=> hx; have := ord_bound a; have := ord_bound b => hb ha.
split=> [|<-].
  move/Z_mod_zero_opp_full; rewrite Z.opp_sub_distr => h0.
  have h1 : (x mod Z.of_nat N = Z.of_nat b)%Zc.
    have -> : x = (Z.of_nat b - (- x + Z.of_nat b))%Zc by lia.
    by rewrite Zminus_mod h0 Z.sub_0_r Zmod_mod Z.mod_small.
  by apply: val_inj; apply: Nat2Z.inj; rewrite -hx -h1.
by rewrite Zminus_mod hx (Z.mod_small (Z.of_nat a)) // Z.sub_diag Zmod_0_l.
Qed.

(** The response to a single bright pixel. *)
Lemma smooth_delta (k l : nat) vectors rx ry (m n : Z) (a0 : 'I_k.+1) (b0 : 'I_l.+1) :
  ((m - Z.of_nat (k.+1 %/ 2)) mod Z.of_nat k.+1 = Z.of_nat a0)%Zc ->
  ((n - Z.of_nat (l.+1 %/ 2)) mod Z.of_nat l.+1 = Z.of_nat b0)%Zc ->
  smooth vectors rx ry (delta_mx ord0 ord0 : 'M[C]_(k.+1, l.+1)) m n = ker k.+1 l.+1 vectors rx ry a0 b0.
Proof.
move=> ha hb.
have D (a : 'I_k.+1) (b : 'I_l.+1) :
  per (delta_mx ord0 ord0 : 'M[C]_(k.+1, l.+1))
    (m - Z.of_nat (k.+1 %/ 2) - Z.of_nat a) (n - Z.of_nat (l.+1 %/ 2) - Z.of_nat b) =
  ((a == a0) && (b == b0))%:R.
  have [i hi] := @zord k.+1 isT (m - Z.of_nat (k.+1 %/ 2) - Z.of_nat a).
  have [j hj] := @zord l.+1 isT (n - Z.of_nat (l.+1 %/ 2) - Z.of_nat b).
  rewrite (per_at _ hi hj) mxE; congr (_ && _)%:R.
  - apply/eqP/eqP => [i0|ea].
      by apply/esym/(sub_mod0 _ ha); rewrite hi i0.
    by apply: val_inj; apply: Nat2Z.inj; rewrite -hi; apply/(sub_mod0 _ ha).
  - apply/eqP/eqP => [i0|ea].
      by apply/esym/(sub_mod0 _ hb); rewrite hj i0.
    by apply: val_inj; apply: Nat2Z.inj; rewrite -hj; apply/(sub_mod0 _ hb).
rewrite /smooth (bigD1 a0) //= (bigD1 b0) //= D !eqxx /= mulr1.
rewrite big1 => [|b /negbTE nb]; last by rewrite D nb andbF mulr0.
rewrite big1 => [|a /negbTE na]; first by rewrite !addr0.
by rewrite big1 // => b _; rewrite D na mulr0.
Qed.

Theorem C63_displaced_refuted (k l : nat) rx ry :
  rx <> 0%Re -> ry <> 0%Re -> (0 < k)%N -> (0 < l)%N ->
  exists U, apply_filter None rx ry (delta_mx ord0 ord0 : 'M[C]_((2 * k).+1, (2 * l).+1)) = Ok U /\
    (complex.Re (U ord0 ord0) < complex.Re (U ord_max ord_max))%Re.
Proof.
move=> rx0 ry0 k0 l0.
have Nx1 : (1 < (2 * k).+1)%N by rewrite ltnS muln_gt0 k0.
have Ny1 : (1 < (2 * l).+1)%N by rewrite ltnS muln_gt0 l0.
have half (r : nat) : ((2 * r).+1 %/ 2 = r)%N by rewrite mulnC -addn1 divnMDl // addn0.
have lo (r : nat) : (0 < r)%N -> (r.+1 < (2 * r).+1)%N.
  by move=> r0; rewrite ltnS mulSn mul1n -[r.+1]addn1 leq_add2l.
have mi (r : nat) : (r < (2 * r).+1)%N by rewrite ltnS mulSn leq_addr.
have zN (r : nat) : Z.of_nat (2 * r).+1 = (2 * Z.of_nat r + 1)%Zc by rewrite Nat2Z.inj_succ -multE Nat2Z.inj_mul; lia.
have e0 (r : nat) (h : (0 < r)%N) :
  ((Z.of_nat (ord0 : 'I_(2 * r).+1) - Z.of_nat ((2 * r).+1 %/ 2)) mod Z.of_nat (2 * r).+1 =
   Z.of_nat (Ordinal (lo r h)))%Zc.
  rewrite half [nat_of_ord ord0]/= [nat_of_ord (Ordinal _)]/= zN Nat2Z.inj_succ.
  move/ssrnat.ltP: h => h; symmetry; apply: (Zmod_unique _ _ (-1)); lia.
have e1 (r : nat) :
  ((Z.of_nat (ord_max : 'I_(2 * r).+1) - Z.of_nat ((2 * r).+1 %/ 2)) mod Z.of_nat (2 * r).+1 =
   Z.of_nat (Ordinal (mi r)))%Zc.
  rewrite half [nat_of_ord ord_max]/= [nat_of_ord (Ordinal _)]/= zN -multE Nat2Z.inj_mul.
  symmetry; apply: (Zmod_unique _ _ 0); lia.
eexists; split; first by apply: filterE => //; apply/eqP.
rewrite 2![(\matrix_(i, j) _) _ _]mxE.
rewrite (smooth_delta None rx ry (e0 k k0) (e0 l l0)) (smooth_delta None rx ry (e1 k) (e1 l)).
have w0 (N : nat) : (1 < N)%N -> (INR N / 2 <> 0)%Re.
  by move=> h; have := lt_0_INR N; move/ssrnat.ltP: (ltnW h) => h' /(_ h'); lra.
have hx := bump_centre (w0 _ Nx1) rx0 k0.
have hy := bump_centre (w0 _ Ny1) ry0 l0.
rewrite /ker /=.
apply: Rmult_gt_0_lt_compat => //; last exact: bump_pos.
exact: bump_pos.
Qed.

(** Concrete cases. *)
Example C51_case : exists U : 'M[C]_(4, 5),
  apply_filter None 1%Re 2%Re (delta_mx ord0 ord0) = Ok U /\
  apply_filter None 1%Re 2%Re (translated 1 2 (delta_mx ord0 ord0 : 'M[C]_(4, 5))) = Ok (translated 1 2 U).
Proof.
eexists; split; first by apply: filterE => //; apply/eqP; rfold; lra.
by apply: C51_shift; apply: filterE => //; apply/eqP; rfold; lra.
Qed.
Example C51_constant_case : (1 < total_weight 3 3 None 1 1)%Re.
Proof. by have [] := @C51_constant_refuted 3 3 None 1%Re 1%Re 1%Re; try lra. Qed.

Print Assumptions C51_identity.
Print Assumptions C51_linear.
Print Assumptions C51_shift.
Print Assumptions C51_weights_partial.
Print Assumptions C51_constant_refuted.
Print Assumptions C63_mirror_partial.
Print Assumptions C63_displaced_refuted.

(** Media without gain: the flux decreases downwards and R + T <= 1. *)
From Coq Require Import Reals ZArith Lra.
From mathcomp Require Import all_ssreflect all_algebra.
From mathcomp Require Import complex.
From Verif Require Import RStruct Cplx Cderiv Base Fourier_Model Fourier_Spec Sim_Model Sim_Spec Setup_Model.
From Verif Require Import SMat_Proofs SMat_Proofs2 SMat_Proofs3 Maxwell_Spec Modes_Proofs Maxwell_Proofs.
From Verif Require Import Fourier_Proofs Energy_Spec Energy_Proofs Energy_Proofs2 Energy_Proofs3 Run_Proofs.
From Verif Require Import Grid_Model Grid_Spec Grid_Proofs Stress_Proofs Passive_Spec.

Set Implicit Arguments.
Unset Strict Implicit.
Unset Printing Implicit Defensive.

Import Order.TTheory GRing.Theory Num.Theory.
Local Open Scope ring_scope.
Local Open Scope complex_scope.

Lemma conj1 : conj (1 : C) = 1. Proof. exact: (conj_nat 1). Qed.
Lemma conj0 : conj (0 : C) = 0. Proof. exact: (conj_nat 0). Qed.
Lemma Im_add (a b : C) : complex.Im (a + b) = (complex.Im a + complex.Im b)%Re.
Proof. by case: a => ? ?; case: b. Qed.
Lemma Im_opp (a : C) : complex.Im (- a) = (- complex.Im a)%Re. Proof. by case: a. Qed.
Lemma Im_conj (a : C) : complex.Im (conj a) = (- complex.Im a)%Re. Proof. by case: a. Qed.
Lemma Im_rcM r (a : C) : complex.Im (rc r * a) = (r * complex.Im a)%Re.
Proof. by case: a => x y /=; rfold; ring. Qed.
Lemma Im_sum_ge0 (I : Type) (r : seq I) (f : I -> C) :
  (forall i, (0 <= complex.Im (f i))%Re) -> (0 <= complex.Im (\sum_(i <- r) f i))%Re.
Proof.
move=> hf; elim: r => [|i r IH]; rewrite ?big_nil ?big_cons; first by right.
by rewrite Im_add; apply: Rplus_le_le_0_compat.
Qed.
Lemma Im_sqn (a b : C) : complex.Im (a * b * conj b) = (complex.Im a * sqn b)%Re.
Proof. by rewrite -mulrA sqn_conj [a * _]mulrC Im_rcM Rmult_comm. Qed.
Lemma sqn_ge0 (a : C) : (0 <= sqn a)%Re.
Proof. by rewrite /sqn; nra. Qed.
Lemma Im_div_nat (a : C) n : (0 <= complex.Im a)%Re -> (0 <= complex.Im (a / n%:R)%R)%Re.
Proof.
move=> ha; case: n => [|n]; first by rewrite invr0 mulr0; right.
have -> : (n.+1%:R : C) = rc (n.+1%:R) by rewrite rmorph_nat.
have hn : (0 < (n.+1%:R : R))%Re by apply/RltP; rewrite ltr0n.
rewrite rcV; last by apply: Rgt_not_eq.
rewrite mulrC Im_rcM; apply: Rmult_le_pos => //; left; exact: Rinv_0_lt_compat.
Qed.

(** Operators that dissipate *)
Definition dissip m (A : 'M[C]_m) : Prop := forall v, (0 <= complex.Im (dot (A *m v) v))%Re.

Lemma dissip_herm m (A B : 'M[C]_m) : dissip A -> herm B -> dissip (A + B).
Proof.
move=> hA hB v; rewrite mulmxDl dotDl Im_add.
have : complex.Im (dot (B *m v) v) = 0%Re.
  have E : complex.Im (conj (dot (B *m v) v)) = complex.Im (dot (B *m v) v) by rewrite real_dot.
  by move: E; rewrite Im_conj; move: (complex.Im _ : R) => t; lra.
by move=> ->; rewrite Rplus_0_r; exact: hA.
Qed.

Lemma dissip_inv m (A : 'M[C]_m) : A \in unitmx -> dissip A -> dissip (- invmx A).
Proof.
move=> hu hA v; rewrite mulNmx dotN Im_opp.
have e : v = A *m (invmx A *m v) by rewrite mulmxA mulmxV // mul1mx.
by rewrite {2}e dotC Im_conj Ropp_involutive; exact: hA.
Qed.

Lemma dissip_opp_inv m (A : 'M[C]_m) : A \in unitmx -> dissip (- A) -> dissip (invmx A).
Proof.
move=> hu hA v.
have e : v = A *m (invmx A *m v) by rewrite mulmxA mulmxV // mul1mx.
rewrite {2}e dotC Im_conj -Im_opp -dotN -mulNmx; exact: hA.
Qed.

Lemma dot_col m (a b c d : 'cV[C]_m) : dot (col_mx a b) (col_mx c d) = dot a c + dot b d.
Proof.
rewrite /dot big_split_ord /=; congr (_ + _); apply: eq_bigr => i _.
- by rewrite !col_mxEu.
- by rewrite !col_mxEd.
Qed.

Lemma dissip_scalar m (e : C) : (0 <= complex.Im e)%Re -> dissip (e%:M : 'M[C]_m).
Proof.
move=> he v; rewrite mul_scalar_mx dotZl /dot mulr_sumr; apply: Im_sum_ge0 => i.
by rewrite mulrA Im_sqn; apply: Rmult_le_pos => //; exact: sqn_ge0.
Qed.

Lemma dissip_diag_block m (A B : 'M[C]_m) : dissip A -> dissip B -> dissip (block_mx A 0 0 B).
Proof.
move=> hA hB v; rewrite -[v]vsubmxK mul_block_col !mul0mx addr0 add0r dot_col Im_add.
exact: Rplus_le_le_0_compat.
Qed.

Lemma quad_sum (I : finType) (a N : C) (F G : I -> C) :
  \sum_i \sum_j a * F j * conj (G i) / N = a * (\sum_j F j) * conj (\sum_i G i) / N.
Proof.
transitivity (\sum_i a * (\sum_j F j) * conj (G i) / N).
  by apply: eq_bigr => i _; rewrite mulr_sumr !mulr_suml.
by rewrite -mulr_suml -mulr_sumr conj_sum.
Qed.

Section Toep.
Variables (Nx Ny nh : nat) (h : 'I_nh -> order).
Hypotheses (Nx0 : (0 < Nx)%N) (Ny0 : (0 < Ny)%N).

Lemma toeplitz_form (u : 'M[C]_(Nx, Ny)) M (v w : 'cV[C]_nh) : get_toeplitz h u = Ok M ->
  dot (M *m v) w = (\sum_x \sum_y u x y * cell_value h v x y * conj (cell_value h w x y)) / (Nx * Ny)%:R.
Proof.
rewrite /get_toeplitz; case: (toeplitzP Nx0 Ny0 h u) => [[_ ->]|[_ ->]] //= -[<-].
transitivity (\sum_i \sum_j \sum_(x < Nx) \sum_(y < Ny)
   u x y * (v j ord0 * wave (h j).1 (h j).2 x y) * conj (w i ord0 * wave (h i).1 (h i).2 x y) / (Nx * Ny)%:R).
  apply: eq_bigr => i _; rewrite mxE mulr_suml; apply: eq_bigr => j _.
  rewrite mxE /coef -!mulrA [_^-1 * _]mulrC mulr_suml; apply: eq_bigr => x _.
  rewrite mulr_suml; apply: eq_bigr => y _.
  rewrite conjM wave_conj.
  have -> : wave (- ((h i).1 - (h j).1)) (- ((h i).2 - (h j).2)) x y =
    wave (h j).1 (h j).2 x y * wave (- (h i).1) (- (h i).2) x y.
    by rewrite waveM; congr (wave _ _ _ _); ring.
  by cring.
transitivity (\sum_(x < Nx) \sum_(y < Ny) \sum_i \sum_j
   u x y * (v j ord0 * wave (h j).1 (h j).2 x y) * conj (w i ord0 * wave (h i).1 (h i).2 x y) / (Nx * Ny)%:R).
  transitivity (\sum_i \sum_(x < Nx) \sum_(y < Ny) \sum_j
   u x y * (v j ord0 * wave (h j).1 (h j).2 x y) * conj (w i ord0 * wave (h i).1 (h i).2 x y) / (Nx * Ny)%:R).
    apply: eq_bigr => i _; rewrite exchange_big /=; apply: eq_bigr => x _; exact: exchange_big.
  by rewrite exchange_big /=; apply: eq_bigr => x _; exact: exchange_big.
rewrite mulr_suml; apply: eq_bigr => x _; rewrite mulr_suml; apply: eq_bigr => y _.
exact: quad_sum.
Qed.

Lemma dissip_toeplitz (u : 'M[C]_(Nx, Ny)) M : (forall x y, (0 <= complex.Im (u x y))%Re) ->
  get_toeplitz h u = Ok M -> dissip M.
Proof.
move=> hu hM v; rewrite (toeplitz_form _ _ hM); apply: Im_div_nat.
apply: Im_sum_ge0 => x; apply: Im_sum_ge0 => y; rewrite Im_sqn.
by apply: Rmult_le_pos => //; exact: sqn_ge0.
Qed.

Lemma dissip_toeplitzN (u : 'M[C]_(Nx, Ny)) M : (forall x y, (complex.Im (u x y) <= 0)%Re) ->
  get_toeplitz h u = Ok M -> dissip (- M).
Proof.
move=> hu hM v; rewrite mulNmx dotN (toeplitz_form _ _ hM) -mulNr; apply: Im_div_nat.
rewrite -sumrN; apply: Im_sum_ge0 => x; rewrite -sumrN; apply: Im_sum_ge0 => y; rewrite Im_opp Im_sqn.
by have := hu x y; have := sqn_ge0 (cell_value h v x y); nra.
Qed.

Lemma dissip_transverse (u : 'I_2 -> 'I_2 -> 'M[C]_(Nx, Ny)) M :
  (forall x y (E : 'I_2 -> C), (0 <= complex.Im (\sum_a \sum_b u a b x y * E b * conj (E a)))%Re) ->
  toeplitz_transverse h u = Ok M -> dissip M.
Proof.
move=> hu hM v; rewrite /toeplitz_transverse in hM.
ubind hM a11 e11; ubind hM a12 e12; ubind hM a21 e21; ubind hM a22 e22; case: hM => <-.
rewrite -[v]vsubmxK mul_block_col dot_col !dotDl.
rewrite (toeplitz_form _ _ e11) (toeplitz_form _ _ e12) (toeplitz_form _ _ e21) (toeplitz_form _ _ e22).
rewrite -!mulrDl -!big_split; apply: Im_div_nat; apply: Im_sum_ge0 => x.
rewrite -!big_split; apply: Im_sum_ge0 => y /=.
have := hu x y (fun a => if a == ord0 then cell_value h (usubmx v) x y else cell_value h (dsubmx v) x y).
have em : lift ord0 ord0 = ord_max :> 'I_2 by apply: val_inj.
by rewrite !big_ord_recl !big_ord0 /= !addr0 em.
Qed.
End Toep.

Lemma lift2 : lift ord0 ord0 = ord_max :> 'I_2. Proof. exact: val_inj. Qed.
Lemma form3 (g : 'I_3 -> 'I_3 -> C) (v : 'I_3 -> C) : let x := xy ord0 in let y := xy ord_max in let z := ord_max in
  \sum_a \sum_b g a b * v b * conj (v a) =
  g x x * v x * conj (v x) + (g x y * v y * conj (v x) + g x z * v z * conj (v x)) +
  (g y x * v x * conj (v y) + (g y y * v y * conj (v y) + g y z * v z * conj (v y)) +
   (g z x * v x * conj (v z) + (g z y * v y * conj (v z) + g z z * v z * conj (v z)))).
Proof.
move=> x y z; rewrite !big_ord_recl !big_ord0 !addr0.
have -> : ord0 = x by apply: val_inj.
have -> : lift x (ord0 : 'I_2) = y by apply: val_inj.
by have -> : lift x (lift ord0 ord0) = z by apply: val_inj.
Qed.

Section Layers.
Variables (Nx Ny nh : nat).
Variable eig : forall m, 'M[C]_m -> 'rV[C]_m * 'M[C]_m.
Variable omega : R.
Hypothesis omega_pos : (0 < omega)%Re.
Variables kx ky : 'rV[C]_nh.
Variable h : 'I_nh -> order.
Notation n2 := (nh + nh)%N.
Notation Kx := (diag_mx kx).
Notation Ky := (diag_mx ky).
Notation w2 := (omega2 omega).
Notation z2 := ((0, 0) : amp nh).
Implicit Types (l : slayer nh) (p : amp nh).

Let omega_neq0 : rc omega != 0.
Proof. by apply/eqP=> -[]; exact: Rgt_not_eq. Qed.

(** Abstract passive layer *)
Definition passive_modes l : Prop :=
  exists P : 'M[C]_n2, dissip P /\ dissip (sl_Qeps l) /\ P *m sl_Qeps l *m sl_phi l = sl_phi l *m qsq l.

Lemma deriv_decr (f f' : R -> R) : (forall z, derivable_pt_lim f z (f' z)) -> (forall z, (f' z <= 0)%Re) ->
  forall x y, (x <= y)%Re -> (f y <= f x)%Re.
Proof.
move=> hd hn x y [xy|->]; last by right.
have [c [hc _]] := MVT_cor2 f f' x y xy (fun c _ => hd c).
by have := hn c; nra.
Qed.

Lemma Re_iM' (a : C) : complex.Re ('i * a) = (- complex.Im a)%Re.
Proof. by case: a => x y /=; rfold; ring. Qed.

Lemma flux_decr l p z z' : q_ok l -> passive_modes l -> (z <= z')%Re ->
  (lflux omega l p z' <= lflux omega l p z)%Re.
Proof.
move=> hq [P [hP [hQ hm]]].
pose E t := mode_E omega l t p; pose H t := mode_H l t p.
pose d t : R := complex.Re (('i / rc omega) * dot (sl_Qeps l *m H t) (H t) + conj ('i * rc omega) * dot (E t) (P *m E t)).
apply: (@deriv_decr (lflux omega l p) d) => t.
- have dE := mode_E_deriv omega p t hq.
  have dH := mode_H_deriv omega_neq0 p t hq hm.
  have hd i : cderiv (fun t => E t i ord0 * conj (H t i ord0)) t
    ((('i / rc omega) *: (sl_Qeps l *m H t)) i ord0 * conj (H t i ord0) +
     E t i ord0 * conj ((('i * rc omega) *: (P *m E t)) i ord0)).
    by apply: cderiv_mul; [exact: dE|apply: cderiv_conj; exact: dH].
  have := cderiv_sum (index_enum _) hd => -[hRe _].
  apply: derivable_pt_lim_eq hRe; rewrite /d big_split /=.
  by rewrite -/(dot (('i / rc omega) *: (sl_Qeps l *m H t)) (H t)) -/(dot (E t) (('i * rc omega) *: (P *m E t))) dotZl dotZr.
- rewrite /d conjM rc_conj; have i2 : conj 'i = - 'i by apply/eqP; rewrite eq_complex /= oppr0 !eqxx.
  rewrite i2 [dot (E t) _]dotC mulNr mulNr -!mulrA Re_add Re_opp !Re_iM' rcV; last by apply: Rgt_not_eq.
  rewrite !Im_rcM Im_conj; have h1 := hQ (H t); have h2 := hP (E t).
  have h3 := Rinv_0_lt_compat _ omega_pos.
  move: h1 h2; set a : R := complex.Im _; set b : R := complex.Im _ => h1 h2.
  rfold; have : (0 <= / omega * a)%Re by nra.
  have : (0 <= omega * b)%Re by nra.
  lra.
Qed.

(** Before and after, going down the stack *)
Definition below (j j' : nat) (t z z' : R) : Prop :=
  ((j < j')%N /\ (z <= t)%Re /\ (0 <= z')%Re) \/ (j = j' /\ (z <= z')%Re).

Lemma chain_decr (sx : seq (slayer nh)) px y q j j' x x' z z' :
  (forall sl, y = sl \/ List.In sl sx -> q_ok sl /\ passive_modes sl /\ (0 <= thick0 sl)%Re) ->
  chain omega y q sx px -> List.nth_error (y :: sx) j = Some x -> List.nth_error (y :: sx) j' = Some x' ->
  below j j' (thick0 x) z z' ->
  (lflux omega x' (nth z2 (q :: px) j') z' <= lflux omega x (nth z2 (q :: px) j) z)%Re.
Proof.
elim: sx px y q j j' x x' z z' => [|c sx IH] [|b px] y q j j' x x' z z' hs //.
- move=> _; case: j => [|[|j]] //; case: j' => [|[|j']] // [<-] [<-] [[//]|[_ hz]].
  by have [hq [hm _]] := hs y (or_introl erefl); exact: flux_decr.
- move=> [[mH mE] hc].
  have hs' sl : c = sl \/ List.In sl sx -> q_ok sl /\ passive_modes sl /\ (0 <= thick0 sl)%Re.
    by move=> hin; apply: hs; right.
  have [hq [hm ht]] := hs y (or_introl erefl).
  case: j => [|j]; case: j' => [|j'] /=.
  + by move=> [<-] [<-] [[//]|[_ hz]]; exact: flux_decr.
  + move=> [<-] hj' [[_ [hz hz']]|[//]].
    apply: (Rle_trans _ (lflux omega y q (thick0 y))); last exact: flux_decr.
    have -> : lflux omega y q (thick0 y) = lflux omega c b 0 by rewrite /lflux mH mE.
    apply: (IH px c b 0%N j' c x' 0%Re z' hs' hc erefl hj').
    have [_ [_ hc0]] := hs' c (or_introl erefl).
    by case: (j') => [|n]; [right|left].
  + by move=> _ _ [[]|[]].
  + move=> hj hj' hb; apply: (IH px c b j j' x x' z z' hs' hc hj hj').
    by case: hb => [[a1 a2]|[[a1] a2]]; [left|right].
Qed.

(** ** Passive media *)
Hypothesis kx_real : forall i, conj (kx ord0 i) = kx ord0 i.
Hypothesis ky_real : forall i, conj (ky ord0 i) = ky ord0 i.

Lemma dissip_K (u : 'M[C]_nh) (a b : 'rV[C]_nh) : dissip u ->
  (forall i, conj (a ord0 i) = a ord0 i) -> (forall i, conj (b ord0 i) = b ord0 i) ->
  dissip (build_Kmatrix u (diag_mx a) (diag_mx b)).
Proof.
move=> hu ha hb v; rewrite build_KmatrixE -[v]vsubmxK mul_block_col.
set v1 := usubmx v; set v2 := dsubmx v; set s := diag_mx a *m v1 + diag_mx b *m v2.
have -> : diag_mx a *m u *m diag_mx a *m v1 + diag_mx a *m u *m diag_mx b *m v2 = diag_mx a *m (u *m s).
  by rewrite !mulmxDr !mulmxA.
have -> : diag_mx b *m u *m diag_mx a *m v1 + diag_mx b *m u *m diag_mx b *m v2 = diag_mx b *m (u *m s).
  by rewrite !mulmxDr !mulmxA.
rewrite dot_col (dot_herm _ _ (herm_diag ha)) (dot_herm _ _ (herm_diag hb)).
by rewrite -dotDr -/s; exact: hu.
Qed.

Lemma dissip_Q (ei : 'M[C]_nh) : dissip (- ei) -> dissip (w2%:M - build_Kmatrix ei Ky (- Kx)).
Proof.
move=> hei; rewrite addrC; apply: dissip_herm; last by apply: herm_scalar; exact: w2_real.
have -> : - build_Kmatrix ei Ky (- Kx) = build_Kmatrix (- ei) Ky (- Kx).
  by rewrite diagN !build_KmatrixE opp_block_mx; congr block_mx; rewrite !(mulmxN, mulNmx).
rewrite diagN; apply: dissip_K => // i; by rewrite mxE conjN kx_real.
Qed.

Hypothesis eig_ok : forall m (A : 'M[C]_m), A *m (eig A).2 = (eig A).2 *m diag_mx (eig A).1.

Lemma ImV (x : C) : (0 <= complex.Im x)%Re -> (complex.Im (x^-1) <= 0)%Re.
Proof.
move=> hx; case: (x =P 0) => [->|/eqP x0]; first by rewrite invr0; right.
have e : x^-1 = x^-1 * conj (x^-1) * conj x.
  by rewrite -mulrA -conjM mulVf // conj1 mulr1.
rewrite e sqn_conj Im_rcM Im_conj; have := sqn_ge0 (x^-1); nra.
Qed.

Lemma passive_ops form (eps : eps_t Nx Ny) b : (0 < Nx)%N -> (0 < Ny)%N -> plain_form form -> passive eps ->
  build_matrix omega kx ky h form 1 eps = Ok b ->
  dissip (layer_epsz eps b) /\ dissip (layer_Peps eps b).
Proof.
move=> Nx0 Ny0 hf hl; case: eps hl => [e|u|u|e] hl hb //.
- by split; apply: dissip_scalar.
- rewrite /build_matrix in hb; ubind hb eh he; ubind hb ehi hi; ubind hb P hP.
  have [hQ [h1 [h2 h3]]] := assembleP omega_neq0 hb.
  rewrite /layer_epsz /layer_Peps h1 h2 /=.
  have heh := dissip_toeplitz Nx0 Ny0 hl he; split=> //.
  case: form hf hP => [|//|//] _.
  + by move=> [<-]; apply: dissip_diag_block.
  + move=> hP; ubind hP nu hnu; case: hP => <-.
    apply: dissip_diag_block => //.
    rewrite /nu_hat_inv_iso in hnu; ubind hnu iu hiu; ubind hnu nuhat hnh.
    move: hnu; rewrite /linv; case: ifP => // hu [<-].
    apply: dissip_opp_inv => //; apply: dissip_toeplitzN hnh => // x y.
    move: hiu; rewrite /pointwise_inv; case: ifP => // _ [<-].
    by rewrite mxE; apply: ImV.
- rewrite /build_matrix in hb; ubind hb eh he; ubind hb ehi hi; ubind hb ep hep; ubind hb P hP.
  have [hQ [h1 [h2 h3]]] := assembleP omega_neq0 hb.
  rewrite /layer_epsz /layer_Peps h1 h2 /=.
  split.
    apply: dissip_toeplitz he => // x y.
    have := hl x y (fun a => if a == ord_max then 1 else 0).
    by rewrite form3 !eqxx !(mulr0, mulr1, mul0r, add0r, addr0, conj0, conj1).
  case: form hf hP => [|//|//] _ [<-].
  apply: dissip_transverse hep => // x y E.
  have := hl x y (fun a => if a == xy ord0 then E ord0 else if a == xy ord_max then E ord_max else 0).
  rewrite form3; cbv beta.
  rewrite !eqxx -[xy ord_max == xy ord0]/false -[ord_max == xy ord0]/false -[ord_max == xy ord_max]/false.
  rewrite !(mulr0, mul0r, addr0, conj0).
  by rewrite !big_ord_recl !big_ord0 !addr0 lift2.
Qed.

Lemma passive_layer form thick (eps : eps_t Nx Ny) l : (0 < Nx)%N -> (0 < Ny)%N -> plain_form form -> passive eps ->
  solve_layer eig omega kx ky h form thick 1 eps = Ok l -> passive_modes l /\ sl_thick l = thick.
Proof.
move=> Nx0 Ny0 hf hl hs; have hs' := hs; rewrite /solve_layer in hs'; ubind hs' b hb.
have [hz hP] := passive_ops Nx0 Ny0 hf hl hb.
have [hm [_ ht]] := solve_layer_modes omega_neq0 eig_ok hb hs.
have [hu hQ] := Qeps_layer omega_neq0 eig_ok hb hs.
split=> //; exists (Ptilde omega kx ky eps b); split; last split=> //.
- apply: dissip_herm => //; apply: hermN; apply: hermZ; first by rewrite conjV w2_real.
  by apply: herm_Kmatrix => //; apply: herm_scalar; exact: (conj_nat 1).
- by rewrite hQ; apply: dissip_Q; apply: dissip_inv.
Qed.
End Layers.

Section Balance.
Variables (Nx Ny nh : nat).
Variable eig : forall m, 'M[C]_m -> 'rV[C]_m * 'M[C]_m.
Variable omega : R.
Hypothesis omega_pos : (0 < omega)%Re.
Variables kxr kyr : 'rV[R]_nh.
Variable h : 'I_nh -> order.
Variable form : formulation_t Nx Ny.
Notation n2 := (nh + nh)%N.
Let kx : 'rV[C]_nh := map_mx (real_complex R_rcfType) kxr.
Let ky : 'rV[C]_nh := map_mx (real_complex R_rcfType) kyr.
Notation solves1 t e l := (solve_layer eig omega kx ky h form t 1 e = Ok l).

Let omega_neq0 : rc omega != 0.
Proof. by apply/eqP=> -[]; exact: Rgt_not_eq. Qed.

Variables (t0 : option R) (e0 : R) (l0 : slayer nh) (rest : seq (slayer nh)).
Hypothesis h0 : solves1 t0 (EpsUniform Nx Ny (rc e0)) l0.
Variables (flux : R) (a0 : 'cV[C]_n2) (r : effs nh).
Hypothesis flux_pos : (0 < flux)%Re.
Hypothesis hinc : forall i, (0 < gam2 omega kxr kyr e0 i)%Re \/ (up a0 i = 0 /\ dn a0 i = 0).
Hypothesis hr : efficiencies omega flux (l0 :: rest) a0 0 = Ok r.
Hypothesis hpass : forall l, l0 = l \/ List.In l rest -> q_ok l /\ passive_modes l /\ (0 <= thick0 l)%Re.

Lemma poynting_out l (a : 'cV[C]_n2) i : (poynting omega l a 0).2 i ord0 = 0.
Proof.
have [_ ->] := poyntingE omega l a 0 i; rewrite !mulmx0.
have -> : up (0 : 'cV[C]_n2) i = 0 by rewrite /up mxE.
have -> : dn (0 : 'cV[C]_n2) i = 0 by rewrite /dn mxE.
by rewrite /= !(conj0, mul0r, mulr0, subr0, oppr0, addr0).
Qed.

Lemma eff_out : exists Sm,
  smatrix (l0 :: rest) = Ok Sm /\ q_ok l0 /\ q_ok (last l0 rest) /\
  let b0 := (solve_ext Sm a0 0).2 in let aN := (solve_ext Sm a0 0).1 in
  (forall i, r.1 i ord0 = ff omega kxr kyr e0 b0 i / flux) /\
  (forall i, r.2 i ord0 = (poynting omega (last l0 rest) aN 0).1 i ord0 / flux).
Proof.
move: hr; rewrite /efficiencies => H; ubind H Sm hS; exists Sm.
move: H; case: ifP => // /negbT; rewrite negb_or negbK => /andP [/andP [q0 qN] _].
case: eqP => // f0 [<-]; split=> //; split=> //; split=> //; split=> i; rewrite mxE //.
have [_ ->] := poynting_uniform h0 a0 (solve_ext Sm a0 0).2 i.
rewrite (no_cross0) ?addr0 ?opprK //.
by move=> j; case: (hinc j); [left|right; left].
Qed.

Lemma passive_balance :
  (\sum_i r.1 i ord0 + \sum_i r.2 i ord0 <= (\sum_i ff omega kxr kyr e0 a0 i) / flux)%R.
Proof.
have [Sm [hS [q0 [qN [hR hT]]]]] := eff_out.
have [ps hps] := smatrix_exists omega_neq0 a0 0 hS.
have [aN b0] := smatrix_sound omega_neq0 hS hps.
case: hps => sol [ea eb]; case: ps sol ea eb aN b0 => [|p ps] // sol ea eb aN b0.
rewrite /= in ea eb aN b0.
have hlast : List.nth_error (l0 :: rest) (size rest) = Some (last l0 rest).
  by elim: (rest) (l0) => //= c s IH _; exact: IH.
have hb : below 0 (size rest) (thick0 l0) 0 0.
  case: (rest) => [|c s]; [by right; split=> //; right|left; split=> //; split; last by right].
  by have [_ []] := hpass (or_introl erefl).
have := chain_decr omega_pos hpass sol (erefl : List.nth_error (l0 :: rest) 0 = Some l0) hlast hb.
have -> : nth ((0, 0) : amp nh) (p :: ps) (size rest) = last p ps.
  have <- : size ps = size rest.
    by elim: (rest) (ps) (l0) (p) sol => [|c s IH] [|b qs] //= y q [_ hc]; rewrite (IH _ _ _ hc).
  by rewrite -[size ps]/((size (p :: ps)).-1) nth_last.
rewrite [nth _ _ 0]/= (lflux_uniform omega_neq0 h0) //; last first.
  by move=> i; rewrite ea; case: (hinc i); [left|right; left].
rewrite lflux_poynting.
have -> : (trp (last l0 rest) 0 (last p ps)).2 = 0.
  by apply/colP=> m; rewrite !mxE /bwd eb mxE mul0r.
have -> : (trp (last l0 rest) 0 (last p ps)).1 = (last p ps).1.
  by apply/colP=> m; rewrite mxE /fwd rmorph0 mulr0 cexp0 mulr1.
rewrite aN ea b0 => H.
have -> : \sum_i r.1 i ord0 = (\sum_i ff omega kxr kyr e0 (S21 Sm *m a0 + S22 Sm *m 0) i) / flux.
  by rewrite mulr_suml; apply: eq_bigr => i _; rewrite hR.
have -> : \sum_i r.2 i ord0 = (\sum_i (poynting omega (last l0 rest) (S11 Sm *m a0 + S12 Sm *m 0) 0).1 i ord0) / flux.
  by rewrite mulr_suml; apply: eq_bigr => i _; rewrite hT.
rewrite -mulrDl ler_pmul2r; last by rewrite invr_gt0; apply/RltP.
move: H; rewrite (eq_bigr (fun i => (poynting omega (last l0 rest) (S11 Sm *m a0 + S12 Sm *m 0) 0).1 i ord0)); last first.
  by move=> i _; rewrite poynting_out addr0.
rewrite sumrB; move: (\sum_i _ : R) (\sum_i _ : R) (\sum_i _ : R) => x y z; rfold => H.
apply/RleP; rfold; lra.
Qed.
End Balance.

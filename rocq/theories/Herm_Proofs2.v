(** A lossless pattern and a tangent field whose operator is not Hermitian. *)
From Coq Require Import Reals ZArith Lra Lia.
From mathcomp Require Import all_ssreflect all_algebra.
From mathcomp Require Import complex.
From Verif Require Import RStruct Cplx Cderiv Base Fourier_Model Fourier_Spec Sim_Model Sim_Spec Setup_Model.
From Verif Require Import SMat_Proofs SMat_Proofs2 SMat_Proofs3 Modes_Proofs Fourier_Proofs Energy_Spec Energy_Proofs.
From Verif Require Import Herm_Spec Herm_Proofs Opt_Proofs2.
From Verif Require Tangent_Proofs.

Set Implicit Arguments.
Unset Strict Implicit.
Unset Printing Implicit Defensive.

Import Order.TTheory GRing.Theory Num.Theory.
Local Open Scope ring_scope.
Local Open Scope complex_scope.

(** Orders 0, 1 and -1 on 4 by 4 points. *)
Definition g3 (i : 'I_3) : order := (nth 0%Zc [:: 0; 1; -1]%Zc i, 0%Zc).
Definition phase (x : 'I_4) : 'cV[C]_3 := \col_i root 4 (- ((g3 i).1 * Z.of_nat x)).
Definition outer (x : 'I_4) : 'M[C]_3 := phase x *m (map_mx conj (phase x))^T.

Lemma g3_index i j : indexable 4 4 (odiff (g3 i) (g3 j)).
Proof.
rewrite /indexable /index_ok /odiff /g3.
by move: i j => [[|[|[|i]]] hi] // [[|[|[|j]]] hj] //=; lia.
Qed.
Lemma g3_separated : separated 4 4 g3.
Proof. by move=> [[|[|[|i]]] hi] // [[|[|[|j]]] hj] // _ []. Qed.

Lemma outerE x i j : outer x i j = root 4 (- ((g3 i).1 - (g3 j).1) * Z.of_nat x).
Proof.
rewrite /outer !mxE big_ord1 !mxE root_conj -rootD; congr root; ring.
Qed.

Definition spike (a c : C) (x0 : 'I_4) : 'M[C]_4 := \matrix_(x, y) (a + (if x == x0 then c else 0)).

Lemma spike_toeplitz a c x0 : toeplitz g3 (spike a c x0) = Some (a%:M + (c / 4%:R) *: outer x0).
Proof.
have n4 : (0 < 4)%N by [].
have hc : a%:M = \matrix_(i, j) coef (const_mx a : 'M[C]_4) ((g3 i).1 - (g3 j).1) ((g3 i).2 - (g3 j).2) :> 'M[C]_3.
  case: (toeplitzP n4 n4 g3 (const_mx a)) => [[_ E]|[H _]]; last by case: H; exact: g3_index.
  by symmetry; exact: (toeplitz_const n4 n4 g3_separated E).
case: (toeplitzP n4 n4 g3 (spike a c x0)) => [[_ ->]|[H _]]; last by case: H; exact: g3_index.
congr Some; apply/matrixP=> i j; rewrite [LHS]mxE [RHS]mxE [in RHS]hc [X in _ = X + _]mxE [X in _ = _ + X]mxE outerE.
move: ((g3 i).1 - (g3 j).1)%Zc => m; have -> : ((g3 i).2 - (g3 j).2)%Zc = 0%Zc by [].
rewrite /coef; set q : C := (4 * 4)%:R.
have -> : \sum_(x < 4) \sum_(y < 4) spike a c x0 x y * wave (- m) (- 0) x y =
  \sum_(x < 4) \sum_(y < 4) (const_mx a : 'M[C]_4) x y * wave (- m) (- 0) x y + 4%:R * (c * root 4 (- m * Z.of_nat x0)).
  have -> : 4%:R * (c * root 4 (- m * Z.of_nat x0)) =
    \sum_(x < 4) \sum_(y < 4) (if x == x0 then c else 0) * wave (- m) (- 0) x y.
    rewrite (bigD1 x0) //= [X in _ = _ + X]big1 ?addr0 => [|x /negPf nx].
      rewrite eqxx (eq_bigr (fun _ => c * root 4 (- m * Z.of_nat x0))) => [|y _]; last by rewrite waveE Z.mul_0_l root0 mulr1.
      by rewrite sumr_const card_ord mulr_natl.
    by rewrite nx big1 // => y _; rewrite mul0r.
  rewrite -big_split; apply: eq_bigr => x _ /=; rewrite -big_split; apply: eq_bigr => y _ /=.
  by rewrite !mxE mulrDl.
rewrite mulrDl; congr (_ + _).
have -> : q = 4%:R * 4%:R by rewrite /q natrM.
have n40 : (4%:R : C) != 0 by rewrite pnatr_eq0.
by rewrite invfM mulrACA divff // mul1r mulrAC.
Qed.

Lemma phase_norm x : (map_mx conj (phase x))^T *m phase x = 3%:R%:M.
Proof.
apply/matrixP=> i j; rewrite (ord1 i) (ord1 j) !mxE eqxx mulr1n.
rewrite (eq_bigr (fun _ => 1)) => [|k _]; first by rewrite sumr_const card_ord.
rewrite !mxE root_conj -rootD -[RHS](root0 4); congr root; ring.
Qed.

Lemma outer_sq x : outer x *m outer x = 3%:R *: outer x.
Proof. by rewrite /outer mulmxA -[_ *m _ *m phase x]mulmxA phase_norm mul_mx_scalar scalemxAl. Qed.

(** Inverses of 1 + a outer. *)
Lemma outer_linv x (a b : R) : (a + b + 3 * a * b = 0)%Re ->
  linv (1%:M + rc a *: outer x) = Ok (1%:M + rc b *: outer x).
Proof.
move=> e.
have E : (1%:M + rc a *: outer x) *m (1%:M + rc b *: outer x) = 1%:M.
  rewrite mulmxDl !mulmxDr !mul1mx !mulmx1 -scalemxAl -scalemxAr outer_sq !scalerA -addrA -!scalerDl.
  have -> : rc b + (rc a + rc a * rc b * 3%:R) = 0.
    rewrite natc -!rcM' -!rmorphD -[RHS]/(rc 0%Re); congr (rc _); rewrite -e /=; rfold; ring.
  by rewrite scale0r addr0.
have [U _] := mulmx1_unit E; rewrite /linv U; congr Ok.
move: U E; move: (1%:M + rc a *: outer x) (1%:M + rc b *: outer x) => A B U E.
by rewrite -[RHS]mul1mx -(mulVmx U) -mulmxA E mulmx1.
Qed.

Lemma frac k : 1 / (k.+1%:R : C) = rc (/ INR k.+1)%Re.
Proof.
have nk : INR k.+1 <> 0%Re by apply: not_0_INR.
have nz : (k.+1%:R : C) != 0 by rewrite pnatr_eq0.
apply: (mulIf nz); rewrite divfK // natc -rcM' /=; congr (rc _).
by symmetry; apply: Rinv_l.
Qed.

Definition x0 : 'I_4 := Ordinal (isT : (0 < 4)%N).
Definition x3 : 'I_4 := Ordinal (isT : (3 < 4)%N).
(** Permittivity 2 in the last column, 1 elsewhere; the field is along y in the first column
    and along x elsewhere. *)
Definition post : 'M[C]_4 := spike 1 1 x3.
Definition turn : 'M[C]_4 * 'M[C]_4 := (spike 1 (-1) x0, spike 0 1 x0).

Lemma post_E : toeplitz g3 post = Some (1%:M + (1 / 4%:R) *: outer x3).
Proof. exact: spike_toeplitz. Qed.

Lemma post_N : nu_hat_inv_iso g3 post = Ok (1%:M + rc (/ 5)%Re *: outer x3).
Proof.
have nz : 1 + 1 != 0 :> C by rewrite -(natrD _ 1 1) pnatr_eq0.
have e12 : (1 + 1 : C)^-1 = 1 + rc (- / 2)%Re.
  have n2 : (2%:R : C) = rc 2%Re by rewrite natc; congr (rc _); rewrite /=; lra.
  apply: (mulIf nz); rewrite mulVf // -(natrD _ 1 1) n2 mulrDl mul1r -rcM' -rmorphD -[LHS]/(rc 1%Re).
  by congr (rc _); rfold; field.
rewrite /nu_hat_inv_iso /pointwise_inv.
have -> : [forall i, forall j, post i j != 0].
  apply/forallP=> i; apply/forallP=> j; rewrite /post mxE; case: ifP => _ //.
  by rewrite addr0 oner_neq0.
have -> : map_mx (fun x => x^-1) post = spike 1 (rc (- / 2)%Re) x3.
  apply/matrixP=> i j; rewrite !mxE; case: ifP => _; first exact: e12.
  by rewrite !addr0 invr1.
cbn [bind]; rewrite /get_toeplitz spike_toeplitz; cbn [of_option bind].
rewrite -[_ / 4%:R]mulr1 mulrAC -mulrA frac -rcM'; apply: outer_linv; rewrite /=; rfold; field.
Qed.

Lemma post_unit : linv (1%:M + (1 / 4%:R) *: outer x3) = Ok (1%:M + rc (- / 7)%Re *: outer x3).
Proof. by rewrite frac; apply: outer_linv; rewrite /=; rfold; field. Qed.

Lemma toep_some (v : 'M[C]_4) : exists M, toeplitz g3 v = Some M.
Proof.
have n4 : (0 < 4)%N by [].
by case: (toeplitzP n4 n4 g3 v) => [[_ ->]|[H _]]; [eexists|case: H; exact: g3_index].
Qed.

Lemma turn_proj : exists Pi, proj_blocks g3 turn.1 turn.2 = Ok Pi.
Proof.
have [M1 e1] := toep_some (Tangent_Proofs.pfun turn.1 turn.2 turn.1 turn.1).
have [M2 e2] := toep_some (Tangent_Proofs.pfun turn.1 turn.2 turn.2 turn.2).
have [M3 e3] := toep_some (Tangent_Proofs.pfun turn.1 turn.2 turn.1 turn.2).
have [M4 e4] := toep_some (Tangent_Proofs.pfun turn.1 turn.2 turn.2 turn.1).
rewrite /proj_blocks /get_toeplitz; cbv zeta; rewrite /Tangent_Proofs.pfun in e1 e2 e3 e4.
by rewrite e1 e2 e3 e4; eexists.
Qed.

Lemma turn_yy : Tangent_Proofs.pfun turn.1 turn.2 turn.2 turn.2 = spike 0 (nt2 0 1)^-1 x0.
Proof.
apply/matrixP=> i j; rewrite !mxE; case: ifP => _; last by rewrite !addr0 !mul0r.
have c1 : conj (1 : C) = 1 by exact: (conj_nat 1).
by rewrite !add0r subrr c1 !mul1r.
Qed.

Lemma root4 : root 4 1 = 'i.
Proof.
rewrite /root; have -> : (2 * PI * 1 / INR 4)%Re = (PI / 2)%Re by rewrite /=; field.
have -> : 'i * rc (PI / 2)%Re = (0%Re +i* (PI / 2)%Re : C) by apply/eqP; rewrite eq_complex /=; apply/andP; split; apply/eqP; rfold; ring.
by rewrite /cexp exp_0 cos_PI2 sin_PI2 Rmult_0_r Rmult_1_r.
Qed.

Lemma outer_ne : outer x3 *m outer x0 <> outer x0 *m outer x3.
Proof.
have r3 : root 4 3 = - 'i.
  have -> : 3%Zc = (-1 + Z.of_nat 4 * 1)%Zc by [].
  by rewrite root_shift // -(root_conj 4 1) root4; apply/eqP; rewrite eq_complex /= oppr0 !eqxx.
have r3' : root 4 (-3) = 'i by rewrite -(root_conj 4 3) r3; apply/eqP; rewrite eq_complex /= oppr0 opprK !eqxx.
move=> /matrixP /(_ ord0 (Ordinal (isT : (1 < 3)%N))).
rewrite !mxE !big_ord_recl !big_ord0 !outerE /=.
have -> : root 4 6 = root 4 3 * root 4 3 by rewrite -rootD.
rewrite r3 r3' root0 !mulr1 !mul1r => -[] /=; rfold; lra.
Qed.

Lemma post_not omega kx ky : rc omega != 0 -> exists b P,
  build_matrix omega kx ky g3 (TangentLike (fun _ => Ok turn)) 1 (EpsGrid post) = Ok b /\
  bt_Peps b = Some P /\ ~ herm P.
Proof.
move=> w0; have [Pi hPi] := turn_proj.
have [b hb] : exists b, build_matrix omega kx ky g3 (TangentLike (fun _ => Ok turn)) 1 (EpsGrid post) = Ok b.
  rewrite /build_matrix /get_toeplitz post_E; cbn [of_option bind].
  rewrite post_unit; cbn [bind]; rewrite post_N; cbn [bind].
  by rewrite /get_Peps hPi; cbn [bind]; rewrite /assemble oner_eq0; eexists.
have [t [E [N [Pi' [[h1 h2 h3 h4] hP]]]]] := grid_peps w0 hb.
eexists b, _; split=> //; split; first exact: hP.
have ru x y : conj (post x y) = post x y.
  by rewrite /post mxE conjD; congr (_ + _); [exact: (conj_nat 1)|case: ifP => _; [exact: (conj_nat 1)|exact: (conj_nat 0)]].
have n4 : (0 < 4)%N by [].
move=> /(peps_iff n4 n4 w0 ru hb (erefl _ : (fun _ => Ok turn) post = Ok turn) post_E post_N hPi hP).
have [Pxx [Pyy [Pxy [Pyx [[e1 e2 e3 e4] ->]]]]] := Tangent_Proofs.proj_blocksE hPi.
rewrite /commute_mx !mulmx_block !mul0mx !mulmx0 !addr0 !add0r => /eq_block_mx [H _ _ _].
move: e2; rewrite turn_yy spike_toeplitz => -[e2]; move: H; rewrite -e2 frac.
have -> : 0%:M = 0 :> 'M[C]_3 by rewrite raddf0.
rewrite add0r opprD addrACA subrr add0r -scaleNr -scalerDl -!scalemxAl -!scalemxAr.
rewrite [in RHS]scalerA [in RHS]mulrC -[in RHS]scalerA; move=> H.
have k0 : rc (/ INR 4)%Re + - rc (/ 5)%Re != 0 by apply/eqP => -[] /=; rfold; lra.
have p0 : (nt2 0 1)^-1 / 4%:R != 0.
  rewrite mulf_neq0 ?invr_eq0 ?pnatr_eq0 // Tangent_Proofs.nt2E; apply/eqP => -[] /=.
  by have := Tangent_Proofs.norm2_pos 0 1; move: (norm2 0 1) => n np; rfold; nra.
by move: H => /(scalerI k0) /(scalerI p0); exact: outer_ne.
Qed.

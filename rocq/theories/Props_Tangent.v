(** Vector fields and the permittivity operator they build (properties C36, C37,
    C64, C65). *)
From Coq Require Import Reals ZArith Lra Lia.
From mathcomp Require Import all_ssreflect all_algebra.
From mathcomp Require Import complex.
From Verif Require Import RStruct Cplx Base Fourier_Model Fourier_Spec Fourier_Proofs Sim_Model.
From Verif Require Import Energy_Proofs Energy_Proofs2 Filter_Model Filter_Proofs Tangent_Model Tangent_Proofs.
From Verif Require Import Orders_Proofs Demo_Proofs.

Set Implicit Arguments.
Unset Strict Implicit.
Unset Printing Implicit Defensive.

Import Order.TTheory GRing.Theory Num.Theory.
Local Open Scope ring_scope.
Local Open Scope complex_scope.

(** ** C36 *)
(** The projection at one grid point: entries t_a conj(t_b) / norm(t)^2. *)
Definition point_proj (t0 t1 : C) : 'M[C]_2 :=
  \matrix_(a, b) ((if a == ord0 then t0 else t1) * conj (if b == ord0 then t0 else t1) / nt2 t0 t1).

Theorem C36_pointwise (t0 t1 : C) :
  let P := point_proj t0 t1 in
  herm P = P /\ \det P = 0 /\
  (exists tr : R, \tr P = rc tr /\ (0 <= tr < 1)%Re) /\
  (forall x : 'cV[C]_2, exists q : R, (herm x *m P *m x) ord0 ord0 = rc q /\
     (0 <= q <= sqn (x ord0 ord0) + sqn (x ord_max ord0))%Re).
Proof.
have n0 := norm2_pos t0 t1; have hn := norm2_sq t0 t1.
move=> P; split; [|split; [|split]].
- apply/matrixP => a b; rewrite !mxE !conjM nt2_inv rc_conj [conj (conj _)]conjcK.
  by rewrite -!mulrA [conj _ * _]mulrCA.
- rewrite (expand_det_row _ ord0) !big_ord_recl big_ord0 /cofactor !det_mx11 !mxE /= addr0.
  by rewrite expr0 [in X in _ + X]expr1; set k := (nt2 _ _)^-1; cring.
- exists ((sqn t0 + sqn t1) * / (norm2 t0 t1 * norm2 t0 t1))%Re; split.
    rewrite /mxtrace !big_ord_recl big_ord0 !mxE /= addr0 !sqn_conj nt2_inv -mulrDl.
    by rewrite -rmorphD -rmorphM.
  have s0 := sqn_ge0 t0; have s1 := sqn_ge0 t1.
  have i0 : (0 < / (norm2 t0 t1 * norm2 t0 t1))%Re by apply: Rinv_0_lt_compat; nra.
  split; first by apply: Rmult_le_pos; lra.
  apply: (Rmult_lt_reg_r (norm2 t0 t1 * norm2 t0 t1)); first nra.
  by rewrite Rmult_assoc Rinv_l; nra.
- move=> x; pose z := conj t0 * x ord0 ord0 + conj t1 * x ord_max ord0.
  exists (sqn z * / (norm2 t0 t1 * norm2 t0 t1))%Re; split.
    rewrite form_mx !big_ord_recl !big_ord0 /= !mxE /= !addr0.
    have -> : lift ord0 ord0 = ord_max :> 'I_2 by apply: val_inj.
    have -> : rc (sqn z * / (norm2 t0 t1 * norm2 t0 t1))%Re = rc (sqn z) / nt2 t0 t1.
      by rewrite nt2_inv; exact: rmorphM.
    rewrite -sqn_conj /z conjD !conjM ![conj (conj _)]conjcK.
    set k := (nt2 _ _)^-1; cring.
  have i0 : (0 < / (norm2 t0 t1 * norm2 t0 t1))%Re by apply: Rinv_0_lt_compat; nra.
  split; first by apply: Rmult_le_pos; [exact: sqn_ge0|lra].
  have cs := cauchy2 t0 t1 (x ord0 ord0) (x ord_max ord0).
  apply: (Rmult_le_reg_r (norm2 t0 t1 * norm2 t0 t1)); first nra.
  rewrite Rmult_assoc Rinv_l; last nra.
  rewrite Rmult_1_r; apply: (Rle_trans _ _ _ cs); rewrite Rmult_comm; apply: Rmult_le_compat_l; last lra.
  by have := sqn_ge0 (x ord0 ord0); have := sqn_ge0 (x ord_max ord0); lra.
Qed.

(** The operator built from it on the harmonics is Hermitian, positive and, when
    the harmonics are distinct on the grid, bounded by the identity. *)
Theorem C36_operator (Nx Ny nh : nat) (h : 'I_nh -> order) (t0 t1 : 'M[C]_(Nx, Ny)) Pi :
  (0 < Nx)%N -> (0 < Ny)%N -> proj_blocks h t0 t1 = Ok Pi ->
  herm Pi = Pi /\
  forall x : 'cV[C]_(nh + nh), exists q : R, (herm x *m Pi *m x) ord0 ord0 = rc q /\ (0 <= q)%Re /\
    (separated Nx Ny h -> q <= \sum_i sqn (x i ord0))%Re.
Proof.
move=> Nx0 Ny0 hP; split; first exact: proj_hermitian hP.
by move=> x; exact: proj_bounds hP.
Qed.

(** The Jones field has modulus below one, whatever arctan2 returns. *)
Theorem C36_jones arctan2 (t0 t1 : R) :
  let J := jones arctan2 t0 t1 in (sqn J.1 + sqn J.2 < 1)%Re.
Proof.
move=> J; rewrite /J jones_modulus; have := norm2_sq (rc t0) (rc t1); have := norm2_pos (rc t0) (rc t1).
rewrite !sqn_rc; set n := norm2 _ _ => n0 hn.
apply: (Rmult_lt_reg_r (n * n)); first nra.
by rewrite /Rdiv Rmult_assoc Rinv_l; nra.
Qed.

(** ** C65 *)
(** The 'fft' tangent field exists for every pattern and has modulus at most one. *)
Theorem C65_modulus (Nx Ny : nat) (normalize : bool) (u : 'M[C]_(Nx, Ny)) :
  (0 < Nx)%N -> (0 < Ny)%N ->
  exists t, tangent_field_fft normalize u = Ok t /\
    forall i j, (t.1 i j * t.1 i j + t.2 i j * t.2 i j <= 1)%Re.
Proof.
move=> Nx0 Ny0; have [t ht] := tangent_total normalize u Nx0 Ny0.
by exists t; split=> // i j; exact: tangent_modulus ht i j.
Qed.

(** ** C64 *)
(** Patterns that do not depend on y have a field along y, patterns that do not
    depend on x a field along x, without normalisation. *)
Theorem C64_direction (Nx Ny : nat) (u : 'M[C]_(Nx, Ny)) t :
  (0 < Nx)%N -> (0 < Ny)%N -> tangent_field_fft false u = Ok t ->
  ((forall i j j', u i j = u i j') -> forall i j, t.1 i j = 0%Re) /\
  ((forall i i' j, u i j = u i' j) -> forall i j, t.2 i j = 0%Re).
Proof.
move=> Nx0 Ny0; rewrite /tangent_field_fft; case E: (raw_field u) => [r|//] /= [<-].
split=> hu i j /=; rewrite mxE.
- by rewrite (raw_y Nx0 Ny0 hu E) mxE /Rdiv; exact: Rmult_0_l.
- by rewrite (raw_x Nx0 Ny0 hu E) mxE /Rdiv; exact: Rmult_0_l.
Qed.

(** With normalisation the points of negligible norm get the direction x; at the
    others the direction is kept. *)
Theorem C64_normalised (Nx Ny : nat) (u : 'M[C]_(Nx, Ny)) t :
  (0 < Nx)%N -> (0 < Ny)%N -> tangent_field_fft true u = Ok t ->
  ((forall i j j', u i j = u i j') -> forall i j, t.1 i j = 0%Re \/ (t.1 i j = 1 /\ t.2 i j = 0)%Re) /\
  ((forall i i' j, u i j = u i' j) -> forall i j, t.2 i j = 0%Re).
Proof.
move=> Nx0 Ny0; rewrite /tangent_field_fft; case E: (raw_field u) => [r|//] /= [<-].
split=> hu i j /=; rewrite !mxE /normalize_vec; case: Rle_dec => hn /=.
- by right.
- by left; rewrite (raw_y Nx0 Ny0 hu E) mxE /Rdiv; exact: Rmult_0_l.
- by [].
- by rewrite (raw_x Nx0 Ny0 hu E) mxE /Rdiv; exact: Rmult_0_l.
Qed.

(** In particular the field of a constant grid is along x. *)
Theorem C64_constant (Nx Ny : nat) (c : C) : (0 < Nx)%N -> (0 < Ny)%N ->
  exists t, tangent_field_fft true (const_mx c : 'M[C]_(Nx, Ny)) = Ok t /\
    forall i j, (t.1 i j = 1 /\ t.2 i j = 0)%Re.
Proof.
move=> Nx0 Ny0; have [t ht] := tangent_total true (const_mx c : 'M[C]_(Nx, Ny)) Nx0 Ny0.
exists t; split=> //; move: ht; rewrite /tangent_field_fft; case E: (raw_field _) => [r|//] /= [<-] i j /=.
have h1 : r.1 = 0 by apply: (raw_y Nx0 Ny0 _ E) => ? ? ?; rewrite !mxE.
have h2 : r.2 = 0 by apply: (raw_x Nx0 Ny0 _ E) => ? ? ?; rewrite !mxE.
rewrite !mxE h1 h2 !mxE /normalize_vec; case: Rle_dec => // hn; exfalso; apply: hn.
have [m [m0 hm ->]] := norm2P (rc 0) (rc 0).
have {}hm : (m * m = 0)%Re by rewrite hm !sqn_rc; rfold; ring.
have -> : m = 0%Re by case: (Rmult_integral _ _ hm).
have := machine_eps_small; lra.
Qed.

(** ** C37 *)
Section C37.
Variables (Nx Ny nh : nat) (h : 'I_nh -> order).
Hypothesis (Nx0 : (0 < Nx)%N) (Ny0 : (0 < Ny)%N).
(** Mono-periodic harmonics (m, 0). *)
Hypothesis h2 : forall i, (h i).2 = 0%Zc.

Lemma coef_y (u1 : 'M[C]_(Nx, 1)) (u2 : 'M[C]_(Nx, Ny)) m :
  (forall i j, u2 i j = u1 i ord0) -> coef u2 m 0 = coef u1 m 0.
Proof.
move=> hu; rewrite /coef.
have -> : \sum_(x < Nx) \sum_(y < Ny) u2 x y * wave (- m) (- 0) x y =
  (\sum_(x < Nx) \sum_(y < 1) u1 x y * wave (- m) (- 0) x y) * Ny%:R.
  rewrite mulr_suml; apply: eq_bigr => x _; rewrite big_ord_recl big_ord0 addr0.
  rewrite (eq_bigr (fun _ => u1 x ord0 * wave (- m) (- 0) x (ord0 : 'I_1))) => [|y _].
    by rewrite sumr_const card_ord mulr_natr.
  by rewrite hu !waveE /= !root0.
rewrite muln1 natrM invfM; have n0 : (Ny%:R : C) != 0 by rewrite pnatr_eq0 -lt0n.
by rewrite [Nx%:R^-1 * _]mulrC mulrA mulfK.
Qed.

Lemma toeplitz_y (u1 : 'M[C]_(Nx, 1)) (u2 : 'M[C]_(Nx, Ny)) :
  (forall i j, u2 i j = u1 i ord0) -> toeplitz h u2 = toeplitz h u1.
Proof.
move=> hu.
case: (toeplitzP Nx0 Ny0 h u2) => -[hi ->]; case: (toeplitzP Nx0 (isT : 0 < 1)%N h u1) => -[hi' ->] //.
- congr Some; apply/matrixP => i j; rewrite !mxE !h2 Z.sub_diag; exact: coef_y.
- case: hi' => i j; have [a b] := hi i j; split=> //.
  by rewrite /odiff !h2 /index_ok /=; lia.
- case: hi => i j; have [a b] := hi' i j; split=> //.
  by rewrite /odiff !h2 /index_ok /=; move/ssrnat.ltP: Ny0; lia.
Qed.

Lemma nu_y (u1 : 'M[C]_(Nx, 1)) (u2 : 'M[C]_(Nx, Ny)) :
  (forall i j, u2 i j = u1 i ord0) -> nu_hat_inv_iso h u2 = nu_hat_inv_iso h u1.
Proof.
move=> hu; rewrite /nu_hat_inv_iso /pointwise_inv.
have -> : [forall i, forall j, u2 i j != 0] = [forall i, forall j, u1 i j != 0].
  apply/idP/idP => /forallP H; apply/forallP => i; apply/forallP => j; move/forallP: (H i) => Hi.
    by have := Hi (Ordinal Ny0); rewrite hu (ord1 j).
  by rewrite hu.
case: ifP => // _ /=; rewrite /get_toeplitz (@toeplitz_y (map_mx (fun x => x^-1) u1)) // => i j.
by rewrite !mxE hu.
Qed.

Lemma toeplitz0 (u : 'M[C]_(Nx, Ny)) M : (forall i j, u i j = 0) -> toeplitz h u = Some M -> M = 0.
Proof.
move=> hu; case: (toeplitzP Nx0 Ny0 h u) => [[_ ->]|[_ -> //]] [<-].
apply/matrixP => i j; rewrite !mxE /coef big1 ?mul0r // => r _; rewrite big1 // => s _.
by rewrite hu mul0r.
Qed.

Lemma block_diag (A B P D F Q : 'M[C]_nh) :
  block_mx A 0 0 D - (block_mx A 0 0 D - block_mx B 0 0 F) *m block_mx P 0 0 Q =
  block_mx (A - (A - B) *m P) 0 0 (D - (D - F) *m Q).
Proof.
by do ?rewrite ?opp_block_mx ?add_block_mx ?mulmx_block ?mulmx0 ?mul0mx ?oppr0 ?addr0 ?add0r.
Qed.

Variables (omega : R) (kx ky : 'rV[C]_nh) (mu : C).

(** The operator of the mono-periodic code ... *)
Lemma mono (u1 : 'M[C]_(Nx, 1)) b1 :
  build_matrix omega kx ky h (Tangent1D Nx 1) mu (EpsGrid u1) = Ok b1 ->
  exists E N, toeplitz h u1 = Some E /\ nu_hat_inv_iso h u1 = Ok N /\ bt_Peps b1 = Some (block_mx E 0 0 N).
Proof.
rewrite /build_matrix {1}/get_toeplitz; case E1: (toeplitz h u1) => [E|//]; rewrite [of_option _ _]/= bindE.
case: (linv E) => [Ei|//]; rewrite bindE.
case E3: (nu_hat_inv_iso h u1) => [N|//]; rewrite !bindE /assemble; case: ifP => // _ [<-].
by exists E, N.
Qed.

(** ... and of the bi-periodic one. *)
Lemma bi tan (u2 t0 t1 : 'M[C]_(Nx, Ny)) b2 : tan u2 = Ok (t0, t1) ->
  build_matrix omega kx ky h (TangentLike tan) mu (EpsGrid u2) = Ok b2 ->
  exists E N Pi, toeplitz h u2 = Some E /\ nu_hat_inv_iso h u2 = Ok N /\ proj_blocks h t0 t1 = Ok Pi /\
    bt_Peps b2 = Some (block_mx E 0 0 E - (block_mx E 0 0 E - block_mx N 0 0 N) *m Pi).
Proof.
move=> ht; rewrite /build_matrix {1}/get_toeplitz; case E1: (toeplitz h u2) => [E|//]; rewrite [of_option _ _]/= bindE.
case: (linv E) => [Ei|//]; rewrite bindE.
rewrite ht bindE; case E3: (nu_hat_inv_iso h u2) => [N|//]; rewrite !bindE /get_Peps [(t0, t1).1]/= [(t0, t1).2]/=.
case E4: (proj_blocks h t0 t1) => [Pi|//]; rewrite !bindE /assemble; case: ifP => // _ [<-].
by exists E, N, Pi.
Qed.

(** For a pattern that does not depend on y and any field along y, the inverse
    rule ends up on the wrong component: the x component keeps the Toeplitz
    matrix E of the permittivity, which is the component that should get the
    inverse N of the Toeplitz matrix of the inverse permittivity. *)
Theorem C37_refuted tan (u1 : 'M[C]_(Nx, 1)) (u2 t1 : 'M[C]_(Nx, Ny)) b1 b2 :
  tan u2 = Ok (0, t1) -> (forall i j, u2 i j = u1 i ord0) ->
  build_matrix omega kx ky h (Tangent1D Nx 1) mu (EpsGrid u1) = Ok b1 ->
  build_matrix omega kx ky h (TangentLike tan) mu (EpsGrid u2) = Ok b2 ->
  exists E N W, toeplitz h u1 = Some E /\ nu_hat_inv_iso h u1 = Ok N /\
    toeplitz h (\matrix_(i, j) (t1 i j * conj (t1 i j) / nt2 0 (t1 i j))) = Some W /\
    bt_Peps b1 = Some (block_mx E 0 0 N) /\
    bt_Peps b2 = Some (block_mx (E - (E - N) *m W) 0 0 E) /\
    (E <> N -> bt_Peps b2 <> bt_Peps b1).
Proof.
move=> ht hu /mono [E [N [hE [hN P1]]]] /(bi ht) [E' [N' [Pi [hE' [hN' [hP P2]]]]]].
move: hE' hN'; rewrite (toeplitz_y hu) (nu_y hu) hE hN => -[e] [e']; subst E' N'.
have [Pxx [Pyy [Pxy [Pyx [[h1 h2' h3 h4] eP]]]]] := proj_blocksE hP.
have z0 i j : (0 : 'M[C]_(Nx, Ny)) i j = 0 by rewrite mxE.
have hxx : Pxx = 0 by apply: toeplitz0 h1 => i j; rewrite mxE z0 !mul0r.
have hxy : Pxy = 0 by apply: toeplitz0 h3 => i j; rewrite mxE z0 !mul0r.
have hyx : Pyx = 0.
  by apply: toeplitz0 h4 => i j; rewrite mxE z0 (conj_nat 0) mulr0 mul0r.
exists E, N, Pyy; split=> //; split=> //; split.
  by rewrite -h2'; congr toeplitz; apply/matrixP => i j; rewrite !mxE.
split=> //.
have P2' : bt_Peps b2 = Some (block_mx (E - (E - N) *m Pyy) 0 0 E).
  by rewrite P2 eP hxx hxy hyx block_diag mulmx0 subr0.
split=> // ne; rewrite P1 P2' => -[] /eq_block_mx [_ _ _ e]; exact: ne.
Qed.

(** With the field along x, i.e. with the components exchanged, the code would
    build the operator of the mono-periodic case, up to the factor
    |t|^2/(|t| + machine epsilon)^2. *)
Theorem C37_exchanged_partial tan (u1 : 'M[C]_(Nx, 1)) (u2 : 'M[C]_(Nx, Ny)) (t : C) b1 b2 :
  tan u2 = Ok (const_mx t, 0) -> separated Nx Ny h ->
  (forall i j, u2 i j = u1 i ord0) ->
  build_matrix omega kx ky h (Tangent1D Nx 1) mu (EpsGrid u1) = Ok b1 ->
  build_matrix omega kx ky h (TangentLike tan) mu (EpsGrid u2) = Ok b2 ->
  exists E N, bt_Peps b1 = Some (block_mx E 0 0 N) /\
    bt_Peps b2 = Some (block_mx E 0 0 (E - (t * conj t / nt2 t 0) *: (E - N))).
Proof.
move=> ht sep hu /mono [E [N [hE [hN P1]]]] /(bi ht) [E' [N' [Pi [hE' [hN' [hP P2]]]]]].
move: hE' hN'; rewrite (toeplitz_y hu) (nu_y hu) hE hN => -[e] [e']; subst E' N'.
have [Pxx [Pyy [Pxy [Pyx [[h1 h2' h3 h4] eP]]]]] := proj_blocksE hP.
have z0 i j : (0 : 'M[C]_(Nx, Ny)) i j = 0 by rewrite mxE.
have hyy : Pyy = 0 by apply: toeplitz0 h2' => i j; rewrite mxE z0 !mul0r.
have hyx : Pyx = 0 by apply: toeplitz0 h4 => i j; rewrite mxE z0 !mul0r.
have hxy : Pxy = 0.
  by apply: toeplitz0 h3 => i j; rewrite mxE z0 (conj_nat 0) mulr0 mul0r.
have hxx : Pxx = (t * conj t / nt2 t 0)%:M.
  apply: (toeplitz_const Nx0 Ny0 sep); rewrite -h1; congr toeplitz; apply/matrixP => i j.
  by rewrite !mxE.
exists E, N; split=> //.
by rewrite P2 eP hxx hxy hyx hyy block_diag mulmx0 subr0 mul_mx_scalar.
Qed.
End C37.

(** Concrete case: permittivity 2 and 6 in alternating stripes, one harmonic: the
    arithmetic mean is 4, the harmonic one 3. *)
Definition zero_h (i : 'I_1) : order := (0, 0)%Zc.
Section Case.
Variables (Nx Ny : nat).
Hypothesis (Nx0 : (0 < Nx)%N) (Ny0 : (0 < Ny)%N).
Lemma one_harmonic (u : 'M[C]_(Nx, Ny)) : toeplitz zero_h u = Some (mean u)%:M.
Proof.
case: (toeplitzP Nx0 Ny0 zero_h u) => [[_ ->]|[H _]] /=.
  by congr Some; apply/matrixP=> i j; rewrite !mxE (ord1 i) (ord1 j) eqxx mulr1n coef_mean.
case: H => i j; rewrite /indexable /index_ok /=.
by move/ssrnat.ltP: Nx0 => ?; move/ssrnat.ltP: Ny0 => ?; split; lia.
Qed.
Lemma one_linv (c : C) : c != 0 -> linv (c%:M : 'M[C]_1) = Ok (c^-1)%:M.
Proof. by move=> c0; rewrite /linv unitmxE det_scalar1 unitfE c0 invmx_scalar. Qed.
Lemma one_proj (t0 t1 : 'M[C]_(Nx, Ny)) : exists Pi, proj_blocks zero_h t0 t1 = Ok Pi.
Proof. by rewrite /proj_blocks /get_toeplitz !one_harmonic /=; eexists. Qed.
End Case.

Definition stripes : 'M[C]_(2, 1) := \matrix_(x, y) (if (x : nat) == 0%N then rc 2%Re else rc 6%Re).

Lemma stripes_mean : mean stripes = rc 4%Re.
Proof.
rewrite /mean !big_ord_recl !big_ord0 !mxE /= !addr0.
have -> : ((2 * 1)%N%:R : C) = rc 2%Re.
  have e2 : (2%Re : R) = 2%:R by rewrite mulr2n; rfold; ring.
  by rewrite muln1 e2 rmorph_nat.
rewrite rcV; last by apply: Rgt_not_eq; lra.
by rewrite -!rmorphD -rmorphM; congr (real_complex R_rcfType _); rfold; field.
Qed.
Lemma stripes_nu : nu_hat_inv_iso zero_h stripes = Ok (rc 3%Re)%:M.
Proof.
have n2 : rc 2%Re != 0 by apply/eqP => -[]; rfold; lra.
have n6 : rc 6%Re != 0 by apply/eqP => -[]; rfold; lra.
rewrite /nu_hat_inv_iso /pointwise_inv.
have -> : [forall i, forall j, stripes i j != 0].
  by apply/forallP => i; apply/forallP => j; rewrite mxE; case: ifP.
rewrite bindE /get_toeplitz one_harmonic // [of_option _ _]/= bindE.
have -> : mean (map_mx (fun x : C => x^-1) stripes) = rc (/ 3)%Re.
  rewrite /mean !big_ord_recl !big_ord0 !mxE /= !addr0.
  have -> : ((2 * 1)%N%:R : C) = rc 2%Re.
    have e2 : (2%Re : R) = 2%:R by rewrite mulr2n; rfold; ring.
    by rewrite muln1 e2 rmorph_nat.
  rewrite !rcV; try by apply: Rgt_not_eq; lra.
  by rewrite -!rmorphD -rmorphM; congr (real_complex R_rcfType _); rfold; field.
rewrite one_linv; last by apply/eqP => -[]; rfold; lra.
by congr Ok; congr (_%:M); rewrite rcV; [rewrite Rinv_inv|lra].
Qed.

Example C37_case : exists b1 b2,
  build_matrix 1%Re 0 0 zero_h (Tangent1D 2 1) 1 (EpsGrid stripes) = Ok b1 /\
  build_matrix 1%Re 0 0 zero_h (TangentLike (fun _ => Ok (0, const_mx 1))) 1 (EpsGrid demo_grid) = Ok b2 /\
  bt_Peps b1 = Some (block_mx (rc 4%Re)%:M 0 0 (rc 3%Re)%:M) /\
  bt_Peps b2 <> bt_Peps b1.
Proof.
have hu i j : demo_grid i j = stripes i ord0 by rewrite !mxE.
have h0 i : (zero_h i).2 = 0%Zc by [].
have n4 : rc 4%Re != 0 by apply/eqP => -[]; rfold; lra.
have [Pi hPi] := @one_proj 2 2 isT isT 0 (const_mx 1).
have [b1 hb1] : exists b1, build_matrix 1%Re 0 0 zero_h (Tangent1D 2 1) 1 (EpsGrid stripes) = Ok b1.
  rewrite /build_matrix /get_toeplitz one_harmonic // stripes_mean [of_option _ _]/= bindE one_linv //.
  by rewrite bindE stripes_nu !bindE /assemble oner_eq0; eexists.
have [b2 hb2] : exists b2, build_matrix 1%Re 0 0 zero_h (TangentLike (fun _ => Ok (0, const_mx 1))) 1 (EpsGrid demo_grid) = Ok b2.
  rewrite /build_matrix /get_toeplitz (@toeplitz_y 2 2 1 zero_h isT isT h0 stripes) //.
  rewrite one_harmonic // stripes_mean [of_option _ _]/= bindE one_linv // !bindE.
  rewrite (@nu_y 2 2 1 zero_h isT isT h0 stripes) // stripes_nu bindE /get_Peps [(_, _).1]/= [(_, _).2]/= hPi !bindE /assemble oner_eq0.
  by eexists.
exists b1, b2; split=> //; split=> //.
have [E [N [W [hE [hN [_ [P1 [_ ne]]]]]]]] := C37_refuted (isT : 0 < 2)%N (isT : 0 < 2)%N h0 erefl hu hb1 hb2.
move: hE; rewrite one_harmonic // stripes_mean => -[hE].
move: hN; rewrite stripes_nu => -[hN].
rewrite -hE -hN in P1 ne *; split=> //; apply: ne.
by move=> /matrixP /(_ ord0 ord0); rewrite !mxE !mulr1n => -[]; lra.
Qed.

(** The bounds of the operator apply to this field. *)
Example C36_case : exists Pi, proj_blocks zero_h (0 : 'M[C]_(2, 2)) (const_mx 1) = Ok Pi /\ separated 2 2 zero_h.
Proof.
have [Pi hPi] := @one_proj 2 2 isT isT 0 (const_mx 1); exists Pi; split=> // i j.
by rewrite (ord1 i) (ord1 j) eqxx.
Qed.

Print Assumptions C36_pointwise.
Print Assumptions C36_operator.
Print Assumptions C36_jones.
Print Assumptions C65_modulus.
Print Assumptions C64_direction.
Print Assumptions C64_normalised.
Print Assumptions C64_constant.
Print Assumptions C37_refuted.
Print Assumptions C37_exchanged_partial.

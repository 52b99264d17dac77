(** PlaneWave identities and complex diffraction amplitudes. *)
From Coq Require Import Reals ZArith Lra String.
From mathcomp Require Import all_ssreflect all_algebra.
From mathcomp Require Import complex.
From Verif Require Import RStruct Cplx Cderiv Base Fourier_Model Fourier_Spec Sim_Model Sim_Spec Setup_Model.
From Verif Require Import SMat_Proofs SMat_Proofs2 SMat_Proofs3 Maxwell_Spec Modes_Proofs Maxwell_Proofs.
From Verif Require Import Fourier_Proofs Energy_Spec Energy_Proofs Energy_Proofs2 Energy_Proofs3 Basis_Proofs.
From Verif Require Import Run_Proofs Orders_Model.

Set Implicit Arguments.
Unset Strict Implicit.
Unset Printing Implicit Defensive.

Import Order.TTheory GRing.Theory Num.Theory.
Local Open Scope ring_scope.
Local Open Scope complex_scope.

(** ** PlaneWave (C30) *)
Section PW.
Variable pw : planewave.

Lemma pw_unit : (pw_cx pw * pw_cx pw + pw_cy pw * pw_cy pw + pw_cz pw * pw_cz pw = 1)%Re.
Proof.
have h1 := sc2 (pw_theta pw); have h2 := sc2 (pw_phi pw); have h3 := sc2 (pw_psi pw).
by rewrite /pw_cx /pw_cy /pw_cz; ring [h1 h2 h3].
Qed.

Lemma pw_orth : (pw_kx pw * pw_cx pw + pw_ky pw * pw_cy pw + pw_kz pw * pw_cz pw = 0)%Re.
Proof.
have h1 := sc2 (pw_theta pw); have h2 := sc2 (pw_phi pw); have h3 := sc2 (pw_psi pw).
by rewrite /pw_cx /pw_cy /pw_cz /pw_kx /pw_ky /pw_kz; ring [h1 h2 h3].
Qed.

Lemma pw_knorm : (pw_kx pw * pw_kx pw + pw_ky pw * pw_ky pw + pw_kz pw * pw_kz pw =
  (2 * PI / pw_lambda pw) * (2 * PI / pw_lambda pw))%Re.
Proof.
have h1 := sc2 (pw_theta pw); have h2 := sc2 (pw_phi pw).
have -> : (2 * PI / pw_lambda pw = pw_k0 pw)%Re by rewrite /pw_k0 /Rdiv; ring.
by rewrite /pw_kx /pw_ky /pw_kz; ring [h1 h2].
Qed.

Hypothesis lam : (0 < pw_lambda pw)%Re.
Hypothesis cth : (0 < cos (pw_theta pw))%Re.

(** The modal amplitudes are the transverse part of (k x E)/omega. *)
Lemma pw_a0_H a : pw_a0 pw = Ok a ->
  a.1 = ((pw_ky pw * pw_cz pw - pw_kz pw * pw_cy pw) / pw_k0 pw)%Re /\
  a.2 = ((pw_kz pw * pw_cx pw - pw_kx pw * pw_cz pw) / pw_k0 pw)%Re.
Proof.
rewrite /pw_a0; case: Req_EM_T => // hd [<-] /=.
have k0 := k0_pos lam; have ho := pw_orth; have hg := pw_gam pw.
have hz : (pw_kz pw * pw_kz pw = pw_k0 pw * pw_k0 pw - pw_kx pw * pw_kx pw - pw_ky pw * pw_ky pw)%Re.
  by rewrite hg /pw_kz; ring.
have kz0 : (0 < pw_kz pw)%Re by rewrite /pw_kz; apply: Rmult_lt_0_compat.
have hq : pw_q pw = pw_kz pw by rewrite pw_qE.
have hdet : (pw_det pw = pw_k0 pw * pw_k0 pw * (pw_kz pw * pw_kz pw))%Re by rewrite pw_detE /pw_kz; ring.
rewrite hq hdet.
have cz : (pw_cz pw = - (pw_kx pw * pw_cx pw + pw_ky pw * pw_cy pw) / pw_kz pw)%Re.
  by field_simplify_eq; [lra|apply: Rgt_not_eq].
rewrite cz /pw_Q11 /pw_Q12 /pw_Q22.
move: hz kz0 k0; move: (pw_kx pw) (pw_ky pw) (pw_kz pw) (pw_k0 pw) (pw_cx pw) (pw_cy pw) => x y z k c d hz z0 k0.
have hk : (k * k = x * x + y * y + z * z)%Re by lra.
split; rewrite -/(Rdiv _ _); field_simplify_eq; try (split; apply: Rgt_not_eq => //); simpl; rewrite ?Rmult_1_r; rfold; ring [hk].
Qed.
End PW.

(** ** Energy of one order from its electric amplitude *)
Section Uniform.
Variables (Nx Ny nh : nat).
Variable eig : forall m, 'M[C]_m -> 'rV[C]_m * 'M[C]_m.
Variable omega : R.
Hypothesis omega_neq0 : rc omega != 0.
Variables kxr kyr : 'rV[R]_nh.
Variable h : 'I_nh -> order.
Variable form : formulation_t Nx Ny.
Notation n2 := (nh + nh)%N.
Let kx : 'rV[C]_nh := map_mx (real_complex R_rcfType) kxr.
Let ky : 'rV[C]_nh := map_mx (real_complex R_rcfType) kyr.
Notation w2 := (omega2 omega).
Variables (thick : option R) (e : R) (l : slayer nh).
Hypothesis hl : solve_layer eig omega kx ky h form thick 1 (EpsUniform Nx Ny (rc e)) = Ok l.
Notation g2 := (gam2 omega kxr kyr e).
Notation qq := (qo omega kxr kyr e).
Notation sv' := (sv kxr kyr).
Notation Qu v i := (w2 * up v i - rc (kyr ord0 i) * ((rc e)^-1 * sv' v i)).
Notation Qd v i := (w2 * dn v i + rc (kxr ord0 i) * ((rc e)^-1 * sv' v i)).

Lemma field_uniform (a b : 'cV[C]_n2) F i : field_of omega kx ky l (a, b) = Ok F ->
  [/\ f_ex F i ord0 = Qd (a - b) i / (rc omega * qq i),
      f_ey F i ord0 = - (Qu (a - b) i / (rc omega * qq i)) &
      f_ez F i ord0 = (rc e)^-1 * (sv' (a + b) i / rc omega)].
Proof.
have [hphi [_ [q1 [q2 hQ]]]] := l_data hl.
have he : sl_eps l = inl (rc e).
  by move: hl; rewrite /solve_layer /build_matrix (negPf (e_neq0 hl)) /= => -[<-].
rewrite /field_of; case: ifP => // _; rewrite he (negPf (e_neq0 hl)) /= => -[<-] /=.
rewrite -Amx_mul.
have [Au Ad] := A_uniform hl (a - b) i; have [Bu Bd] := Q_col hl (a - b) i.
have eN (v : 'cV[C]_nh) : (- v) i ord0 = - v i ord0 by rewrite mxE.
split.
- by rewrite dsubE Ad Bd.
- by rewrite eN usubE Au Bu.
- by rewrite hphi mul1mx mxE [X in _ * X]mxE usubE dsubE /sv !mxE.
Qed.

(** |E|^2 = a* Q a / q^2 for a wave travelling one way *)
Lemma one_way (v : 'cV[C]_n2) i : (0 < g2 i)%Re ->
  (sqn (Qd v i / (rc omega * qq i))%R + sqn (Qu v i / (rc omega * qq i))%R + sqn ((rc e)^-1 * (sv' v i / rc omega))%R
   = qr omega kxr kyr e v i / g2 i)%Re.
Proof.
move=> hg; rewrite (qo_pos hg); have h1 := Nsqrt_gt0 hg.
have hs : (Num.sqrt (g2 i) * Num.sqrt (g2 i))%Re = g2 i.
  by move/RltP: hg => hg; have := sqr_sqrtr (ltW hg); rewrite expr2.
have w0 := w0' omega_neq0; have e0 := e_neq0' hl.
have h2 : (omega * (Num.sqrt (g2 i) : R))%Re <> 0%Re.
  by apply: Rmult_integral_contrapositive; split=> //; lra.
rewrite -rmorphM (rcV h2) (rcV w0) (rcV e0).
have hgd : (e * (omega * omega) = g2 i + kxr ord0 i * kxr ord0 i + kyr ord0 i * kyr ord0 i)%Re.
  by rewrite /gam2; ring.
move: hs hgd h1 h2; move: (Num.sqrt (g2 i) : R) => q; move: (g2 i) hg => g hg hs hgd h1 h2.
rewrite /qr /sv /omega2.
move: hgd; case: (up v i) => a1 a2; case: (dn v i) => b1 b2; rewrite /sqn /=.
move: (kxr ord0 i) (kyr ord0 i) => x y hgd; rfold.
rewrite -hs in hgd *.
have n0 : (q * q + x * x + y * y <> 0)%Re by apply: Rgt_not_eq; nra.
have -> : (/ e = (omega * omega) / (q * q + x * x + y * y))%Re.
  by rewrite -hgd; field; split.
field; do ?split=> //; lra.
Qed.
End Uniform.

Lemma sqn_scale (x : C) (s : R) : sqn (x * rc s) = (sqn x * (s * s))%Re.
Proof. by case: x => a b; rewrite /sqn /=; rfold; ring. Qed.
Lemma sqn_mul (x y : C) : sqn (x * y) = (sqn x * sqn y)%Re.
Proof. by case: x => a b; case: y => c d; rewrite /sqn /=; rfold; ring. Qed.
Lemma sqnN (x : C) : sqn (- x) = sqn x.
Proof. by case: x => a b; rewrite /sqn /=; rfold; ring. Qed.
Lemma sqn0 : sqn 0 = 0%Re.
Proof. by rewrite /sqn /=; rfold; ring. Qed.

Lemma rowrP m (f : 'I_m -> res R) g : rowr f = Ok g -> forall i, f i = Ok (g i).
Proof.
elim: m f g => [|m IH] f g; first by move=> _ [].
move=> /= H; ubind H x hx; ubind H g' hg; case: H => <- i.
by case: unliftP => [j ->|->] //; exact: IH hg j.
Qed.

Lemma rowr_ok m (f : 'I_m -> res R) : (forall i, exists x, f i = Ok x) -> exists g, rowr f = Ok g.
Proof.
elim: m f => [|m IH] f H; first by eexists.
by rewrite /=; have [x ->] := H ord0; have [g ->] := IH (fun i => f (lift ord0 i)) (fun i => H _); eexists.
Qed.

Section ComplexRun.
Variables (Nx Ny nh : nat).
Variable eig : forall m, 'M[C]_m -> 'rV[C]_m * 'M[C]_m.
Variable pw : planewave.
Hypothesis lam : (0 < pw_lambda pw)%Re.
Hypothesis cth : (0 < cos (pw_theta pw))%Re.
Variable rec : 'M[R]_2.
Variable h : 'I_nh -> order.
Variable form : formulation_t Nx Ny.
Variable i0 : 'I_nh.
Hypothesis hi0 : h i0 = (0%Zc, 0%Zc).
Notation w := (sim_omega pw).
Variable e0 : R.
Hypothesis e0p : (0 < e0)%Re.
Notation kxr := (rkx pw rec h e0).
Notation kyr := (rky pw rec h e0).
Notation g2 := (gam2 w kxr kyr).

Definition gin : R := (Num.sqrt e0 * pw_k0 pw * cos (pw_theta pw))%Re.

Lemma hs0 : (Num.sqrt e0 * Num.sqrt e0)%Re = e0.
Proof. by move/RltP: e0p => p; have := sqr_sqrtr (ltW p); rewrite expr2. Qed.
Lemma hn0 : (0 < Num.sqrt e0)%Re.
Proof. by apply/RltP; rewrite sqrtr_gt0; apply/RltP. Qed.

Lemma gin_pos : (0 < gin)%Re.
Proof. by have := hn0; have := k0_pos lam => k0 n0; rewrite /gin; do !(apply: Rmult_lt_0_compat => //). Qed.

Lemma sqrt_g0 : Num.sqrt (g2 e0 i0) = gin.
Proof.
rewrite i0_gam //.
rewrite (_ : (_ * (_ * _))%Re = gin ^+ 2); last first.
  by rewrite /gin; rfold; rewrite -{1}hs0; ring.
by rewrite sqrtr_sqr ger0_norm //; apply/RleP; left; exact: gin_pos.
Qed.

Lemma normaP e s : norma pw rec h (rc e0) (rc e * 1) = Ok s -> forall i : 'I_nh,
  ((0 < g2 e i)%Re -> s i = Num.sqrt (e0 * (Num.sqrt (g2 e i) / gin))%Re) /\
  ((g2 e i < 0)%Re -> s i = 0).
Proof.
rewrite /norma !mulr1 !sqr_sqrtc.
have -> : csqrt (rc w ^+ 2 * rc e0 - (k0para pw (rc e0)).1 ^+ 2 - (k0para pw (rc e0)).2 ^+ 2) = rc gin.
  rewrite -sqrt_g0.
  have hg : 0 <= g2 e0 i0.
    apply/RleP; left; rewrite i0_gam //; have k0 := k0_pos lam; do !(apply: Rmult_lt_0_compat => //).
  have -> : rc (Num.sqrt (g2 e0 i0)) = csqrt (rc (g2 e0 i0)) by rewrite csqrt_rc hg.
  congr csqrt; rewrite /k0para; cbn [fst snd]; rewrite mulr1 csqrt_rc ltW; last exact/RltP.
  rewrite -!(rmorphM, rmorphX, rmorphB); congr (real_complex R_rcfType _).
  rewrite /gam2 !mxE hi0 /=; rfold; ring.
case: eqP => // _ H i; have := rowrP H i.
have [-> ->] := sim_kE pw rec h e0p.
have -> : csqrt (rc w ^+ 2 * rc e - map_mx (real_complex R_rcfType) kxr ord0 i ^+ 2
            - map_mx (real_complex R_rcfType) kyr ord0 i ^+ 2) = csqrt (rc (g2 e i)).
  congr csqrt; rewrite [map_mx _ kxr _ _]mxE [map_mx _ kyr _ _]mxE.
  rewrite -!(rmorphM, rmorphX, rmorphB); congr (real_complex R_rcfType _).
  by rewrite /gam2; rfold; ring.
have gp := gin_pos; have gn : gin <> 0%Re by lra.
rewrite csqrt_rc (rcV gn) /real_root; case: (leP 0 (g2 e i)) => hg0.
- have hg : (0 <= g2 e i)%Re by apply/RleP.
  rewrite -!rmorphM Re_rc; case: ifP => // _ [<-]; split=> [_|]; last lra.
  by [].
- have hg : (g2 e i < 0)%Re by apply/RltP.
  have -> : complex.Re (rc e0 * ('i * rc (Num.sqrt (- g2 e i)) * rc (/ gin)%Re)) = 0%Re.
    by rewrite /=; rfold; ring.
  by rewrite ltxx => -[<-]; split=> [|_]; [lra|rewrite sqrtr0].
Qed.

Lemma norma_ok e : exists s, norma pw rec h (rc e0) (rc e * 1) = Ok s.
Proof.
rewrite /norma !mulr1 !sqr_sqrtc.
have -> : csqrt (rc w ^+ 2 * rc e0 - (k0para pw (rc e0)).1 ^+ 2 - (k0para pw (rc e0)).2 ^+ 2) = rc gin.
  rewrite -sqrt_g0.
  have hg : 0 <= g2 e0 i0.
    apply/RleP; left; rewrite i0_gam //; have k0 := k0_pos lam; do !(apply: Rmult_lt_0_compat => //).
  have -> : rc (Num.sqrt (g2 e0 i0)) = csqrt (rc (g2 e0 i0)) by rewrite csqrt_rc hg.
  congr csqrt; rewrite /k0para; cbn [fst snd]; rewrite mulr1 csqrt_rc ltW; last exact/RltP.
  rewrite -!(rmorphM, rmorphX, rmorphB); congr (real_complex R_rcfType _).
  rewrite /gam2 !mxE hi0 /=; rfold; ring.
have gp := gin_pos; have gn : gin <> 0%Re by lra.
case: eqP => [[]|_]; first by move/gn.
apply: rowr_ok => i.
have [-> ->] := sim_kE pw rec h e0p.
have -> : csqrt (rc w ^+ 2 * rc e - map_mx (real_complex R_rcfType) kxr ord0 i ^+ 2
            - map_mx (real_complex R_rcfType) kyr ord0 i ^+ 2) = csqrt (rc (g2 e i)).
  congr csqrt; rewrite [map_mx _ kxr _ _]mxE [map_mx _ kyr _ _]mxE.
  rewrite -!(rmorphM, rmorphX, rmorphB); congr (real_complex R_rcfType _).
  by rewrite /gam2; rfold; ring.
rewrite csqrt_rc (rcV gn) /real_root; case: (leP 0 (g2 e i)) => hg0.
- rewrite -!rmorphM Re_rc; case: ifP => [/RltP H|_]; last by eexists.
  exfalso; apply: (Rlt_irrefl 0); apply: Rle_lt_trans H; apply/RleP.
  by rewrite mulr_ge0 ?mulr_ge0 ?sqrtr_ge0 //; apply/RleP; left=> //; exact: Rinv_0_lt_compat.
- have -> : complex.Re (rc e0 * ('i * rc (Num.sqrt (- g2 e i)) * rc (/ gin)%Re)) = 0%Re.
    by rewrite /=; rfold; ring.
  by rewrite ltxx; eexists.
Qed.

Lemma inc_real a : pw_a0 pw = Ok a ->
  let s := (pw_ky pw * a.1 - pw_kx pw * a.2)%Re in
  ((pw_k0 pw * pw_k0 pw * a.2 + pw_kx pw * s = pw_k0 pw * pw_kz pw * pw_cx pw) /\
   (- (pw_k0 pw * pw_k0 pw * a.1 - pw_ky pw * s) = pw_k0 pw * pw_kz pw * pw_cy pw) /\
   s = pw_k0 pw * pw_cz pw)%Re.
Proof.
move=> ha; have [-> ->] := pw_a0_H lam cth ha; have ho := pw_orth pw.
have hk : (pw_k0 pw * pw_k0 pw = pw_kx pw * pw_kx pw + pw_ky pw * pw_ky pw + pw_kz pw * pw_kz pw)%Re.
  by have := pw_gam pw; rewrite /pw_kz => H; lra.
have k0 := k0_pos lam; have kn : pw_k0 pw <> 0%Re by lra.
have cz : (pw_kz pw * pw_cz pw = - (pw_kx pw * pw_cx pw) - pw_ky pw * pw_cy pw)%Re by lra.
move: hk cz kn; move: (pw_kx pw) (pw_ky pw) (pw_kz pw) (pw_k0 pw) (pw_cx pw) (pw_cy pw) (pw_cz pw) => x y z k c d f hk cz kn.
have [A [hA eA]] : exists A, (k * A = y * f - z * d)%Re /\ ((y * f - z * d) / k)%Re = A.
  by eexists; split; [|reflexivity]; field.
have [B [hB eB]] : exists B, (k * B = z * c - x * f)%Re /\ ((z * c - x * f) / k)%Re = B.
  by eexists; split; [|reflexivity]; field.
rewrite eA eB => s.
have hs : s = (k * f)%Re.
  apply: (Rmult_eq_reg_l k) => //; rewrite /s.
  transitivity (y * (k * A) - x * (k * B))%Re; first by ring.
  transitivity (k * k * f)%Re; last by ring.
  rewrite hA hB hk.
  transitivity (f * (x * x + y * y) - z * (x * c + y * d))%Re; first by ring.
  have -> : (x * c + y * d = - (z * f))%Re by lra.
  by ring.
rewrite hs; split; last split => //.
- transitivity (k * (k * B) + k * (x * f))%Re; first by ring.
  by rewrite hB; ring.
- transitivity (- (k * (k * A)) + k * (y * f))%Re; first by ring.
  by rewrite hA; ring.
Qed.

Section Inc.
Variables (t : option R) (l : slayer nh) (a : R * R).
Hypothesis ha : pw_a0 pw = Ok a.
Hypothesis hl : solve_layer eig w (map_mx (real_complex R_rcfType) kxr)
     (map_mx (real_complex R_rcfType) kyr) h form t 1 (EpsUniform Nx Ny (rc e0)) = Ok l.
Notation a0 := (sim_a0 i0 a).
Notation sv' := (sv kxr kyr).
Notation Qu v i := (omega2 w * up v i - rc (kyr ord0 i) * ((rc e0)^-1 * sv' v i)).
Notation Qd v i := (omega2 w * dn v i + rc (kxr ord0 i) * ((rc e0)^-1 * sv' v i)).
Notation qq := (qo w kxr kyr e0).

Lemma inc_E : 
  [/\ Qd a0 i0 / (rc w * qq i0) * rc (Num.sqrt e0) = rc (pw_cx pw),
      - (Qu a0 i0 / (rc w * qq i0)) * rc (Num.sqrt e0) = rc (pw_cy pw) &
      (rc e0)^-1 * (sv' a0 i0 / rc w) * rc (Num.sqrt e0) = rc (pw_cz pw)].
Proof.
have hg : (0 < g2 e0 i0)%Re.
  by rewrite i0_gam //; have k0 := k0_pos lam; do !(apply: Rmult_lt_0_compat => //).
have [h1 [h2 h3]] := inc_real ha.
have k0 := k0_pos lam; have kn : pw_k0 pw <> 0%Re by lra.
have gp := gin_pos; have n0 := hn0; have nn : (Num.sqrt e0 : R) <> 0%Re by lra.
have kz0 : (0 < pw_kz pw)%Re by rewrite /pw_kz; apply: Rmult_lt_0_compat.
have hgin : gin = (Num.sqrt e0 * (pw_k0 pw * cos (pw_theta pw)))%Re by rewrite /gin; ring.
have en : e0 <> 0%Re by lra.
have wg : (pw_k0 pw * gin)%Re <> 0%Re by apply: Rmult_integral_contrapositive; split=> //; lra.
rewrite (qo_pos hg) sqrt_g0 -rmorphM (rcV (wg : (w * gin)%Re <> 0%Re)) (rcV en) (rcV (kn : w <> 0%Re)).
have eu : up a0 i0 = rc a.1 by rewrite /up /sim_a0 col_mxEu mxE eqxx.
have ed : dn a0 i0 = rc a.2 by rewrite /dn /sim_a0 col_mxEd mxE eqxx.
rewrite /sv eu ed !mxE hi0 /omega2 -!(rmorphM, rmorphD, rmorphB, rmorphN); cbn [fst snd].
rewrite hgin -/(pw_kz pw).
have es := hs0; move: (Num.sqrt e0 : R) es n0 nn => n es n0 nn.
split; congr (real_complex R_rcfType _); rewrite -es; rfold; field_simplify_eq => //; rewrite /sim_omega.
- transitivity (n * (pw_k0 pw * pw_kz pw * pw_cx pw))%Re; last by ring.
  by rewrite -h1; ring.
- by do !split=> //; lra.
- transitivity (n * (pw_k0 pw * pw_kz pw * pw_cy pw))%Re; last by ring.
  by rewrite -h2; ring.
- by do !split=> //; lra.
- transitivity (n * (pw_k0 pw * pw_cz pw))%Re; last by ring.
  by rewrite -h3; ring.
Qed.
End Inc.

(** coefficient of the efficiencies *)
Lemma eff_coeff e v t l i s :
  solve_layer eig w (map_mx (real_complex R_rcfType) kxr)
     (map_mx (real_complex R_rcfType) kyr) h form t 1 (EpsUniform Nx Ny (rc e)) = Ok l ->
  (0 < g2 e i)%Re -> s = Num.sqrt (e0 * (Num.sqrt (g2 e i) / gin))%Re ->
  (qr w kxr kyr e v i / g2 e i * (s * s))%Re = ff w kxr kyr e v i / incident_flux pw (rc e0).
Proof.
move=> hl hg es; have w0 := w_neq0 lam; rewrite (ff_pos w0 hl) // flux_E //.
have k0 := k0_pos lam; have gp := gin_pos; have n0 := hn0; have q0 := Nsqrt_gt0 hg.
have hsg : (Num.sqrt (g2 e i) * Num.sqrt (g2 e i))%Re = g2 e i.
  by move/RltP: hg => hg'; have := sqr_sqrtr (ltW hg'); rewrite expr2.
have hp : (0 <= e0 * (Num.sqrt (g2 e i) / gin))%Re.
  left; apply: Rmult_lt_0_compat => //; apply: Rmult_lt_0_compat => //; exact: Rinv_0_lt_compat.
have -> : (s * s)%Re = (e0 * (Num.sqrt (g2 e i) / gin))%Re.
  by rewrite es; move/RleP: hp => hp'; have := sqr_sqrtr hp'; rewrite expr2.
have fp : (cos (pw_theta pw) / Num.sqrt e0)%Re <> 0%Re.
  by apply: Rgt_not_eq; apply: Rmult_lt_0_compat => //; exact: Rinv_0_lt_compat.
rewrite -R_invE // -/(Rdiv _ _).
move: (qr _ _ _ _ _ _) => Qr.
have es0 := hs0; rewrite /gin; clear hp es gp; move: hsg q0; move: (Num.sqrt (g2 e i) : R) => q; move: (g2 e i) hg => g hg <- q0.
rewrite /sim_omega; clear fp; move: es0; move: (Num.sqrt e0 : R) n0 => n n0 es0.
rewrite -[X in (X * (q / _))%Re]es0.
rfold; field; do !split; apply: Rgt_not_eq => //.
Qed.

Lemma phasor0 m (q : 'rV[C]_m) : phasor q 0 = const_mx 1.
Proof. by apply/rowP=> j; rewrite !mxE mulr0 cexp0. Qed.
Lemma vmul1 m (v : 'cV[C]_m) : vmul (const_mx 1) v = v.
Proof. by apply/colP=> j; rewrite !mxE mulr1. Qed.
Lemma vmul0 m (d : 'rV[C]_m) : vmul d 0 = 0.
Proof. by apply/colP=> j; rewrite !mxE mul0r. Qed.

Lemma sqn_phase (x t : R) : sqn (cexp ('i * rc x * rc t)) = 1%Re.
Proof.
have H := sqn_conj (cexp ('i * rc x * rc t)); rewrite -cexp_conj -cexpD !conjM !rc_conj in H.
have ci : conj ('i : C) = - 'i by apply/eqP; rewrite eq_complex /= oppr0 !eqxx.
by move: H; rewrite ci mulNr mulNr subrr cexp0 => -[<-].
Qed.

Lemma bindE (A B : Type) (x : A) (f : A -> res B) : bind (Ok x) f = f x. Proof. by []. Qed.

Definition sqn3 (v : vec3 nh) i : R :=
  (sqn (v_x v i ord0) + sqn (v_y v i ord0) + sqn (v_z v i ord0))%Re.

Lemma eff_ok st0 rest' Sm a0 : smatrix (st0 :: rest') = Ok Sm ->
  exists r, efficiencies w (incident_flux pw (rc e0)) (st0 :: rest') a0 0 = Ok (r : effs nh).
Proof.
move=> hS; rewrite /efficiencies hS [bind _ _]/=.
have q := smatrix_q hS.
rewrite (q st0) ?(q (last st0 rest')); first last.
- by left.
- by case: (rest') => [|x s]; [left|right; elim: s x => [|y s IH] x; [left|right; exact: IH]].
rewrite /= (negPf (w_neq0 lam)).
case: eqP => [e|_]; last by eexists.
by have := flux_pos cth e0p; rewrite e => /Rlt_irrefl.
Qed.

Lemma nth_error_last (T : Type) (x : T) s : List.nth_error (x :: s) (size s) = Some (last x s).
Proof. by elim: s x => [|y s IH] x //=; rewrite -IH. Qed.

Lemma lin1 (p x y u v z s D n : C) :
  (p * (x - y) + u * (v * (z - s))) * D * n - (p * x + u * (v * z)) * D * n = - ((p * y + u * (v * s)) * D) * n.
Proof. by cring. Qed.
Lemma lin2 (p x y u v z s D n : C) :
  - ((p * (x - y) - u * (v * (z - s))) * D) * n - - ((p * x - u * (v * z)) * D) * n = ((p * y - u * (v * s)) * D) * n.
Proof. by cring. Qed.
Lemma lin3 (e z s D n : C) : e * ((z + s) * D) * n - e * (z * D) * n = e * (s * D) * n.
Proof. by cring. Qed.

(** the backward wave at z = 0 has the modulus of the stored amplitude *)
Lemma qr_phase e t l (b : 'cV[C]_(nh + nh)) i th :
  solve_layer eig w (map_mx (real_complex R_rcfType) kxr)
     (map_mx (real_complex R_rcfType) kyr) h form th 1 (EpsUniform Nx Ny (rc e)) = Ok l ->
  (0 < g2 e i)%Re ->
  qr w kxr kyr e (vmul (phasor (sl_q l) t) b) i = qr w kxr kyr e b i.
Proof.
move=> hl hg; have [_ [_ [q1 [q2 _]]]] := l_data hl.
have eu : up (vmul (phasor (sl_q l) t) b) i = cexp ('i * rc (Num.sqrt (g2 e i)) * rc t) * up b i.
  by rewrite /up !mxE q1 (qo_pos hg) mulrC.
have ed : dn (vmul (phasor (sl_q l) t) b) i = cexp ('i * rc (Num.sqrt (g2 e i)) * rc t) * dn b i.
  by rewrite /dn !mxE q2 (qo_pos hg) mulrC.
rewrite /qr /sv eu ed.
have -> : rc (kyr ord0 i) * (cexp ('i * rc (Num.sqrt (g2 e i)) * rc t) * up b i) -
     rc (kxr ord0 i) * (cexp ('i * rc (Num.sqrt (g2 e i)) * rc t) * dn b i) =
     cexp ('i * rc (Num.sqrt (g2 e i)) * rc t) * (rc (kyr ord0 i) * up b i - rc (kxr ord0 i) * dn b i).
  by rewrite mulrBr !mulrA ![rc _ * cexp _]mulrC.
by rewrite !sqn_mul sqn_phase !Rmult_1_l.
Qed.

Section Thm.
Variables (names : seq string) (l0 : layer_in Nx Ny) (rest : seq (layer_in Nx Ny)) (eN : R) (rv tv : vec3 nh).
Hypothesis he0 : li_eps l0 = EpsUniform Nx Ny (rc e0).
Hypothesis heN : li_eps (last l0 rest) = EpsUniform Nx Ny (rc eN).
Hypothesis hsup : name_index "Superstrate" names = Ok 0%N.
Hypothesis hsub : name_index "Substrate" names = Ok (size rest).
Hypothesis hc : run_complex eig pw rec h form names (l0 :: rest) i0 = Ok (rv, tv).

Lemma run_complex_eff : exists r, run_efficiencies eig pw rec h form (l0 :: rest) i0 = Ok r /\
  forall i, sqn3 rv i = r.1 i ord0 /\ sqn3 tv i = r.2 i ord0.
Proof.
move: hc; rewrite /run_complex he0 heN [scalar_eps _]/= [scalar_eps (EpsUniform _ _ (rc eN))]/= => H.
rewrite !bindE in H.
ubind H nt hnt; ubind H nr hnr; rewrite hsub bindE in H; ubind H Ft hFt; rewrite hsup bindE in H; ubind H Fr hFr; case: H => hrv htv.
have [e1 [a [st [h1 [ha [hst hft]]]]]] := run_fieldP hFt.
have ee : e1 = rc e0 by move: h1; rewrite /= he0 => -[->].
subst e1.
have [e1 [a' [st' [h1' [ha' [hst' hfr]]]]]] := run_fieldP hFr.
have ee : e1 = rc e0 by move: h1'; rewrite /= he0 => -[->].
subst e1; have ea : a' = a by move: ha'; rewrite ha => -[].
subst a'; have es : st' = st by move: hst'; rewrite hst => -[].
subst st'.
have [s0 [ss [est [hs0 hss]]]] := mapr_cons hst; subst st.
have ssz : size ss = size rest by apply: mapr_size hss.
rewrite /get_field_fourier -ssz nth_error_last in hft; ubind hft pt hpt; ubind hft pt' hpt'.
rewrite /get_field_fourier [List.nth_error _ _]/= in hfr; ubind hfr pr hpr; ubind hfr pr' hpr'.
rewrite /get_amplitudes eqxx in hpr; ubind hpr Sm hSm; case: hpr => hpr.
have sz0 := smatrix_size hSm.
rewrite /get_amplitudes hSm bindE /= eqxx in hpt.
have ns : (size ss == 0%N) = false by move: sz0; rewrite /=; case: (size ss).
rewrite ns in hpt; case: hpt => hpt.
have [r hr] := eff_ok (sim_a0 i0 a) hSm.
have hrun : run_efficiencies eig pw rec h form (l0 :: rest) i0 = Ok r.
  by rewrite /run_efficiencies he0 [scalar_eps _]/= bindE ha bindE hst bindE.
exists r; split=> // i.
have hN := mapr_last hst; rewrite /= heN in hN; rewrite /= he0 in hs0.
have [ekx eky] := sim_kE pw rec h e0p; rewrite ekx eky in hN hs0 hft hfr.
have hi j : (0 < g2 e0 j)%Re \/ (up (sim_a0 i0 a) j = 0 /\ dn (sim_a0 i0 a) j = 0).
  case: (j =P i0) => [->|/eqP ni].
  - left; rewrite i0_gam //; have k0 := k0_pos lam; do !(apply: Rmult_lt_0_compat => //).
  - by right; rewrite /up /dn /sim_a0 col_mxEu col_mxEd !mxE (negPf ni).
have [Sm' [hS' [q0 [qN [_ []]]]]] := eff_data hs0 hN hi hr.
have eS : Sm' = Sm by move: hS'; rewrite hSm => -[].
subst Sm' => hR hT; have w0 := w_neq0 lam.
have npos e l t : solve_layer eig w (map_mx (real_complex R_rcfType) kxr)
     (map_mx (real_complex R_rcfType) kyr) h form t 1 (EpsUniform Nx Ny (rc e)) = Ok l -> q_ok l ->
     (0 < g2 e i)%Re \/ (g2 e i < 0)%Re.
  move=> hl hq; case: (Rtotal_order (g2 e i) 0) => [hg|[hg|hg]]; [by right| |by left].
  by have := qo_neq0 hl i hq; rewrite /qo hg csqrt_rc lexx sqrtr0 eqxx.
split.
- rewrite hR -hrv /sqn3 /minus_inc /scale3 !mxE.
  have [n1 n2] := normaP hnr i.
  case: (npos _ _ _ hs0 q0) => hg; last first.
    have ni : (i == i0) = false.
      apply/eqP=> ei; move: hg; rewrite ei i0_gam // => /Rlt_not_le; apply; left.
      have k0 := k0_pos lam; do !(apply: Rmult_lt_0_compat => //).
    by rewrite n2 // ni !mul0r !mulr0 !subr0 sqn0 (ff_neg w0 hs0) // mul0r !Rplus_0_r.
  set b0 := (solve_ext Sm (sim_a0 i0 a) 0).2.
  have [t ept] : exists t, pr' = (sim_a0 i0 a, vmul (phasor (sl_q s0) t) b0).
    move: hpr'; rewrite /translate -hpr; case: (sl_thick _) => // t [<-] /=.
    by exists (t - 0)%Re; rewrite phasor0 vmul1.
  rewrite ept in hfr; have [-> -> ->] := field_uniform hs0 i hfr.
  set b' := vmul _ _.
  have hb : qr w kxr kyr e0 b' i = qr w kxr kyr e0 b0 i by rewrite /b' (qr_phase _ _ hs0 hg).
  have en : e0 <> 0%Re by lra.
  have svD (x y : 'cV[C]_(nh + nh)) : sv kxr kyr (x + y) i = sv kxr kyr x i + sv kxr kyr y i.
    by rewrite /sv /up /dn !mxE; cring.
  have svB (x y : 'cV[C]_(nh + nh)) : sv kxr kyr (x - y) i = sv kxr kyr x i - sv kxr kyr y i.
    by rewrite /sv /up /dn !mxE; cring.
  have upB (x y : 'cV[C]_(nh + nh)) : up (x - y) i = up x i - up y i by rewrite /up !mxE.
  have dnB (x y : 'cV[C]_(nh + nh)) : dn (x - y) i = dn x i - dn y i by rewrite /dn !mxE.
  rewrite svB svD upB dnB.
  have key : let Qd v := omega2 w * dn v i + rc (kxr ord0 i) * ((rc e0)^-1 * sv kxr kyr v i) in
             let Qu v := omega2 w * up v i - rc (kyr ord0 i) * ((rc e0)^-1 * sv kxr kyr v i) in
             let o : C := if i == i0 then 1 else 0 in
    [/\ Qd (sim_a0 i0 a) / (rc w * qo w kxr kyr e0 i) * rc (nr i) = o * rc (pw_cx pw),
      - (Qu (sim_a0 i0 a) / (rc w * qo w kxr kyr e0 i)) * rc (nr i) = o * rc (pw_cy pw) &
      (rc e0)^-1 * (sv kxr kyr (sim_a0 i0 a) i / rc w) * rc (nr i) = o * rc (pw_cz pw)].
    move=> Qd Qu o; rewrite /Qd /Qu /o; case: (i =P i0) => [ei|/eqP ni].
    - have enr : nr i = Num.sqrt e0.
        rewrite n1 // ei sqrt_g0 //; congr Num.sqrt; have gp := gin_pos.
        by rfold; field; lra.
      rewrite enr ei !mul1r; exact: (inc_E ha).
    - have e1 : up (sim_a0 i0 a) i = 0 by rewrite /up /sim_a0 col_mxEu mxE (negPf ni).
      have e2 : dn (sim_a0 i0 a) i = 0 by rewrite /dn /sim_a0 col_mxEd mxE (negPf ni).
      by rewrite /sv e1 e2 !(mulr0, mul0r, subr0, addr0, oppr0).
  move: key; cbv zeta; move: (if i == i0 then 1 else 0 : C) => o [k1 k2 k3].
  rewrite -k1 -k2 -k3.
  rewrite lin1 lin2 lin3 !sqn_scale !sqnN -!Rmult_plus_distr_r (one_way w0 hs0 _ hg) hb.
  exact: (eff_coeff _ hs0 hg (n1 hg)).
- rewrite hT -htv /sqn3 /scale3 !mxE.
  have [n1 n2] := normaP hnt i.
  case: (npos _ _ _ hN qN) => hg; last first.
    by rewrite n2 // !mulr0 sqn0 (ff_neg w0 hN) // mul0r !Rplus_0_r.
  have ept : pt' = ((solve_ext Sm (sim_a0 i0 a) 0).1, 0).
    move: hpt'; rewrite /translate -hpt; case: (sl_thick _) => // t [<-] /=.
    by rewrite phasor0 vmul1 vmul0.
  rewrite ept in hft; have [-> -> ->] := field_uniform hN i hft.
  rewrite subr0 addr0 !sqn_scale sqnN.
  rewrite -!Rmult_plus_distr_r (one_way w0 hN _ hg).
  exact: (eff_coeff _ hN hg (n1 hg)).
Qed.
End Thm.
End ComplexRun.

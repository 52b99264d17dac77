(** Power carried by the orders of uniform half spaces, and R + T = 1. *)
From Coq Require Import Reals ZArith Lra.
From mathcomp Require Import all_ssreflect all_algebra.
From mathcomp Require Import complex.
From Verif Require Import RStruct Cplx Cderiv Base Fourier_Model Fourier_Spec Sim_Model Sim_Spec Setup_Model.
From Verif Require Import SMat_Proofs SMat_Proofs2 SMat_Proofs3 Maxwell_Spec Modes_Proofs Maxwell_Proofs.
From Verif Require Import Fourier_Proofs Energy_Spec Energy_Proofs.

Set Implicit Arguments.
Unset Strict Implicit.
Unset Printing Implicit Defensive.

Import Order.TTheory GRing.Theory Num.Theory.
Local Open Scope ring_scope.
Local Open Scope complex_scope.

Lemma half_rc : (2%:R^-1 : C) = rc (/ 2)%Re.
Proof.
have h2 : (2%:R : C) != 0 by rewrite pnatr_eq0.
apply: (mulfI h2); rewrite divff //.
apply/eqP; rewrite eq_complex /=; apply/andP; split; apply/eqP; rfold; field.
Qed.

(** simulation.py:291-296 for one component. *)
Lemma cross_split (Aa Ab pa pb : C) :
  complex.Re (rc (complex.Re (conj Aa * pa)) + 2%:R^-1 * (conj pb * Aa - conj Ab * pa)) +
  complex.Re (- rc (complex.Re (conj Ab * pb)) + conj (2%:R^-1 * (conj pb * Aa - conj Ab * pa))) =
  complex.Re ((Aa - Ab) * conj (pa + pb)).
Proof.
rewrite half_rc; case: Aa => a1 a2; case: Ab => b1 b2; case: pa => p1 p2; case: pb => r1 r2 /=.
by rfold; field.
Qed.

Section P.
Variables (nh : nat) (omega : R).
Notation n2 := (nh + nh)%N.
Implicit Types (l : slayer nh) (p : amp nh).

Definition up (v : 'cV[C]_n2) (i : 'I_nh) : C := v (lshift nh i) ord0.
Definition dn (v : 'cV[C]_n2) (i : 'I_nh) : C := v (rshift nh i) ord0.

Definition Amx l : 'M[C]_n2 :=
  sl_Qeps l *m sl_phi l *m diag_mx (\row_i ((rc omega * sl_q l ord0 i)^-1)).

Lemma usubE (v : 'cV[C]_n2) i : usubmx v i ord0 = up v i. Proof. by rewrite mxE. Qed.
Lemma dsubE (v : 'cV[C]_n2) i : dsubmx v i ord0 = dn v i. Proof. by rewrite mxE. Qed.

Lemma poyntingE l (a b : 'cV[C]_n2) i :
  let c f := f (up (Amx l *m a) i) (up (Amx l *m b) i) (up (sl_phi l *m a) i) (up (sl_phi l *m b) i) +
             f (dn (Amx l *m a) i) (dn (Amx l *m b) i) (dn (sl_phi l *m a) i) (dn (sl_phi l *m b) i) in
  ((poynting omega l a b).1 i ord0 =
   c (fun Aa Ab pa pb => complex.Re (rc (complex.Re (conj Aa * pa)) + 2%:R^-1 * (conj pb * Aa - conj Ab * pa)))) /\
  ((poynting omega l a b).2 i ord0 =
   c (fun Aa Ab pa pb => complex.Re (- rc (complex.Re (conj Ab * pb)) + conj (2%:R^-1 * (conj pb * Aa - conj Ab * pa))))).
Proof.
move=> c; rewrite /c /poynting /= -/(Amx l).
set fx := (\col_i (rc _ + _)); set bx := (\col_i (- rc _ + _)).
by split; rewrite mxE [X in complex.Re X]mxE Re_add usubE dsubE /up /dn /fx /bx !mxE.
Qed.

Lemma poynting_sum l a b i :
  (poynting omega l a b).1 i ord0 + (poynting omega l a b).2 i ord0 =
  complex.Re (up (Amx l *m (a - b)) i * conj (up (sl_phi l *m (a + b)) i)) +
  complex.Re (dn (Amx l *m (a - b)) i * conj (dn (sl_phi l *m (a + b)) i)).
Proof.
have [-> ->] := poyntingE l a b i.
rewrite addrACA !cross_split mulmxBr mulmxDr.
by rewrite /up /dn !(mxE, conjD); congr (_ + _); congr complex.Re; rewrite ?mxE.
Qed.

Lemma Amx_mul l v : Amx l *m v = sl_Qeps l *m (sl_phi l *m \col_i (v i ord0 / (rc omega * sl_q l ord0 i))).
Proof.
rewrite /Amx -!mulmxA; congr (_ *m (_ *m _)).
by rewrite mul_diag_mx; apply/colP=> i; rewrite !mxE mulrC.
Qed.

(** Forward + backward is the flux of the field. *)
Lemma poynting_field kx ky l a b F i : field_of omega kx ky l (a, b) = Ok F ->
  (poynting omega l a b).1 i ord0 + (poynting omega l a b).2 i ord0 = order_flux F i.
Proof.
rewrite poynting_sum /field_of; case: ifP => // _ /= H; ubind H ez hez; case: H => <- /=.
rewrite /order_flux /= -Re_add; congr complex.Re.
have eN (v : 'cV[C]_nh) : (- v) i ord0 = - v i ord0 by rewrite mxE.
by rewrite -Amx_mul eN mulNr opprK addrC !usubE !dsubE.
Qed.

Definition trp l z p : 'cV[C]_n2 * 'cV[C]_n2 := (\col_m fwd l z p m, \col_m bwd l z p m).

Lemma lflux_poynting l p z :
  lflux omega l p z = \sum_i ((poynting omega l (trp l z p).1 (trp l z p).2).1 i ord0 +
                              (poynting omega l (trp l z p).1 (trp l z p).2).2 i ord0).
Proof.
rewrite /lflux /tflux /dot big_split_ord /= Re_add !Re_sum -big_split; apply: eq_bigr => i _.
rewrite poynting_sum mode_HE Amx_mul.
have -> : mode_E omega l z p = sl_Qeps l *m (sl_phi l *m
  \col_i (((trp l z p).1 - (trp l z p).2) i ord0 / (rc omega * sl_q l ord0 i))).
  rewrite mode_EE -mulmxA scale_cols_mul !scalemxAr; congr (_ *m (_ *m _)).
  by apply/colP=> j; rewrite !mxE invfM mulrCA.
by [].
Qed.
End P.

(** Square root of a real number. *)
Lemma csqrt_rc (x : R) : csqrt (rc x) =
  if (0 <= x) then rc (Num.sqrt x) else 'i * rc (Num.sqrt (- x)).
Proof.
rewrite /csqrt /sqrtc /=.
have -> : Num.sqrt (x ^+ 2 + 0 ^+ 2) = `|x| by rewrite expr0n /= addr0 sqrtr_sqr.
rewrite eqxx mul1r; case: ifP => hx.
- rewrite ger0_norm // subrr mul0r sqrtr0.
  by have -> : (x + x) / 2%:R = x by rewrite mulrDl -splitr.
- have x0 : x <= 0 by rewrite leNgt; apply/negP=> x0; move: hx; rewrite ltW.
  rewrite ler0_norm // addNr mul0r sqrtr0.
  have -> : (- x - x) / 2%:R = - x by rewrite mulrDl -splitr.
  by apply/eqP; rewrite eq_complex /= !mul0r !mulr0 mul1r subrr add0r !eqxx.
Qed.

Section Uniform.
Variables (Nx Ny nh : nat).
Variable eig : forall m, 'M[C]_m -> 'rV[C]_m * 'M[C]_m.
Variable omega : R.
Hypothesis omega_neq0 : rc omega != 0.
Variables kxr kyr : 'rV[R]_nh.
Variable h : 'I_nh -> order.
Variable form : formulation_t Nx Ny.
Notation n2 := (nh + nh)%N.
Let kx : 'rV[C]_nh := map_mx (real_complex R_rcfType) kxr.
Let ky : 'rV[C]_nh := map_mx (real_complex R_rcfType) kyr.
Notation w2 := (omega2 omega).
Variables (thick : option R) (e : R) (l : slayer nh).
Hypothesis hl : solve_layer eig omega kx ky h form thick 1 (EpsUniform Nx Ny (rc e)) = Ok l.

(** squared z-wavenumber *)
Definition gam2 i : R := (e * (omega * omega) - kxr ord0 i * kxr ord0 i - kyr ord0 i * kyr ord0 i)%Re.

Lemma e_neq0 : rc e != 0.
Proof.
move: hl; rewrite /solve_layer /build_matrix; case: eqP => //= /eqP //.
Qed.

Definition qo i : C := csqrt (rc (gam2 i)).

Lemma l_data : sl_phi l = 1%:M /\ sl_thick l = thick /\
  (forall i, sl_q l ord0 (lshift nh i) = qo i) /\ (forall i, sl_q l ord0 (rshift nh i) = qo i) /\
  sl_Qeps l = w2%:M - build_Kmatrix ((rc e)^-1)%:M (diag_mx ky) (- diag_mx kx).
Proof.
move: hl; rewrite /solve_layer /build_matrix (negPf e_neq0) /= => -[<-] /=.
have hq i : csqrt (rc e * 1 * w2 - kx ord0 i ^+ 2 - ky ord0 i ^+ 2) = qo i.
  rewrite /qo; congr csqrt; rewrite !mxE mulr1 /omega2.
  by apply/eqP; rewrite eq_complex /=; apply/andP; split; apply/eqP; rfold; rewrite /gam2; ring.
split=> //; split=> //; split.
  by move=> i; rewrite /uniform_q row_mxEl mxE hq.
split; first by move=> i; rewrite /uniform_q row_mxEr mxE hq.
by rewrite Pmu1 scale_scalar_mx mulr1.
Qed.

Definition sv (a : 'cV[C]_n2) i : C := rc (kyr ord0 i) * up a i - rc (kxr ord0 i) * dn a i.
(** conj b . Q a for one order *)
Definition qf (a b : 'cV[C]_n2) i : C :=
  w2 * (up a i * conj (up b i) + dn a i * conj (dn b i)) - (rc e)^-1 * (sv a i * conj (sv b i)).

Lemma qf_herm a b i : conj (qf a b i) = qf b a i.
Proof.
rewrite /qf conjD conjN !conjM conjD !conjM !conjK conjV !rc_conj.
rewrite /w2 /omega2 ?rc_conj; cring.
Qed.

Lemma Q_col (v : 'cV[C]_n2) i :
  up (sl_Qeps l *m v) i = w2 * up v i - rc (kyr ord0 i) * ((rc e)^-1 * sv v i) /\
  dn (sl_Qeps l *m v) i = w2 * dn v i + rc (kxr ord0 i) * ((rc e)^-1 * sv v i).
Proof.
have [_ [_ [_ [_ hQ]]]] := l_data.
have hv := Qeps_apply omega kx ky ((rc e)^-1)%:M (usubmx v) (dsubmx v).
rewrite vsubmxK -hQ in hv.
rewrite /up /dn hv col_mxEu col_mxEd.
have e1 : usubmx v i ord0 = up v i by rewrite mxE.
have e2 : dsubmx v i ord0 = dn v i by rewrite mxE.
rewrite !mul_diag_mx !mul_scalar_mx; clear hv; move: (usubmx v) (dsubmx v) e1 e2 => u d e1 e2.
by rewrite !mxE e1 e2 /sv.
Qed.

Lemma A_uniform (a : 'cV[C]_n2) i :
  up (Amx omega l *m a) i = up (sl_Qeps l *m a) i / (rc omega * qo i) /\
  dn (Amx omega l *m a) i = dn (sl_Qeps l *m a) i / (rc omega * qo i).
Proof.
have [hphi [_ [q1 [q2 _]]]] := l_data.
rewrite Amx_mul hphi mul1mx; set v := (\col_i _).
have [-> ->] := Q_col v i; have [-> ->] := Q_col a i.
have e1 : up v i = up a i / (rc omega * qo i) by rewrite /up /v mxE q1.
have e2 : dn v i = dn a i / (rc omega * qo i) by rewrite /dn /v mxE q2.
rewrite /sv e1 e2; move: (rc omega * qo i)^-1 => d.
by split; cring.
Qed.

Definition ff (a : 'cV[C]_n2) i : R := complex.Re (qf a a i / (rc omega * qo i)).
Definition cross (a b : 'cV[C]_n2) i : R :=
  complex.Re (2%:R^-1 * (qf a b i / (rc omega * qo i) - conj (qf b a i / (rc omega * qo i)))).

Lemma Re_rc x : complex.Re (rc x) = x. Proof. by []. Qed.

Lemma poynting_uniform a b i :
  (poynting omega l a b).1 i ord0 = ff a i + cross a b i /\
  (poynting omega l a b).2 i ord0 = - ff b i + cross a b i.
Proof.
have [hphi _] := l_data.
have [-> ->] := poyntingE omega l a b i; rewrite hphi !mul1mx.
have [a1 a2] := A_uniform a i; have [b1 b2] := A_uniform b i.
have Qf x y : up (Amx omega l *m x) i * conj (up y i) + dn (Amx omega l *m x) i * conj (dn y i) =
  qf x y i / (rc omega * qo i).
  have [-> ->] := A_uniform x i; have [-> ->] := Q_col x i.
  have hc : conj (sv y i) = rc (kyr ord0 i) * conj (up y i) - rc (kxr ord0 i) * conj (dn y i).
    by rewrite /sv conjD conjN !conjM !rc_conj.
  by rewrite /qf hc; move: (rc omega * qo i)^-1 (sv x i) => d s; cring.
have Rc (x y : C) : complex.Re (conj x * y) = complex.Re (x * conj y).
  by rewrite -(cRe_conj (conj x * y)) conjM conjK.
have X : complex.Re (2%:R^-1 * (conj (up b i) * up (Amx omega l *m a) i - conj (up (Amx omega l *m b) i) * up a i)) +
  complex.Re (2%:R^-1 * (conj (dn b i) * dn (Amx omega l *m a) i - conj (dn (Amx omega l *m b) i) * dn a i)) = cross a b i.
  rewrite -Re_add /cross -!Qf -mulrDr; congr (complex.Re (_ * _)).
  by rewrite conjD !conjM !conjK; cring.
split.
- by rewrite !Re_add !Re_rc !Rc addrACA X -Re_add Qf.
- by rewrite !Re_add !Re_opp !Re_rc !Rc !cRe_conj addrACA X -opprD -Re_add Qf.
Qed.

Definition sqn (x : C) : R := (complex.Re x * complex.Re x + complex.Im x * complex.Im x)%Re.

Lemma sqn_conj x : x * conj x = rc (sqn x).
Proof.
case: x => a b; rewrite /sqn /=; apply/eqP; rewrite eq_complex /=.
by apply/andP; split; apply/eqP; rfold; ring.
Qed.

Definition qr (a : 'cV[C]_n2) i : R :=
  ((omega * omega) * (sqn (up a i) + sqn (dn a i)) - / e * sqn (sv a i))%Re.

Lemma e_neq0' : e <> 0%Re.
Proof. by move=> e0; move: e_neq0; rewrite e0 => /eqP; apply. Qed.

Lemma rcV (x : R) : x <> 0%Re -> (rc x)^-1 = rc (/ x)%Re.
Proof.
move=> x0; have x0' : rc x != 0 by apply/eqP=> -[].
apply: (mulfI x0'); rewrite divff // -rmorphM; congr (real_complex R_rcfType _).
by change (1%Re = (x * / x)%Re); field.
Qed.

Lemma qf_qr a i : qf a a i = rc (qr a i).
Proof.
rewrite /qf !sqn_conj (rcV e_neq0') /omega2 -!(rmorphM, rmorphD, rmorphB).
by congr (real_complex R_rcfType _); rewrite /qr; rfold; ring.
Qed.

Lemma qr_ge0 a i : (0 < gam2 i)%Re -> (0 <= qr a i)%Re.
Proof.
move=> hg; rewrite /qr.
have CS : (sqn (sv a i) <= (kyr ord0 i * kyr ord0 i + kxr ord0 i * kxr ord0 i) * (sqn (up a i) + sqn (dn a i)))%Re.
  rewrite /sv; case: (up a i) => x1 x2; case: (dn a i) => y1 y2; rewrite /sqn /=.
  move: (kxr ord0 i) (kyr ord0 i) => p q; rfold.
  have := Rle_0_sqr (p * x1 + q * y1); have := Rle_0_sqr (p * x2 + q * y2).
  rewrite /Rsqr; nra.
have n0 : (0 <= sqn (up a i) + sqn (dn a i))%Re.
  rewrite /sqn; have H x := Rle_0_sqr x; rewrite /Rsqr in H.
  have := H (complex.Re (up a i)); have := H (complex.Im (up a i)).
  by have := H (complex.Re (dn a i)); have := H (complex.Im (dn a i)); lra.
have s0 : (0 <= sqn (sv a i))%Re.
  rewrite /sqn; have H x := Rle_0_sqr x; rewrite /Rsqr in H.
  by have := H (complex.Re (sv a i)); have := H (complex.Im (sv a i)); lra.
move: hg CS n0 s0; rewrite /gam2.
move: (sqn (up a i) + sqn (dn a i))%Re (sqn (sv a i)) (kxr ord0 i) (kyr ord0 i) => n s p q hg CS n0 s0.
have e0 : (0 < e)%Re.
  case: (Rlt_le_dec 0 e) => // e0; exfalso.
  have := Rle_0_sqr p; have := Rle_0_sqr q; have := Rle_0_sqr omega; rewrite /Rsqr; nra.
apply: (Rmult_le_reg_l e) => //.
have -> : (e * (omega * omega * n - / e * s) = e * (omega * omega) * n - s)%Re by field; lra.
nra.
Qed.

Lemma Nsqrt_gt0 (x : R) : (0 < x)%Re -> (0 < (Num.sqrt x : R))%Re.
Proof. by move=> /RltP h0; apply/RltP; rewrite sqrtr_gt0. Qed.

Lemma qo_pos i : (0 < gam2 i)%Re -> qo i = rc (Num.sqrt (gam2 i)).
Proof. by move=> /RltP hg; rewrite /qo csqrt_rc ltW. Qed.
Lemma qo_neg i : (gam2 i < 0)%Re -> qo i = 'i * rc (Num.sqrt (- gam2 i)).
Proof. by move=> /RltP hg; rewrite /qo csqrt_rc leNgt hg. Qed.

Lemma w0' : omega <> 0%Re.
Proof. by move=> e0; move: omega_neq0; rewrite e0 => /eqP; apply. Qed.

Lemma ff_pos a i : (0 < gam2 i)%Re -> ff a i = (qr a i / (omega * Num.sqrt (gam2 i)))%Re.
Proof.
move=> hg; have h1 := Nsqrt_gt0 hg.
have h2 : (omega * (Num.sqrt (gam2 i) : R))%Re <> 0%Re.
  by apply: Rmult_integral_contrapositive; split; [exact: w0'|lra].
by rewrite /ff qf_qr (qo_pos hg) -rmorphM (rcV h2) -rmorphM.
Qed.

Lemma ff_ge0 a i : (0 < omega)%Re -> (0 < gam2 i)%Re -> (0 <= ff a i)%Re.
Proof.
move=> w0 hg; rewrite ff_pos //; have h1 := Nsqrt_gt0 hg.
apply: Rmult_le_pos; first exact: qr_ge0.
by left; apply: Rinv_0_lt_compat; apply: Rmult_lt_0_compat.
Qed.

Lemma i_inv : ('i : C)^-1 = - 'i.
Proof.
have i0 : ('i : C) != 0 by apply/eqP=> -[/eqP]; rewrite oner_eq0.
apply: (mulfI i0); rewrite divff //; apply/eqP; rewrite eq_complex /=.
by apply/andP; split; apply/eqP; rfold; ring.
Qed.

Lemma inv_wq_neg i : (gam2 i < 0)%Re ->
  (rc omega * qo i)^-1 = - 'i * rc (/ (omega * Num.sqrt (- gam2 i)))%Re.
Proof.
move=> hg; rewrite (qo_neg hg) mulrCA invfM i_inv -rmorphM rcV //.
apply: Rmult_integral_contrapositive; split; first exact: w0'.
have : (0 < (Num.sqrt (- gam2 i)%Re : R))%Re by apply: Nsqrt_gt0; lra.
by move=> h1 h2; move: h1; change (- gam2 i)%Re with (- gam2 i : R); rewrite h2; lra.
Qed.

Lemma ff_neg a i : (gam2 i < 0)%Re -> ff a i = 0.
Proof.
move=> hg; rewrite /ff qf_qr inv_wq_neg // mulrCA mulNr -rmorphM Re_opp Re_iM ?oppr0 //.
exact: rc_conj.
Qed.

Lemma cross_real a b i : (0 < gam2 i)%Re -> cross a b i = 0.
Proof.
move=> hg; rewrite /cross conjM qf_herm (qo_pos hg) -rmorphM conjV rc_conj subrr mulr0 //.
Qed.

Lemma cross_0 a b i : (up a i = 0 /\ dn a i = 0) \/ (up b i = 0 /\ dn b i = 0) -> cross a b i = 0.
Proof.
have z x y : (up x i = 0 /\ dn x i = 0) -> qf x y i = 0 /\ qf y x i = 0.
  move=> [h1 h2]; have hx y' : qf x y' i = 0 by rewrite /qf /sv h1 h2; cring.
  by split=> //; rewrite -qf_herm hx; exact: (conj_nat 0).
by rewrite /cross => -[/z|/z] H; [have [-> ->] := H b|have [-> ->] := H a];
  rewrite !mul0r (_ : conj 0 = 0) ?subrr ?mulr0 //; exact: (conj_nat 0).
Qed.

(** Propagation does not change the power of a single wave. *)
Lemma sqnM x y : sqn (x * y) = (sqn x * sqn y)%Re.
Proof. by case: x => a b; case: y => c d; rewrite /sqn /=; rfold; ring. Qed.

Lemma sqn_phase (q z : R) : sqn (cexp ('i * rc q * rc z)) = 1%Re.
Proof.
rewrite -mulrA -rmorphM cexp_i2pi /sqn /=; have := sin2_cos2 (q * z)%Re; rewrite /Rsqr; rfold; lra.
Qed.

Lemma ff_phase (a a' : 'cV[C]_n2) (z : R) i : qo i != 0 ->
  up a' i = up a i * cexp ('i * qo i * rc z) -> dn a' i = dn a i * cexp ('i * qo i * rc z) ->
  ff a' i = ff a i.
Proof.
move=> hq h1 h2.
case: (Rtotal_order (gam2 i) 0) => [hg|[hg|hg]].
- by rewrite !ff_neg.
- by move: hq; rewrite /qo hg csqrt_rc lexx sqrtr0 eqxx.
- rewrite !ff_pos //; congr (_ / _)%Re; rewrite /qr.
  have -> : sv a' i = sv a i * cexp ('i * qo i * rc z) by rewrite /sv h1 h2; cring.
  by rewrite h1 h2 !sqnM (qo_pos hg) sqn_phase !Rmult_1_r.
Qed.

Lemma ff_zero (a : 'cV[C]_n2) i : up a i = 0 -> dn a i = 0 -> ff a i = 0.
Proof. by move=> h1 h2; rewrite /ff /qf /sv h1 h2 !(mulr0, mul0r, addr0, subr0). Qed.

Definition no_cross (a b : 'cV[C]_n2) : Prop := forall i,
  (0 < gam2 i)%Re \/ (up a i = 0 /\ dn a i = 0) \/ (up b i = 0 /\ dn b i = 0).

Lemma no_cross0 a b i : no_cross a b -> cross a b i = 0.
Proof. by move=> /(_ i) [hg|H]; [apply: cross_real|apply: cross_0]. Qed.

Lemma qo_neq0 i : q_ok l -> qo i != 0.
Proof. by move=> /forallP /(_ (lshift nh i)); have [_ [_ [-> _]]] := l_data. Qed.

Lemma lflux_uniform p z : q_ok l -> no_cross p.1 p.2 ->
  lflux omega l p z = \sum_i (ff p.1 i - ff p.2 i).
Proof.
move=> hq hc; rewrite lflux_poynting; apply: eq_bigr => i _.
have [_ [_ [q1 [q2 _]]]] := l_data.
have hc' : no_cross (trp l z p).1 (trp l z p).2.
  move=> j; case: (hc j) => [hg|[[h1 h2]|[h1 h2]]]; [by left|right; left|right; right].
  - by rewrite /up /dn !mxE /fwd -/(up _ _) -/(dn _ _) h1 h2 !mul0r.
  - by rewrite /up /dn !mxE /bwd -/(up _ _) -/(dn _ _) h1 h2 !mul0r.
have [-> ->] := poynting_uniform (trp l z p).1 (trp l z p).2 i.
rewrite !no_cross0 // !addr0; congr (_ - _); apply: ff_phase; try exact: qo_neq0.
- by rewrite /up mxE /fwd q1.
- by rewrite /dn mxE /fwd q2.
- by rewrite /up mxE /bwd q1.
- by rewrite /dn mxE /bwd q2.
Qed.
End Uniform.

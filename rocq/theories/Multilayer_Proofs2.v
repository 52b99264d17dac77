(** Stacks of homogeneous layers: reflectances and transmittances of a simulation. *)
From Coq Require Import Reals ZArith Lra.
From mathcomp Require Import all_ssreflect all_algebra.
From mathcomp Require Import complex.
From Verif Require Import RStruct Cplx Base Fourier_Model Sim_Model Sim_Spec Setup_Model SMat_Proofs.
From Verif Require Import Maxwell_Spec Modes_Proofs Energy_Spec Energy_Proofs Energy_Proofs2 Energy_Proofs3.
From Verif Require Import Orders_Model Orders_Proofs Passive_Proofs Recip_Proofs3 Optics_Spec Multilayer_Spec.
From Verif Require Import Fourier_Spec Fourier_Proofs Multilayer_Proofs.

Set Implicit Arguments.
Unset Strict Implicit.
Unset Printing Implicit Defensive.

Import Order.TTheory GRing.Theory Num.Theory.
Local Open Scope ring_scope.
Local Open Scope complex_scope.

Lemma polar (x y : R) : exists K c s : R, (x = K * c /\ y = K * s /\ c * c + s * s = 1)%Re.
Proof.
case: (Req_EM_T (x * x + y * y) 0) => [e|n].
- have := Rle_0_sqr x; have := Rle_0_sqr y; rewrite /Rsqr => h1 h2.
  have x0 : x = 0%Re by apply: Rsqr_0_uniq; rewrite /Rsqr; lra.
  have y0 : y = 0%Re by apply: Rsqr_0_uniq; rewrite /Rsqr; lra.
  by exists 0%Re, 1%Re, 0%Re; rewrite x0 y0; lra.
- have p : (0 < x * x + y * y)%Re.
    by have := Rle_0_sqr x; have := Rle_0_sqr y; rewrite /Rsqr; lra.
  have sp := sqrt_lt_R0 _ p; have ss := sqrt_sqrt _ (Rlt_le _ _ p).
  move: (sqrt _) sp ss => K sp ss.
  exists K, (x / K)%Re, (y / K)%Re; split; first by field; lra.
  split; first by field; lra.
  by have -> : (x / K * (x / K) + y / K * (y / K) = (x * x + y * y) / (K * K))%Re; [field; lra|rewrite -ss; field; lra].
Qed.

Lemma last_in (T : Type) (x : T) s : List.In (last x s) (x :: s).
Proof. by elim: s x => [|y s IH] x; [left|right; exact: IH]. Qed.

Section Order.
Variables (Nx Ny nh : nat).
Variable eig : forall m, 'M[C]_m -> 'rV[C]_m * 'M[C]_m.
Variable omega : R.
Hypothesis omega_neq0 : rc omega != 0.
Variables kxr kyr : 'rV[R]_nh.
Variable h : 'I_nh -> order.
Variable form : formulation_t Nx Ny.
Variable i : 'I_nh.
Notation n2 := (nh + nh)%N.
Notation w2 := (omega2 omega).
Let kx : 'rV[C]_nh := map_mx (real_complex R_rcfType) kxr.
Let ky : 'rV[C]_nh := map_mx (real_complex R_rcfType) kyr.
Notation sol := (fun li : layer_in Nx Ny => solve_layer eig omega kx ky h form (li_thick li) 1 (li_eps li)).
Notation qu' e := (qu omega kx ky e i).
Variables K c s : R.
Hypothesis hx : kxr ord0 i = (K * c)%Re.
Hypothesis hy : kyr ord0 i = (K * s)%Re.
Hypothesis hcs : (c * c + s * s = 1)%Re.

Definition al pol : C := match pol with TE => rc c | TM => - rc s end.
Definition be pol : C := match pol with TE => rc s | TM => rc c end.
Definition kap pol e : C := match pol with TE => w2 | TM => qu' e ^+ 2 / e end.
Notation cm pol := (comp i (al pol) (be pol)).
Notation et' pol := (et omega kx ky i (kap pol)).

Lemma w2E : w2 = rc omega * rc omega.
Proof. by apply/eqP; rewrite eq_complex /=; apply/andP; split; apply/eqP; rfold; ring. Qed.
Lemma kxE : kx ord0 i = rc K * rc c.
Proof. by rewrite mxE hx; apply/eqP; rewrite eq_complex /=; apply/andP; split; apply/eqP; rfold; ring. Qed.
Lemma kyE : ky ord0 i = rc K * rc s.
Proof. by rewrite mxE hy; apply/eqP; rewrite eq_complex /=; apply/andP; split; apply/eqP; rfold; ring. Qed.
Lemma csE : rc c * rc c + rc s * rc s = 1.
Proof. by rewrite -!rmorphM -rmorphD; congr (real_complex R_rcfType _). Qed.
Lemma csE' : rc c * rc c = 1 - rc s * rc s.
Proof. by rewrite -csE addrK. Qed.

Lemma q2E e : qu' e ^+ 2 = e * (rc omega * rc omega) - rc K * rc K.
Proof.
rewrite /qu sqr_sqrtc kxE kyE w2E.
transitivity (e * (rc omega * rc omega) - rc K * rc K * (rc c * rc c + rc s * rc s)); first by cring.
by rewrite csE mulr1.
Qed.

Lemma kap_eigen pol e t l v : e != 0 ->
  solve_layer eig omega kx ky h form t 1 (EpsUniform Nx Ny e) = Ok l ->
  cm pol (sl_Qeps l *m v) = kap pol e * cm pol v.
Proof.
move=> e0 hl; rewrite /comp; have [-> ->] := Qu_col hl v i.
rewrite /su kxE kyE.
case: pol; rewrite /al /be /kap.
- by move: (up v i) (dn v i) => a b; cring.
- rewrite q2E w2E; move: (up v i) (dn v i) e0 csE' => a b /eqP e0.
  move: (rc c) (rc s) (rc K) (rc omega) => C0 S0 K0 W hcs'.
  have e1 : - S0 * (W * W * a - K0 * S0 * (e^-1 * (K0 * S0 * a - K0 * C0 * b))) +
     C0 * (W * W * b + K0 * C0 * (e^-1 * (K0 * S0 * a - K0 * C0 * b))) =
     W * W * (- S0 * a + C0 * b) + (C0 * C0 + S0 * S0) * K0 * K0 / e * (S0 * a - C0 * b) by cfield.
  by rewrite e1 hcs' subrK; cfield.
Qed.

Lemma kap_nz pol e t l : solve_layer eig omega kx ky h form t 1 (EpsUniform Nx Ny e) = Ok l ->
  q_ok l -> kap pol e != 0.
Proof.
move=> hl hq; case: pol; rewrite /kap; first by rewrite w2E mulf_neq0.
by rewrite mulf_neq0 ?expf_neq0 ?invr_eq0 ?(uq i hl hq) ?(ue hl).
Qed.

Lemma quE e : qu' e = kz omega (K * K)%Re e.
Proof.
rewrite /kz /qu kxE kyE; congr csqrt.
rewrite /omega2; set W := rc (omega * omega)%Re.
have -> : rc (K * K)%Re = rc K * rc K by rewrite -rmorphM.
transitivity (e * W - rc K * rc K * (rc c * rc c + rc s * rc s)); first by cring.
by rewrite csE mulr1.
Qed.

Lemma etE pol e t l : solve_layer eig omega kx ky h form t 1 (EpsUniform Nx Ny e) = Ok l ->
  q_ok l -> et' pol e = eta omega (K * K)%Re pol e.
Proof.
move=> hl hq; have e0 := ue hl; have q0 := uq i hl hq.
rewrite /et /eta -!quE; case: pol; rewrite /kap ?w2E.
- by move: omega_neq0 => /eqP w0; cfield.
- by move: e0 q0 => /eqP e0 /eqP q0; cfield.
Qed.

Lemma asmE pol eN mid l st tN : let f := asm omega kx ky i (kap pol) mid eN in
  mapr sol ([seq mk Nx Ny ed | ed <- mid] ++ [:: LayerIn tN (EpsUniform Nx Ny eN)]) = Ok (l :: st) ->
  (forall l', l' = l \/ List.In l' st -> q_ok l') ->
  f = assembly omega (K * K)%Re pol mid eN.
Proof.
elim: mid l st => [|[e d] mid IH] l st f hm hq.
- have [l1 [st1 [[e1 e2] [h1 h2]]]] := mapr_cons hm; subst l1 st1.
  by rewrite /f /= (etE pol h1) //; apply: hq; left.
- have [l1 [st1 [[e1 e2] [h1 h2]]]] := mapr_cons hm; subst l1 st1.
  case: st hm hq h2 => [|l' st] hm hq h2.
    by move: h2; case: (mid) => [|a r] h2; have [? [? [? _]]] := mapr_cons h2.
  rewrite /f [asm _ _ _ _ _ _ _]/= (IH l' st) //.
    by rewrite (etE pol h1) ?quE //; apply: hq; left.
  by move=> l'' [->|hl'']; apply: hq; right; [left|right].
Qed.

(** Flux of a wave going one way *)
Lemma flux_pol t e l v : solve_layer eig omega kx ky h form t 1 (EpsUniform Nx Ny e) = Ok l -> q_ok l ->
  (poynting omega l v 0).1 i ord0 =
  (complex.Re (eta omega (K * K)%Re TE e)^-1 * sqn (cm TE v) + complex.Re (eta omega (K * K)%Re TM e)^-1 * sqn (cm TM v))%Re.
Proof.
move=> hl hq; have [-> _] := poyntingE omega l v 0 i.
have [hphi [q1 [q2 _]]] := u_data hl; rewrite hphi !mul1mx mulmx0.
have z1 : up (0 : 'cV[C]_n2) i = 0 by rewrite /up mxE.
have z2 : dn (0 : 'cV[C]_n2) i = 0 by rewrite /dn mxE.
rewrite z1 z2 !conj0 !mul0r subrr mulr0 !addr0 !Re_rc -Re_add.
set A := Amx omega l *m v.
have hA pol : cm pol A = cm pol v / eta omega (K * K)%Re pol e.
  rewrite -(etE pol hl hq) /A Amx_mul hphi mul1mx (kap_eigen pol _ (ue hl) hl) /et.
  set u := (\col_j _).
  have -> : cm pol u = cm pol v / (rc omega * qu' e).
    by rewrite /comp /up /dn /u !mxE q1 q2; cring.
  move: omega_neq0 (uq i hl hq) (kap_nz pol hl hq) => /eqP n1 /eqP n2' /eqP n3; cfield; by do !split.
have rot : conj (up A i) * up v i + conj (dn A i) * dn v i =
   conj (cm TE A) * cm TE v + conj (cm TM A) * cm TM v.
  rewrite /comp /al /be !conjD !conjM conjN !rc_conj.
  move: (up A i) (dn A i) (up v i) (dn v i) => a b x y.
  transitivity ((rc c * rc c + rc s * rc s) * (conj a * x + conj b * y)); first by rewrite csE mul1r.
  by cring.
rewrite rot !hA !conjM.
have sw (x y : C) : complex.Re (conj x * conj y * x) = (complex.Re y * sqn x)%Re.
  case: x => x1 x2; case: y => y1 y2; rewrite /sqn /=; rfold; ring.
by rewrite Re_add !sw.
Qed.

(** The scattering problem of a stack of homogeneous layers *)
Section Stack.
Variables (t0 tN : option R) (e0 eN : C) (mid : seq (C * R)) (l0 l : slayer nh) (st : seq (slayer nh)).
Variables (Sm : smat nh).
Hypothesis h0 : solve_layer eig omega kx ky h form t0 1 (EpsUniform Nx Ny e0) = Ok l0.
Hypothesis hm : mapr sol ([seq mk Nx Ny ed | ed <- mid] ++ [:: LayerIn tN (EpsUniform Nx Ny eN)]) = Ok (l :: st).
Hypothesis hS : smatrix [:: l0, l & st] = Ok Sm.
Notation D pol := (denominator omega (K * K)%Re pol e0 mid eN).
Notation Eta pol e := (eta omega (K * K)%Re pol e).
Notation ph := (cexp ('i * qu' e0 * rc (thick0 l0))).

Let hq : forall l', l' = l0 \/ List.In l' (l :: st) -> q_ok l'.
Proof. exact: (smatrix_q hS). Qed.

Lemma last_layer : exists tN', solve_layer eig omega kx ky h form tN' 1 (EpsUniform Nx Ny eN) = Ok (last l st).
Proof.
exists tN; move: hm; case: (mid) => [|a r] hm'.
  by have := mapr_last hm'.
have := mapr_last hm'; by rewrite last_cat.
Qed.

Lemma scatter a0 pol :
  let p := solve_ext Sm a0 0 in
  let f := assembly omega (K * K)%Re pol mid eN in
  exists X : C, cm pol p.1 = Eta pol eN * X /\ 
  2%:R * (cm pol a0 * ph) = D pol * X /\
  2%:R * cm pol p.2 = (f.2 - Eta pol e0 * f.1) * X.
Proof.
move=> p f; have [ps hps] := smatrix_exists omega_neq0 a0 0 hS.
have [hl hb] := smatrix_sound omega_neq0 hS hps.
case: hps => hsol [ha hN].
case: ps hsol ha hN hl hb => [|p0 [|p1 ps]] //= hsol ha hN hl hb.
have [e0n eNn w1 w2'] := whole omega_neq0 (kap_eigen pol) (kap_nz pol) h0 hm hq hsol hN.
have qN : q_ok (last l st).
  by apply: hq; right; exact: last_in.
have [tN' hN'] := last_layer.
have fE : asm omega kx ky i (kap pol) mid eN = f.
  apply: (asmE pol hm) => l' hl'; apply: hq; right; case: hl' => [->|?]; [by left|by right].
exists (cm pol (last p1 ps).1 / et' pol eN).
rewrite -(etE pol hN' qN) -(etE pol h0 (hq (or_introl erefl))).
have -> : cm pol p.1 = cm pol (last p1 ps).1 by rewrite hl.
have -> : cm pol p.2 = cm pol p0.2 by rewrite hb.
split; first by rewrite mulrCA divff // mulr1.
rewrite -ha w1 w2' fE /denominator -/f (etE pol h0 (hq (or_introl erefl))); split=> //.
Qed.

Definition unit_in pol : 'cV[C]_n2 :=
  col_mx (\col_j if j == i then al pol else 0) (\col_j if j == i then be pol else 0).

Lemma den_nz pol : D pol != 0.
Proof.
have [X [_ [hX _]]] := scatter (unit_in pol) pol.
have e1 : cm pol (unit_in pol) = 1.
  rewrite /comp /up /dn /unit_in col_mxEu col_mxEd !mxE eqxx.
  by case: pol {hX}; rewrite /al /be -csE; [|rewrite mulrNN addrC].
apply/eqP=> e2; move/eqP: hX; rewrite e1 e2 mul1r mul0r mulf_eq0 (negPf two_neq0) /=.
by rewrite (negPf (cexp_neq0 _)).
Qed.

Lemma scatter_amp a0 pol :
  let p := solve_ext Sm a0 0 in
  cm pol p.1 = Eta pol eN / Eta pol e0 * (transmission omega (K * K)%Re pol e0 mid eN) * (cm pol a0 * ph) /\
  cm pol p.2 = - reflection omega (K * K)%Re pol e0 mid eN * (cm pol a0 * ph).
Proof.
move=> p; have [X [x1 [x2 x3]]] := scatter a0 pol; have dn0 := den_nz pol.
have q0 : q_ok l0 by apply: hq; left.
have e0n : Eta pol e0 != 0 by rewrite -(etE pol h0 q0); exact: (en omega_neq0 i h0 q0 (kap_nz pol h0 q0)).
rewrite /transmission /reflection.
move: x1 x2 x3; rewrite -/p; move: (cm pol p.1) (cm pol p.2) (cm pol a0 * ph) => u v w x1 x2 x3.
have XE : X = 2%:R * w / D pol by rewrite x2 mulrAC divff // mul1r.
split; first by rewrite x1 XE; move/eqP: e0n => e0n; move/eqP: dn0 => dn0; cfield.
apply: (mulfI two_neq0); rewrite x3 XE; move/eqP: dn0 => dn0; cfield; exact: dn0.
Qed.
End Stack.
End Order.

Section Run.
Variables (Nx Ny nh : nat).
Variable eig : forall m, 'M[C]_m -> 'rV[C]_m * 'M[C]_m.
Variable pw : planewave.
Hypothesis lam : (0 < pw_lambda pw)%Re.
Hypothesis cth : (0 < cos (pw_theta pw))%Re.
Variable rec : 'M[R]_2.
Variable h : 'I_nh -> order.
Variable form : formulation_t Nx Ny.
Variable i0 : 'I_nh.
Hypothesis hi0 : h i0 = (0%Zc, 0%Zc).
Variables (t0 tN : option R) (e0 : R) (eN : C) (mid : seq (C * R)) (r : effs nh).
Hypothesis e0p : (0 < e0)%Re.
Notation w := (sim_omega pw).
Notation kxr := (rkx pw rec h e0).
Notation kyr := (rky pw rec h e0).
Notation kx := (map_mx (real_complex R_rcfType) kxr).
Notation ky := (map_mx (real_complex R_rcfType) kyr).
Notation layers := (LayerIn t0 (EpsUniform Nx Ny (rc e0)) :: [seq mk Nx Ny ed | ed <- mid] ++ [:: LayerIn tN (EpsUniform Nx Ny eN)]).
Hypothesis hr : run_efficiencies eig pw rec h form layers i0 = Ok r.
Notation flux := (incident_flux pw (rc e0)).
Notation sol := (fun li : layer_in Nx Ny => solve_layer eig w kx ky h form (li_thick li) 1 (li_eps li)).

Lemma stack_data : exists a l0 l st Sm, pw_a0 pw = Ok a /\
  solve_layer eig w kx ky h form t0 1 (EpsUniform Nx Ny (rc e0)) = Ok l0 /\
  mapr sol ([seq mk Nx Ny ed | ed <- mid] ++ [:: LayerIn tN (EpsUniform Nx Ny eN)]) = Ok (l :: st) /\
  smatrix [:: l0, l & st] = Ok Sm /\
  let p := solve_ext Sm (sim_a0 i0 a) 0 in
  (forall i, r.1 i ord0 = (poynting w l0 p.2 0).1 i ord0 / flux) /\
  (forall i, r.2 i ord0 = (poynting w (last l st) p.1 0).1 i ord0 / flux).
Proof.
move: hr; rewrite /run_efficiencies [scalar_eps _]/= bindE => H; ubind H a ha; ubind H st0 hst.
have [ekx eky] := sim_kE pw rec h e0p.
rewrite /solve_stack ekx eky in hst.
have [l0 [st1 [e1 [h0 hm]]]] := mapr_cons hst; subst st0.
case: st1 hst hm H => [|l st] hst hm H.
  by move: hm; case: (mid) => [|x y] hm; have [? [? [? _]]] := mapr_cons hm.
have fp := flux_pos cth e0p.
have hi j : (0 < gam2 w kxr kyr e0 j)%Re \/ (up (sim_a0 i0 a) j = 0 /\ dn (sim_a0 i0 a) j = 0).
  case: (eqVneq j i0) => [->|ne]; [left|right].
    by rewrite (i0_gam _ _ hi0) //; have k0 := k0_pos lam; do !(apply: Rmult_lt_0_compat => //).
  by rewrite /up /dn /sim_a0 col_mxEu col_mxEd !mxE (negPf ne).
have w0 := w_neq0 lam.
have [Sm [hS [q0 [qN [hR hT]]]]] := eff_out (omega := w) h0 hi H.
exists a, l0, l, st, Sm; split=> //; split=> //; split=> //; split=> //; split=> i; last exact: hT.
rewrite hR; congr (_ / _).
have [-> _] := poynting_uniform h0 (solve_ext Sm (sim_a0 i0 a) 0).2 0 i.
by rewrite cross_0 ?addr0 //; right; rewrite /up /dn !mxE.
Qed.

Notation K := (Num.sqrt e0 * pw_k0 pw * sin (pw_theta pw))%Re.
Notation c := (cos (pw_phi pw)).
Notation s := (sin (pw_phi pw)).

Lemma i0_x : kxr ord0 i0 = (K * c)%Re.
Proof. by rewrite mxE hi0 /= /pw_kx; rfold; ring. Qed.
Lemma i0_y : kyr ord0 i0 = (K * s)%Re.
Proof. by rewrite mxE hi0 /= /pw_ky; rfold; ring. Qed.
Lemma i0_cs : (c * c + s * s = 1)%Re.
Proof. by have := sin2_cos2 (pw_phi pw); rewrite /Rsqr; lra. Qed.

Lemma qu_i0 t l : solve_layer eig w kx ky h form t 1 (EpsUniform Nx Ny (rc e0)) = Ok l ->
  qu w kx ky (rc e0) i0 = rc (gin pw e0).
Proof.
move=> hl; have [_ [_ [q1 _]]] := l_data hl; have [_ [q2 _]] := u_data hl.
rewrite -(q2 i0) q1 qo_pos; first by congr (real_complex R_rcfType _); apply: sqrt_g0.
by rewrite (i0_gam _ _ hi0) //; have k0 := k0_pos lam; do !(apply: Rmult_lt_0_compat => //).
Qed.

Definition eta0 pol : R := match pol with TE => gin pw e0 / w | TM => e0 * w / gin pw e0 end.
Definition weight pol : R :=
  match pol with TE => sin (pw_psi pw) * sin (pw_psi pw) | TM => cos (pw_psi pw) * cos (pw_psi pw) end.

Lemma wp : (0 < w)%Re. Proof. exact: k0_pos. Qed.

Lemma rcD (x y : R) : y <> 0%Re -> rc x / rc y = rc (x / y)%Re.
Proof. by move=> y0; rewrite rcV // -rmorphM. Qed.

Lemma eta0E pol t l : solve_layer eig w kx ky h form t 1 (EpsUniform Nx Ny (rc e0)) = Ok l ->
  eta w (K * K)%Re pol (rc e0) = rc (eta0 pol).
Proof.
move=> hl; have qE := qu_i0 hl; rewrite (quE w i0_x i0_y i0_cs) in qE.
have gp := gin_pos lam cth e0p; have w0 := wp.
rewrite /eta qE; case: pol; rewrite /eta0.
- by rewrite rcD //; apply: Rgt_not_eq.
- by rewrite -rmorphM rcD //; apply: Rgt_not_eq.
Qed.

Lemma eta0_pos pol : (0 < eta0 pol)%Re.
Proof.
have gp := gin_pos lam cth e0p; have w0 := wp.
by case: pol; apply: Rmult_lt_0_compat => //; [exact: Rinv_0_lt_compat|exact: Rmult_lt_0_compat|exact: Rinv_0_lt_compat].
Qed.

Lemma inc_pol a pol : pw_a0 pw = Ok a -> 
  exists x : R, comp i0 (al c s pol) (be c s pol) (sim_a0 i0 a) = rc x /\
  (x * x = flux * eta0 pol * weight pol)%Re.
Proof.
move=> ha; have [ea1 ea2] := pw_a0_H lam cth ha.
have hth := sc2 (pw_theta pw); have hph := sc2 (pw_phi pw); have hs := hs0 e0p; have n0 := hn0 e0p.
have k0 := k0_pos lam.
rewrite /comp /up /dn /sim_a0 col_mxEu col_mxEd !mxE eqxx flux_E //.
have fE : (cos (pw_theta pw) / Num.sqrt e0)%R = (cos (pw_theta pw) / Num.sqrt e0)%Re by rewrite -R_invE //; lra.
case: pol; rewrite /al /be /eta0 /weight /gin ?fE.
- exists (- (cos (pw_theta pw) * sin (pw_psi pw)))%Re; split.
  + rewrite -!rmorphM -rmorphD; congr (real_complex R_rcfType _).
    rewrite ea1 ea2 /pw_kx /pw_ky /pw_kz /pw_cx /pw_cy /pw_cz.
    move: (pw_k0 pw) k0 => k k0; rfold; field_simplify_eq; last lra.
    move: hph; move: (sin (pw_phi pw)) (cos (pw_phi pw)) => u v hph; simpl; ring [hph].
  + rewrite /sim_omega; move: (pw_k0 pw) k0 (Num.sqrt e0 : R) n0 => k k0 n n0.
    by rfold; field; lra.
- exists (cos (pw_psi pw))%Re; split.
  + rewrite -rmorphN -!rmorphM -rmorphD; congr (real_complex R_rcfType _).
    rewrite ea1 ea2 /pw_kx /pw_ky /pw_kz /pw_cx /pw_cy /pw_cz.
    move: (pw_k0 pw) k0 => k k0; rfold; field_simplify_eq; last lra.
    move: hph hth; move: (sin (pw_phi pw)) (cos (pw_phi pw)) (sin (pw_theta pw)) (cos (pw_theta pw)) => u v x y hph hth; simpl; ring [hph hth].
  + rewrite /sim_omega; have eE : e0 = (Num.sqrt e0 * Num.sqrt e0)%Re by rewrite hs.
    rewrite [in RHS]eE.
    have -> : Num.sqrt (Num.sqrt e0 * Num.sqrt e0)%Re = Num.sqrt e0 by rewrite hs.
    move: cth (pw_k0 pw) k0 (Num.sqrt e0 : R) n0 => cth' k k0 n n0.
    by rfold; field; lra.
Qed.

Lemma sqn_rc (x : R) : sqn (rc x) = (x * x)%Re.
Proof. by rewrite /sqn /=; rfold; ring. Qed.
Lemma Re_inv_sqn (x : C) : (complex.Re x^-1 * sqn x = complex.Re x)%Re.
Proof.
case: (eqVneq x 0) => [->|x0]; first by rewrite invr0 /sqn /=; rfold; ring.
have -> : (complex.Re x^-1 * sqn x)%Re = complex.Re (x^-1 * (x * conj x)).
  by rewrite sqn_conj; case: (x^-1) => a b /=; rfold; ring.
by rewrite mulrA mulVf // mul1r cRe_conj.
Qed.
Lemma sqn_inv (x : R) : x <> 0%Re -> complex.Re (rc x)^-1 = (/ x)%Re.
Proof. by move=> x0; rewrite rcV. Qed.

Lemma sqmodE x : sqmod x = sqn x. Proof. by []. Qed.

Lemma run_multilayer :
  let kt2 := (e0 * (w * w) * (sin (pw_theta pw) * sin (pw_theta pw)))%Re in
  (forall pol, denominator w kt2 pol (rc e0) mid eN != 0) /\
  r.1 i0 ord0 = (weight TE * reflectance w kt2 TE (rc e0) mid eN + weight TM * reflectance w kt2 TM (rc e0) mid eN)%Re /\
  r.2 i0 ord0 = (weight TE * transmittance w kt2 TE (rc e0) mid eN + weight TM * transmittance w kt2 TM (rc e0) mid eN)%Re /\
  forall i, i <> i0 -> r.1 i ord0 = 0 /\ r.2 i ord0 = 0.
Proof.
move=> kt2; have [a [l0 [l [st [Sm [ha [h0 [hm [hS [hR hT]]]]]]]]]] := stack_data.
have w0 := w_neq0 lam.
have hq := smatrix_q hS.
have q0 : q_ok l0 by apply: hq; left.
have qN : q_ok (last l st) by apply: hq; right; exact: last_in.
have [tN' hN'] := last_layer hm.
have fp := flux_pos cth e0p; have fn : flux <> 0%Re by lra.
have kE : (K * K)%Re = kt2.
  have hs := hs0 e0p; rewrite /kt2 -[in RHS]hs /sim_omega.
  move: (Num.sqrt e0 : R) => n; rfold; ring.
split.
  by move=> pol; rewrite -kE; exact: (den_nz w0 i0_x i0_y i0_cs h0 hm hS).
have phE : sqn (cexp ('i * qu w kx ky (rc e0) i0 * rc (thick0 l0))) = 1%Re.
  by rewrite (qu_i0 h0); exact: sqn_phase.
have S pol := scatter_amp w0 i0_x i0_y i0_cs h0 hm hS (sim_a0 i0 a) pol.
have E0 pol := eta0E pol h0.
have en pol : eta0 pol <> 0%Re by have := eta0_pos pol; lra.
split; [|split].
- rewrite hR (flux_pol w0 i0_x i0_y i0_cs _ h0 q0) -kE /reflectance.
  rewrite !E0 !sqn_inv //.
  have [_ ->] := S TE; have [_ ->] := S TM.
  have [x [-> hx]] := inc_pol TE ha; have [y [-> hy]] := inc_pol TM ha.
  rewrite !sqn_mul !sqnN phE !sqn_rc hx hy -R_invE //.
  rewrite !sqmodE.
  move: (en TE) (en TM) => n1 n2; rfold; field; by do !split.
- rewrite hT (flux_pol w0 i0_x i0_y i0_cs _ hN' qN) -kE /transmittance.
  have [-> _] := S TE; have [-> _] := S TM.
  have [x [-> hx]] := inc_pol TE ha; have [y [-> hy]] := inc_pol TM ha.
  rewrite !E0 !rcV // !sqmodE !Re_rc.
  move: (transmission _ _ TE _ _ _) (transmission _ _ TM _ _ _) (eta _ _ TE eN) (eta _ _ TM eN) => tt ts nt ns.
  rewrite !sqn_mul phE !sqn_rc hx hy -R_invE // -(Re_inv_sqn nt) -(Re_inv_sqn ns).
  move: (en TE) (en TM) => n1 n2; rfold; field; by do !split.
- move=> i ni; have [Ki [ci [si [hx [hy hcs]]]]] := polar (kxr ord0 i) (kyr ord0 i).
  have z pol : comp i (al ci si pol) (be ci si pol) (sim_a0 i0 a) = 0.
    rewrite /comp /up /dn /sim_a0 col_mxEu col_mxEd !mxE.
    have -> : (i == i0) = false by apply/eqP.
    by rewrite !mulr0 addr0.
  have Si pol := scatter_amp w0 hx hy hcs h0 hm hS (sim_a0 i0 a) pol.
  rewrite hR hT (flux_pol w0 hx hy hcs _ h0 q0) (flux_pol w0 hx hy hcs _ hN' qN).
  have [-> ->] := Si TE; have [-> ->] := Si TM.
  rewrite !z !mul0r !mulr0 !sqn0; split; rfold; rewrite !Rmult_0_r Rplus_0_r; exact: mul0r.
Qed.
End Run.

(** Power carried by the orders of uniform half spaces, and R + T = 1. *)
From Coq Require Import Reals ZArith Lra.
From mathcomp Require Import all_ssreflect all_algebra.
From mathcomp Require Import complex.
From Verif Require Import RStruct Cplx Cderiv Base Fourier_Model Fourier_Spec Sim_Model Sim_Spec Setup_Model.
From Verif Require Import SMat_Proofs SMat_Proofs2 SMat_Proofs3 Maxwell_Spec Modes_Proofs Maxwell_Proofs.
From Verif Require Import Fourier_Proofs Energy_Spec Energy_Proofs Energy_Proofs2.

Set Implicit Arguments.
Unset Strict Implicit.
Unset Printing Implicit Defensive.

Import Order.TTheory GRing.Theory Num.Theory.
Local Open Scope ring_scope.
Local Open Scope complex_scope.

Section Balance.
Variables (Nx Ny nh : nat).
Variable eig : forall m, 'M[C]_m -> 'rV[C]_m * 'M[C]_m.
Variable omega : R.
Hypothesis omega_neq0 : rc omega != 0.
Hypothesis eig_ok : forall m (A : 'M[C]_m), A *m (eig A).2 = (eig A).2 *m diag_mx (eig A).1.
Variables kxr kyr : 'rV[R]_nh.
Variable h : 'I_nh -> order.
Variable form : formulation_t Nx Ny.
Notation n2 := (nh + nh)%N.
Let kx : 'rV[C]_nh := map_mx (real_complex R_rcfType) kxr.
Let ky : 'rV[C]_nh := map_mx (real_complex R_rcfType) kyr.
Notation solves1 t e l := (solve_layer eig omega kx ky h form t 1 e = Ok l).

Variables (t0 tN : option R) (e0 eN : R) (l0 : slayer nh) (rest : seq (slayer nh)).
Hypothesis h0 : solves1 t0 (EpsUniform Nx Ny (rc e0)) l0.
Hypothesis hN : solves1 tN (EpsUniform Nx Ny (rc eN)) (last l0 rest).

Variables (flux : R) (a0 : 'cV[C]_n2) (r : effs nh).
Hypothesis hinc : forall i, (0 < gam2 omega kxr kyr e0 i)%Re \/ (up a0 i = 0 /\ dn a0 i = 0).
Hypothesis hr : efficiencies omega flux (l0 :: rest) a0 0 = Ok r.

Lemma eff_data : exists Sm,
  smatrix (l0 :: rest) = Ok Sm /\ q_ok l0 /\ q_ok (last l0 rest) /\ flux <> 0%Re /\
  let b0 := (solve_ext Sm a0 0).2 in let aN := (solve_ext Sm a0 0).1 in
  (forall i, r.1 i ord0 = ff omega kxr kyr e0 b0 i / flux) /\
  (forall i, r.2 i ord0 = ff omega kxr kyr eN aN i / flux).
Proof.
move: hr; rewrite /efficiencies => H; ubind H Sm hS; exists Sm.
move: H; case: ifP => // /negbT; rewrite negb_or negbK => /andP [/andP [q0 qN] _].
case: eqP => // f0 [<-] /=; split=> //; split=> //; split=> //; split=> //; split=> i; rewrite mxE.
- have [_ ->] := poynting_uniform h0 a0 (solve_ext Sm a0 0).2 i.
  rewrite (no_cross0) ?addr0 ?opprK //.
  by move=> j; case: (hinc j); [left|right; left].
- have [-> _] := poynting_uniform hN (solve_ext Sm a0 0).1 0 i.
  rewrite (no_cross0) ?addr0 //.
  by move=> j; right; right; rewrite /up /dn !mxE.
Qed.

(** Orders of lossless uniform half spaces carry non-negative power. *)
Lemma eff_ge0 i : (0 < omega)%Re -> (0 < flux)%Re ->
  (0 <= r.1 i ord0)%Re /\ (0 <= r.2 i ord0)%Re /\
  ((gam2 omega kxr kyr e0 i < 0)%Re -> r.1 i ord0 = 0) /\
  ((gam2 omega kxr kyr eN i < 0)%Re -> r.2 i ord0 = 0).
Proof.
move=> w0 f0; have [Sm [hS [q0 [qN [_ [hR hT]]]]]] := eff_data.
have sgn e l a t : solves1 t (EpsUniform Nx Ny (rc e)) l -> q_ok l ->
  (0 <= (ff omega kxr kyr e a i / flux)%R)%Re /\
  ((gam2 omega kxr kyr e i < 0)%Re -> ff omega kxr kyr e a i / flux = 0).
  move=> hl hq; have hq' := qo_neq0 hl i hq.
  case: (Rtotal_order (gam2 omega kxr kyr e i) 0) => [hg|[hg|hg]].
  - by rewrite (ff_neg omega_neq0 hl) //; split; rewrite mul0r; [right|].
  - by move: hq'; rewrite /qo hg csqrt_rc lexx sqrtr0 eqxx.
  - split; last by lra.
    by rewrite -R_invE; [apply: Rmult_le_pos; [apply: (ff_ge0 omega_neq0 hl)|left; apply: Rinv_0_lt_compat]|lra].
have [s1 s2] := sgn e0 l0 (solve_ext Sm a0 0).2 t0 h0 q0.
have [s3 s4] := sgn eN _ (solve_ext Sm a0 0).1 tN hN qN.
by rewrite hR hT.
Qed.

(** Energy balance. *)
Hypothesis hloss : forall l, l = l0 \/ List.In l rest -> q_ok l /\ lossless_modes l.

Lemma energy_balance :
  (\sum_i r.1 i ord0) + (\sum_i r.2 i ord0) = (\sum_i ff omega kxr kyr e0 a0 i) / flux.
Proof.
have [Sm [hS [q0 [qN [f0 [hR hT]]]]]] := eff_data.
have [ps hps] := smatrix_exists omega_neq0 a0 0 hS.
have [aN b0] := smatrix_sound omega_neq0 hS hps.
case: hps => sol [ea eb]; case: ps sol ea eb aN b0 => [|p ps] //= sol ea eb aN b0.
have := chain_flux omega_neq0 hloss sol 0 0.
rewrite (lflux_uniform omega_neq0 h0) //; last first.
  by move=> i; rewrite ea; case: (hinc i); [left|right; left].
rewrite (lflux_uniform omega_neq0 hN) //; last first.
  by move=> i; right; right; rewrite eb /up /dn !mxE.
rewrite /= in hR hT.
have -> : \sum_i r.1 i ord0 = (\sum_i ff omega kxr kyr e0 (S21 Sm *m a0 + S22 Sm *m 0) i) / flux.
  by rewrite mulr_suml; apply: eq_bigr => i _; rewrite hR.
have -> : \sum_i r.2 i ord0 = (\sum_i ff omega kxr kyr eN (S11 Sm *m a0 + S12 Sm *m 0) i) / flux.
  by rewrite mulr_suml; apply: eq_bigr => i _; rewrite hT.
rewrite ea b0 aN eb !sumrB => H; rewrite -mulrDl; congr (_ / _).
have ff0 : \sum_i ff omega kxr kyr eN 0 i = 0.
  by rewrite big1 // => i _; apply: ff_zero; rewrite /up /dn !mxE.
by move: H; rewrite ff0 subr0 => <-; rewrite addrC subrK.
Qed.
End Balance.

(** The incident plane wave. *)
Section Incident.
Variable pw : planewave.
Hypothesis lam : (0 < pw_lambda pw)%Re.
Hypothesis cth : (0 < cos (pw_theta pw))%Re.

Lemma k0_pos : (0 < pw_k0 pw)%Re.
Proof.
rewrite /pw_k0; apply: Rmult_lt_0_compat; first by have := PI_RGT_0; lra.
by rewrite /Rdiv Rmult_1_l; apply: Rinv_0_lt_compat.
Qed.

Lemma sc2 x : (sin x * sin x = 1 - cos x * cos x)%Re.
Proof. by have := sin2_cos2 x; rewrite /Rsqr => H; lra. Qed.

Lemma pw_gam : (pw_k0 pw * pw_k0 pw - pw_kx pw * pw_kx pw - pw_ky pw * pw_ky pw =
  pw_k0 pw * pw_k0 pw * (cos (pw_theta pw) * cos (pw_theta pw)))%Re.
Proof.
rewrite /pw_kx /pw_ky; have h1 := sc2 (pw_theta pw); have h2 := sc2 (pw_phi pw).
by ring [h1 h2].
Qed.

Lemma pw_detE : pw_det pw = (pw_k0 pw * pw_k0 pw * (pw_k0 pw * pw_k0 pw * (cos (pw_theta pw) * cos (pw_theta pw))))%Re.
Proof. by rewrite -pw_gam /pw_det /pw_Q11 /pw_Q22 /pw_Q12; ring. Qed.

Lemma pw_det_neq0 : pw_det pw <> 0%Re.
Proof. by rewrite pw_detE; have k0 := k0_pos; apply: Rgt_not_eq; do !(apply: Rmult_lt_0_compat=> //). Qed.

Lemma pw_qE : pw_q pw = (pw_k0 pw * cos (pw_theta pw))%Re.
Proof.
rewrite /pw_q pw_gam.
rewrite (_ : (_ * _ * _)%Re = ((pw_k0 pw * cos (pw_theta pw)) * (pw_k0 pw * cos (pw_theta pw)))%Re); last by ring.
by rewrite sqrt_square //; have k0 := k0_pos; left; apply: Rmult_lt_0_compat.
Qed.

Lemma pw_et : (pw_Q22 pw * (pw_cy pw * pw_cy pw) + 2 * pw_Q12 pw * (pw_cx pw * pw_cy pw)
  + pw_Q11 pw * (pw_cx pw * pw_cx pw) =
  pw_k0 pw * pw_k0 pw * (cos (pw_theta pw) * cos (pw_theta pw)))%Re.
Proof.
have -> : (pw_Q22 pw * (pw_cy pw * pw_cy pw) + 2 * pw_Q12 pw * (pw_cx pw * pw_cy pw)
  + pw_Q11 pw * (pw_cx pw * pw_cx pw) = pw_k0 pw * pw_k0 pw * (pw_cx pw * pw_cx pw + pw_cy pw * pw_cy pw)
  - (pw_kx pw * pw_cy pw - pw_ky pw * pw_cx pw) * (pw_kx pw * pw_cy pw - pw_ky pw * pw_cx pw))%Re.
  by rewrite /pw_Q11 /pw_Q12 /pw_Q22; ring.
have h1 := sc2 (pw_theta pw); have h2 := sc2 (pw_phi pw); have h3 := sc2 (pw_psi pw).
have -> : (pw_kx pw * pw_cy pw - pw_ky pw * pw_cx pw = pw_k0 pw * sin (pw_theta pw) * sin (pw_psi pw))%Re.
  by rewrite /pw_kx /pw_ky /pw_cx /pw_cy; ring [h2].
have -> : (pw_cx pw * pw_cx pw + pw_cy pw * pw_cy pw = (cos (pw_psi pw) * cos (pw_psi pw)) * (cos (pw_theta pw) * cos (pw_theta pw))
   + sin (pw_psi pw) * sin (pw_psi pw))%Re.
  by rewrite /pw_cx /pw_cy; ring [h2].
by ring [h1 h3].
Qed.

Lemma pw_a0_ok : exists a, pw_a0 pw = Ok a.
Proof. by rewrite /pw_a0; case: Req_EM_T => [e0|n]; [by case: pw_det_neq0|eexists]. Qed.

Lemma pw_qr a : pw_a0 pw = Ok a ->
  (pw_k0 pw * pw_k0 pw * (a.1 * a.1 + a.2 * a.2)
   - (pw_ky pw * a.1 - pw_kx pw * a.2) * (pw_ky pw * a.1 - pw_kx pw * a.2) =
   pw_k0 pw * pw_k0 pw * (cos (pw_theta pw) * cos (pw_theta pw)))%Re.
Proof.
rewrite /pw_a0; case: Req_EM_T => // hd [<-] /=.
set c := (_ / _)%Re.
have hc : (c * c * pw_det pw = 1)%Re.
  rewrite /c pw_qE pw_detE; by have k0 := k0_pos; field; split; apply: Rgt_not_eq.
transitivity (c * c * pw_det pw * (pw_Q22 pw * (pw_cy pw * pw_cy pw) + 2 * pw_Q12 pw * (pw_cx pw * pw_cy pw)
  + pw_Q11 pw * (pw_cx pw * pw_cx pw)))%Re; last by rewrite hc pw_et; ring.
by rewrite /pw_det /pw_Q11 /pw_Q12 /pw_Q22; ring.
Qed.
End Incident.

Section RunBalance.
Variables (Nx Ny nh : nat).
Hypotheses (Nx0 : (0 < Nx)%N) (Ny0 : (0 < Ny)%N).
Variable eig : forall m, 'M[C]_m -> 'rV[C]_m * 'M[C]_m.
Hypothesis eig_ok : forall m (A : 'M[C]_m), A *m (eig A).2 = (eig A).2 *m diag_mx (eig A).1.
Variable pw : planewave.
Hypothesis lam : (0 < pw_lambda pw)%Re.
Hypothesis cth : (0 < cos (pw_theta pw))%Re.
Variable rec : 'M[R]_2.
Variable h : 'I_nh -> order.
Variable form : formulation_t Nx Ny.
Variable i0 : 'I_nh.
Hypothesis hi0 : h i0 = (0%Zc, 0%Zc).

Definition rkx (e0 : R) : 'rV[R]_nh := \row_i
  (pw_kx pw * Num.sqrt e0 + rec ord0 ord0 * IZR (h i).1 + rec ord0 ord_max * IZR (h i).2).
Definition rky (e0 : R) : 'rV[R]_nh := \row_i
  (pw_ky pw * Num.sqrt e0 + rec ord_max ord0 * IZR (h i).1 + rec ord_max ord_max * IZR (h i).2).

Lemma sim_kE e0 : (0 < e0)%Re ->
  sim_kx pw rec h (rc e0) = map_mx (real_complex R_rcfType) (rkx e0) /\
  sim_ky pw rec h (rc e0) = map_mx (real_complex R_rcfType) (rky e0).
Proof.
move=> /RltP e0p; split; apply/rowP => i; rewrite !mxE /k0para; cbn [fst snd];
  by rewrite mulr1 csqrt_rc (ltW e0p) /zC !rmorphD !rmorphM.
Qed.

Lemma i0_gam e0 : (0 < e0)%Re ->
  gam2 (sim_omega pw) (rkx e0) (rky e0) e0 i0 =
  (e0 * (pw_k0 pw * pw_k0 pw * (cos (pw_theta pw) * cos (pw_theta pw))))%Re.
Proof.
move=> /RltP e0p; rewrite /gam2 !mxE hi0 /= -pw_gam /sim_omega.
have hs : (Num.sqrt e0 * Num.sqrt e0)%Re = e0 by have := sqr_sqrtr (ltW e0p); rewrite expr2.
rfold; move: hs; set n := Num.sqrt e0 => hs.
by ring [hs].
Qed.

Lemma flux_E e0 : (0 < e0)%Re -> incident_flux pw (rc e0) = (cos (pw_theta pw) / Num.sqrt e0)%Re.
Proof.
move=> /RltP e0p; rewrite /incident_flux mulr1 csqrt_rc (ltW e0p).
have hn : Num.sqrt e0 <> 0%Re by apply/eqP; rewrite gt_eqF // sqrtr_gt0.
by rewrite /Rdiv R_invE // -rmorphV ?unitfE; [rewrite -rmorphM|apply/eqP].
Qed.

Lemma i0_flux e0 a t l : (0 < e0)%Re -> pw_a0 pw = Ok a ->
  solve_layer eig (sim_omega pw) (map_mx (real_complex R_rcfType) (rkx e0))
     (map_mx (real_complex R_rcfType) (rky e0)) h form t 1 (EpsUniform Nx Ny (rc e0)) = Ok l ->
  ff (sim_omega pw) (rkx e0) (rky e0) e0 (sim_a0 i0 a) i0 = incident_flux pw (rc e0).
Proof.
move=> e0p ha hl; rewrite flux_E //.
have k0 := k0_pos lam.
have w0 : rc (sim_omega pw) != 0 by apply/eqP => - [] H; move: k0; rewrite (H : pw_k0 pw = 0%Re); exact: Rlt_irrefl.
have hg : (0 < gam2 (sim_omega pw) (rkx e0) (rky e0) e0 i0)%Re.
  by rewrite i0_gam //; do !(apply: Rmult_lt_0_compat => //).
rewrite (ff_pos w0 hl) //.
have hs : (Num.sqrt e0 * Num.sqrt e0)%Re = e0.
  by move/RltP: e0p => e0p; have := sqr_sqrtr (ltW e0p); rewrite expr2.
have hn : (0 < Num.sqrt e0)%Re by apply/RltP; rewrite sqrtr_gt0; apply/RltP.
have -> : Num.sqrt (gam2 (sim_omega pw) (rkx e0) (rky e0) e0 i0) = (Num.sqrt e0 * pw_k0 pw * cos (pw_theta pw))%Re.
  rewrite i0_gam //.
  rewrite (_ : (_ * (_ * _))%Re = (Num.sqrt e0 * pw_k0 pw * cos (pw_theta pw))%Re ^+ 2); last first.
    by rfold; rewrite -{1}hs; ring.
  by rewrite sqrtr_sqr ger0_norm //; apply/RleP; left; do !(apply: Rmult_lt_0_compat => //).
have -> : qr (sim_omega pw) (rkx e0) (rky e0) e0 (sim_a0 i0 a) i0 =
   (pw_k0 pw * pw_k0 pw * (cos (pw_theta pw) * cos (pw_theta pw)))%Re.
  rewrite -(pw_qr lam cth ha) /qr /sv /up /dn /sim_a0 col_mxEu col_mxEd !mxE eqxx hi0 /sqn /= /sim_omega.
  rfold; rewrite -[X in (/ X)%Re]hs; field; exact: Rgt_not_eq.
by rewrite /sim_omega; field; do ?split; apply: Rgt_not_eq.
Qed.


Lemma smat_loop_q S0 (l : slayer nh) rest S1 : q_ok l -> smat_loop S0 l rest = Ok S1 ->
  forall l', l' = l \/ List.In l' rest -> q_ok l'.
Proof.
elim: rest S0 l => [|l' rest IH] S0 l hl /= hS k; first by case=> [->|[]].
ubind hS S' hs; rewrite /smat_step in hs; ubind hs im0 hI.
move: hI; rewrite /build_Imatrix; case: ifP => // /andP [_ hl'] _.
by case=> [->|[<-|hk]] //; apply: (IH _ _ hl' hS); right.
Qed.

Lemma smatrix_q l rest S : smatrix (l :: rest) = Ok S ->
  forall l' : slayer nh, l' = l \/ List.In l' rest -> q_ok l'.
Proof.
case: rest => [|l1 rest] //= hS; have hS' := hS; ubind hS' S' hs; rewrite /smat_step in hs.
ubind hs im0 hI; move: hI; rewrite /build_Imatrix; case: ifP => // /andP [q0 _] _.
exact: (smat_loop_q (rest := l1 :: rest) q0 hS).
Qed.

Lemma mapr_cons (A B : Type) (f : A -> res B) a s r : mapr f (a :: s) = Ok r ->
  exists b bs, r = b :: bs /\ f a = Ok b /\ mapr f s = Ok bs.
Proof. by move=> /= H; ubind H b hb; ubind H bs hbs; case: H => <-; exists b, bs. Qed.

Lemma mapr_in (A B : Type) (f : A -> res B) s r : mapr f s = Ok r ->
  forall b, List.In b r -> exists a, List.In a s /\ f a = Ok b.
Proof.
elim: s r => [|a s IH] r; first by move=> [<-].
move=> H; have [b [bs [-> [hb hbs]]]] := mapr_cons H; move=> c /= [<-|hc].
- by exists a; split; [left|].
- by have [a' [ha' e]] := IH _ hbs _ hc; exists a'; split; [right|].
Qed.

Lemma mapr_last (A B : Type) (f : A -> res B) a s b bs : mapr f (a :: s) = Ok (b :: bs) ->
  f (last a s) = Ok (last b bs).
Proof.
elim: s a b bs => [|a' s IH] a b bs H; have [b' [bs' [[-> ->] [hb hbs]]]] := mapr_cons H.
- by case: hbs => <-.
- by have [b2 [bs2 [e2 _]]] := mapr_cons hbs; rewrite e2 in hbs *; exact: (IH _ _ _ hbs).
Qed.

Lemma flux_pos e0 : (0 < e0)%Re -> (0 < incident_flux pw (rc e0))%Re.
Proof.
move=> e0p; rewrite flux_E //; apply: Rmult_lt_0_compat => //; apply: Rinv_0_lt_compat.
by apply/RltP; rewrite sqrtr_gt0; apply/RltP.
Qed.

Section Run.
Variables (l0 : layer_in Nx Ny) (rest : seq (layer_in Nx Ny)) (e0 eN : R) (r : effs nh).
Hypothesis e0p : (0 < e0)%Re.
Hypothesis he0 : li_eps l0 = EpsUniform Nx Ny (rc e0).
Hypothesis heN : li_eps (last l0 rest) = EpsUniform Nx Ny (rc eN).
Hypothesis hr : run_efficiencies eig pw rec h form (l0 :: rest) i0 = Ok r.

Lemma w_neq0 : rc (sim_omega pw) != 0.
Proof. by have k0 := k0_pos lam; apply/eqP => - [] H; move: k0; rewrite (H : pw_k0 pw = 0%Re); exact: Rlt_irrefl. Qed.

Lemma run_data : exists a s0 ss,
  pw_a0 pw = Ok a /\
  solve_stack eig pw rec h form (rc e0) (l0 :: rest) = Ok (s0 :: ss) /\
  efficiencies (sim_omega pw) (incident_flux pw (rc e0)) (s0 :: ss) (sim_a0 i0 a) 0 = Ok r /\
  solve_layer eig (sim_omega pw) (map_mx (real_complex R_rcfType) (rkx e0))
     (map_mx (real_complex R_rcfType) (rky e0)) h form (li_thick l0) 1 (EpsUniform Nx Ny (rc e0)) = Ok s0 /\
  solve_layer eig (sim_omega pw) (map_mx (real_complex R_rcfType) (rkx e0))
     (map_mx (real_complex R_rcfType) (rky e0)) h form (li_thick (last l0 rest)) 1 (EpsUniform Nx Ny (rc eN)) = Ok (last s0 ss) /\
  (forall i, (0 < gam2 (sim_omega pw) (rkx e0) (rky e0) e0 i)%Re \/ (up (sim_a0 i0 a) i = 0 /\ dn (sim_a0 i0 a) i = 0)).
Proof.
move: hr; rewrite /run_efficiencies he0 [scalar_eps _]/= [bind _ _]/= => H; ubind H a ha; ubind H st hst.
have [s0 [ss [e1 [h0 hss]]]] := mapr_cons hst; subst st.
have hN := mapr_last hst; rewrite /= heN in hN; rewrite /= he0 in h0.
have [ekx eky] := sim_kE e0p; rewrite ekx eky in hN h0.
exists a, s0, ss; split=> //; split=> //; split=> //; split=> //; split=> // i.
case: (i =P i0) => [->|/eqP ni].
- left; rewrite i0_gam //; have k0 := k0_pos lam; do !(apply: Rmult_lt_0_compat => //).
- by right; rewrite /up /dn /sim_a0 col_mxEu col_mxEd !mxE (negPf ni).
Qed.

Lemma run_ge0 i :
  (0 <= r.1 i ord0)%Re /\ (0 <= r.2 i ord0)%Re /\
  (~ propagating e0 (sim_omega pw) (rkx e0 ord0 i) (rky e0 ord0 i) -> r.1 i ord0 = 0) /\
  (~ propagating eN (sim_omega pw) (rkx e0 ord0 i) (rky e0 ord0 i) -> r.2 i ord0 = 0).
Proof.
have [a [s0 [ss [ha [hst [he [h0 [hN hi]]]]]]]] := run_data.
have [p1 [p2 [p3 p4]]] := eff_ge0 w_neq0 h0 hN hi he i (k0_pos lam) (flux_pos e0p).
have [Sm [_ [q0 [qN _]]]] := eff_data h0 hN hi he.
have np e l t : solve_layer eig (sim_omega pw) (map_mx (real_complex R_rcfType) (rkx e0))
     (map_mx (real_complex R_rcfType) (rky e0)) h form t 1 (EpsUniform Nx Ny (rc e)) = Ok l -> q_ok l ->
   ~ propagating e (sim_omega pw) (rkx e0 ord0 i) (rky e0 ord0 i) -> (gam2 (sim_omega pw) (rkx e0) (rky e0) e i < 0)%Re.
  move=> hl hq hp; case: (Rtotal_order (gam2 (sim_omega pw) (rkx e0) (rky e0) e i) 0) => [//|[hg|hg]].
  - by have := qo_neq0 hl i hq; rewrite /qo hg csqrt_rc lexx sqrtr0 eqxx.
  - by case: hp.
split=> //; split=> //; split.
- by move=> /(np _ _ _ h0 q0) /p3.
- by move=> /(np _ _ _ hN qN) /p4.
Qed.

Lemma run_sum : plain_form form -> (forall l, List.In l (l0 :: rest) -> lossless (li_eps l)) ->
  (total r).1 + (total r).2 = 1.
Proof.
move=> hf hl; have [a [s0 [ss [ha [hst [he [h0 [hN hi]]]]]]]] := run_data.
have [Sm [hS _]] := eff_data h0 hN hi he.
have hloss l : l = s0 \/ List.In l ss -> q_ok l /\ lossless_modes l.
  move=> hin; split; first exact: (smatrix_q hS).
  have hin' : List.In l (s0 :: ss) by case: hin => [->|hin]; [left|right].
  have [li [hli hs]] := mapr_in hst hin'.
  have [ekx eky] := sim_kE e0p; move: hs; rewrite ekx eky => hs.
  have rr (k : 'rV[R]_nh) i : conj (map_mx (real_complex R_rcfType) k ord0 i) = map_mx (real_complex R_rcfType) k ord0 i.
    by rewrite mxE; apply: rc_conj.
  exact: (lossless_layer w_neq0 (rr _) (rr _) eig_ok Nx0 Ny0 hf (hl _ hli) hs).
rewrite /total /=; have -> := energy_balance w_neq0 h0 hN hi he hloss.
have -> : \sum_i ff (sim_omega pw) (rkx e0) (rky e0) e0 (sim_a0 i0 a) i = incident_flux pw (rc e0).
  rewrite (bigD1 i0) //= big1 ?addr0 ?(i0_flux _ ha h0) // => i ni.
  by apply: ff_zero; rewrite /up /dn /sim_a0 ?col_mxEu ?col_mxEd mxE (negPf ni).
by rewrite divff //; apply/eqP; apply: Rgt_not_eq; exact: flux_pos.
Qed.

(** Hence no order exceeds 1. *)
Lemma run_le1 i : plain_form form -> (forall l, List.In l (l0 :: rest) -> lossless (li_eps l)) ->
  (r.1 i ord0 <= 1)%Re /\ (r.2 i ord0 <= 1)%Re.
Proof.
move=> hf hl; have hsum := run_sum hf hl.
have P1 : forall j : 'I_nh, true -> 0 <= r.1 j ord0 by move=> j _; apply/RleP; have [] := run_ge0 j.
have P2 : forall j : 'I_nh, true -> 0 <= r.2 j ord0 by move=> j _; apply/RleP; have [_ []] := run_ge0 j.
have S1 : 0 <= \sum_j r.1 j ord0 by apply: sumr_ge0.
have S2 : 0 <= \sum_j r.2 j ord0 by apply: sumr_ge0.
have one (v : 'cV[R]_nh) : (forall j : 'I_nh, true -> 0 <= v j ord0) -> v i ord0 <= \sum_j v j ord0.
  by move=> hv; rewrite (bigD1 i) //= ler_addl; apply: sumr_ge0 => j _; apply: hv.
split; apply/RleP; rewrite -[X in _ <= X]hsum /total /=.
- by apply: (le_trans (one r.1 P1)); rewrite ler_addl.
- by apply: (le_trans (one r.2 P2)); rewrite ler_addr.
Qed.

End Run.
End RunBalance.

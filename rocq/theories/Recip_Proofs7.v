(** Reciprocity: unpolarised light, four runs. *)
From Coq Require Import Reals ZArith Lra.
From mathcomp Require Import all_ssreflect all_algebra fingroup perm.
From mathcomp Require Import complex.
From Verif Require Import RStruct Cplx Cderiv Base Fourier_Model Fourier_Spec Sim_Model Sim_Spec Setup_Model.
From Verif Require Import SMat_Proofs SMat_Proofs2 SMat_Proofs3 Maxwell_Spec Modes_Proofs Maxwell_Proofs.
From Verif Require Import Fourier_Proofs Energy_Spec Energy_Proofs Energy_Proofs2 Energy_Proofs3 Run_Proofs2.
From Verif Require Import Symm_Proofs2 Symm_Proofs3 Symm_Proofs5 Symm_Proofs10.
From Verif Require Import Recip_Spec Recip_Proofs Recip_Proofs2 Recip_Proofs3 Recip_Proofs4 Recip_Proofs5 Recip_Proofs6.

Set Implicit Arguments.
Unset Strict Implicit.
Unset Printing Implicit Defensive.

Import Order.TTheory GRing.Theory Num.Theory.
Local Open Scope ring_scope.
Local Open Scope complex_scope.

Lemma NsqrtM (x : R) : (0 < x)%Re -> ((Num.sqrt x : R) * (Num.sqrt x : R))%Re = x.
Proof. by move=> /RltP h0; have := sqr_sqrtr (ltW h0); rewrite expr2. Qed.

Lemma Nsqrt_sqrt (x : R) : (0 < x)%Re -> Num.sqrt x = sqrt x.
Proof.
move=> x0; apply: Rsqr_inj.
- by apply: Rlt_le; apply: Nsqrt_gt0.
- exact: sqrt_pos.
- by rewrite /Rsqr (NsqrtM x0) sqrt_sqrt //; lra.
Qed.

Lemma Nsqrt_sq (x : R) : (0 < x)%Re -> (Num.sqrt (x * x)%Re : R) = x.
Proof.
move=> x0; rewrite Nsqrt_sqrt; last by apply: Rmult_lt_0_compat.
by apply: sqrt_square; lra.
Qed.

Lemma pf_medium w n e kx ky x1 x2 y1 y2 : (0 < n)%Re -> (n * n = e)%Re ->
  pf w (/ e) (kx * n) (ky * n) x1 x2 y1 y2 = pf w 1 kx ky x1 x2 y1 y2.
Proof. by move=> n0 <-; rewrite /pf; field; lra. Qed.

Lemma negation_perm nh (h : 'I_nh -> order) i0 : injective h -> opposite_closed h -> h i0 = (0%Zc, 0%Zc) ->
  exists tau : 'S_nh, (forall i, h (tau i) = ((- (h i).1)%Zc, (- (h i).2)%Zc)) /\ tau i0 = i0.
Proof.
move=> hinj hc h0.
have qi : injective (fun o : order => ((- o.1)%Zc, (- o.2)%Zc) : order).
  by move=> [a b] [c d] /= [h1 h2]; congr pair; apply: Z.opp_inj.
have [tau [h1 h2]] := reindex_orders qi hinj hc.
by exists tau; split=> //; apply: h2; rewrite h0.
Qed.

Section Same.
Variables (nh : nat) (pw pw' : planewave) (rec : 'M[R]_2) (h : 'I_nh -> order).
Hypotheses (el : pw_lambda pw' = pw_lambda pw) (et : pw_theta pw' = pw_theta pw) (ep : pw_phi pw' = pw_phi pw).
Lemma same_k e0 : rkx pw' rec h e0 = rkx pw rec h e0 /\ rky pw' rec h e0 = rky pw rec h e0 /\
  sim_omega pw' = sim_omega pw /\ incident_flux pw' (rc e0) = incident_flux pw (rc e0).
Proof.
have k : pw_k0 pw' = pw_k0 pw by rewrite /pw_k0 el.
by rewrite /rkx /rky /sim_omega /incident_flux /pw_kx /pw_ky k et ep.
Qed.
End Same.

Section One.
Variables (Nx Ny nh : nat).
Variable eig : forall m, 'M[C]_m -> 'rV[C]_m * 'M[C]_m.
Variable pw : planewave.
Hypothesis lam : (0 < pw_lambda pw)%Re.
Hypothesis cth : (0 < cos (pw_theta pw))%Re.
Variable rec : 'M[R]_2.
Variable h : 'I_nh -> order.
Variable form : formulation_t Nx Ny.
Variable i0 : 'I_nh.
Hypothesis hi0 : h i0 = (0%Zc, 0%Zc).
Variable e0 : R.
Hypothesis e0p : (0 < e0)%Re.
Notation w := (sim_omega pw).
Notation kxr := (rkx pw rec h e0).
Notation kyr := (rky pw rec h e0).
Notation kx := (map_mx (real_complex R_rcfType) kxr).
Notation ky := (map_mx (real_complex R_rcfType) kyr).
Notation n := (Num.sqrt e0 : R).
Notation c := (pw_k0 pw * pw_k0 pw * (cos (pw_theta pw) * cos (pw_theta pw)))%Re.

Lemma k_i0 : kxr ord0 i0 = (pw_kx pw * n)%Re /\ kyr ord0 i0 = (pw_ky pw * n)%Re.
Proof. by rewrite !mxE hi0 /=; rfold; split; ring. Qed.

Lemma c_pos : (0 < c)%Re.
Proof. by have k0 := k0_pos lam; do !(apply: Rmult_lt_0_compat => //). Qed.

(** ff of the zeroth order in a medium where it travels with cosine [ct] and index [m] *)
Lemma ff_zero_order e m ct t l v : (0 < m)%Re -> (0 < ct)%Re -> (m * m = e)%Re ->
  gam2 w kxr kyr e i0 = (e * (pw_k0 pw * pw_k0 pw * (ct * ct)))%Re ->
  solve_layer eig w kx ky h form t 1 (EpsUniform Nx Ny (rc e)) = Ok l ->
  qo w kxr kyr e i0 = rc (m * (pw_k0 pw * ct))%Re /\
  ff w kxr kyr e v i0 = (qr w kxr kyr e v i0 / (pw_k0 pw * (m * (pw_k0 pw * ct))))%Re.
Proof.
move=> m0 ct0 me hg hl; have k0 := k0_pos lam.
have x0 : (0 < m * (pw_k0 pw * ct))%Re by do !(apply: Rmult_lt_0_compat => //).
have gp : (0 < gam2 w kxr kyr e i0)%Re.
  by rewrite hg -me; do !(apply: Rmult_lt_0_compat => //).
have sg : Num.sqrt (gam2 w kxr kyr e i0) = (m * (pw_k0 pw * ct))%Re.
  rewrite -[RHS](Nsqrt_sq x0) hg.
  have -> : (e * (pw_k0 pw * pw_k0 pw * (ct * ct)) = m * (pw_k0 pw * ct) * (m * (pw_k0 pw * ct)))%Re by rewrite -me; ring.
  by [].
split; first by rewrite qo_pos // sg.
by rewrite (ff_pos (w_neq0 lam) hl _ gp) sg.
Qed.

Lemma R_qr t l v : solve_layer eig w kx ky h form t 1 (EpsUniform Nx Ny (rc e0)) = Ok l ->
  ff w kxr kyr e0 v i0 / incident_flux pw (rc e0) = (qr w kxr kyr e0 v i0 / c)%Re.
Proof.
move=> hl; have k0 := k0_pos lam; have n0 := Nsqrt_gt0 e0p.
have [_ ->] := ff_zero_order v n0 cth (NsqrtM e0p) (i0_gam _ _ hi0 e0p) hl.
rewrite flux_E //.
have f0 : (cos (pw_theta pw) / n)%Re <> 0%Re.
  by apply: Rgt_not_eq; apply: Rdiv_lt_0_compat.
by rewrite -R_invE //; rfold; field; repeat split; apply: Rgt_not_eq.
Qed.
End One.

Section Four.
Variables (Nx Ny nh : nat).
Hypotheses (Nx0 : (0 < Nx)%N) (Ny0 : (0 < Ny)%N).
Variable eig : forall m, 'M[C]_m -> 'rV[C]_m * 'M[C]_m.
Hypothesis eig_ok : forall m (A : 'M[C]_m), A *m (eig A).2 = (eig A).2 *m diag_mx (eig A).1.
Variables (rec : 'M[R]_2) (h : 'I_nh -> order) (form : formulation_t Nx Ny) (i0 : 'I_nh).
Hypothesis hform : plain_form form.
Hypothesis hinj : injective h.
Hypothesis hopp : opposite_closed h.
Hypothesis hi0 : h i0 = (0%Zc, 0%Zc).
Variables (l0 : layer_in Nx Ny) (rest : seq (layer_in Nx Ny)) (e0 : R) (eN : C).
Hypothesis e0p : (0 < e0)%Re.
Hypothesis he0 : li_eps l0 = EpsUniform Nx Ny (rc e0).
Hypothesis heN : li_eps (last l0 rest) = EpsUniform Nx Ny eN.
Hypothesis hrec : forall l, List.In l (l0 :: rest) -> reciprocal (li_eps l).
Variables pa pb pc pd : planewave.
Hypothesis lam : (0 < pw_lambda pa)%Re.
Hypothesis cth : (0 < cos (pw_theta pa))%Re.
Hypotheses (hab : crossed pb pa) (hac : reversed pc pa) (hcd : crossed pd pc).
Notation runs pw r := (run_efficiencies eig pw rec h form (l0 :: rest) i0 = Ok r).

Lemma crossed_pol pw pw' a b : (0 < pw_lambda pw)%Re -> (0 < cos (pw_theta pw))%Re -> crossed pw' pw ->
  pw_a0 pw = Ok a -> pw_a0 pw' = Ok b ->
  let f := pf (pw_k0 pw) 1 (pw_kx pw) (pw_ky pw) in
  let c := (pw_k0 pw * pw_k0 pw * (cos (pw_theta pw) * cos (pw_theta pw)))%Re in
  f a.1 a.2 a.1 a.2 = c /\ f b.1 b.2 b.1 b.2 = c /\ f a.1 a.2 b.1 b.2 = 0%Re.
Proof.
move=> l0' ct ec ha hb f c.
have s1 : pw_lambda pw' = pw_lambda pw by rewrite ec.
have s2 : pw_theta pw' = pw_theta pw by rewrite ec.
have s3 : pw_phi pw' = pw_phi pw by rewrite ec.
have s4 : pw_psi pw' = (pw_psi pw + PI / 2)%Re by rewrite ec.
have k0 : pw_k0 pw' = pw_k0 pw by rewrite /pw_k0 s1.
have kx : pw_kx pw' = pw_kx pw by rewrite /pw_kx k0 s2 s3.
have ky : pw_ky pw' = pw_ky pw by rewrite /pw_ky k0 s2 s3.
have T := sc2.
split; first by rewrite /f (pw_pol l0' ct erefl erefl erefl ha ha) /c; have := T (pw_psi pw) => t; ring [t].
split.
- have := @pw_pol pw' pw' _ _ erefl erefl erefl b b hb hb; rewrite s1 s2 => /(_ l0' ct).
  by rewrite k0 kx ky /f => ->; rewrite /c; have := T (pw_psi pw') => t; ring [t].
- rewrite /f (pw_pol l0' ct s1 s2 s3 ha hb) s4 sin_plus cos_plus sin_PI2 cos_PI2.
  by ring.
Qed.

Theorem recip_reflection ra rb rc' rd : runs pa ra -> runs pb rb -> runs pc rc' -> runs pd rd ->
  (ra.1 i0 ord0 + rb.1 i0 ord0 = rc'.1 i0 ord0 + rd.1 i0 ord0)%Re.
Proof.
have [tau [htau ti]] := negation_perm hinj hopp hi0.
have [sl [st sp]] := hac.
have lb : pw_lambda pb = pw_lambda pa by rewrite hab.
have tb : pw_theta pb = pw_theta pa by rewrite hab.
have pb' : pw_phi pb = pw_phi pa by rewrite hab.
have ld : pw_lambda pd = pw_lambda pc by rewrite hcd.
have td : pw_theta pd = pw_theta pc by rewrite hcd.
have pd' : pw_phi pd = pw_phi pc by rewrite hcd.
have lamc : (0 < pw_lambda pc)%Re by rewrite sl.
have cthc : (0 < cos (pw_theta pc))%Re by rewrite st.
have lamb : (0 < pw_lambda pb)%Re by rewrite lb.
have cthb : (0 < cos (pw_theta pb))%Re by rewrite tb.
have lamd : (0 < pw_lambda pd)%Re by rewrite ld.
have cthd : (0 < cos (pw_theta pd))%Re by rewrite td.
have k0c : pw_k0 pc = pw_k0 pa by rewrite /pw_k0 sl.
have kxc : pw_kx pc = (- pw_kx pa)%Re by rewrite /pw_kx k0c st sp neg_cos; ring.
have kyc : pw_ky pc = (- pw_ky pa)%Re by rewrite /pw_ky k0c st sp neg_sin; ring.
have wc : sim_omega pc = sim_omega pa by rewrite /sim_omega k0c.
have [kb1 [kb2 [wb fb]]] := same_k rec h lb tb pb' e0.
have [kd1 [kd2 [wd fd]]] := same_k rec h ld td pd' e0.
move=> ha hb hc hd.
have [aa [sa [ssa [qa [psa [va [ma [oka [cha [ina [outa [Ra _]]]]]]]]]]]] := run_solution lam cth hi0 e0p he0 heN ha.
have [ab [sb [ssb [qb [psb [vb [mb [okb [chb [inb [outb [Rb _]]]]]]]]]]]] := run_solution lamb cthb hi0 e0p he0 heN hb.
have [ac [sc [ssc [qc [psc [vc [mc [okc [chc [inc [outc [Rc _]]]]]]]]]]]] := run_solution lamc cthc hi0 e0p he0 heN hc.
have [ad [sd [ssd [qd [psd [vd [md [okd [chd [ind [outd [Rd _]]]]]]]]]]]] := run_solution lamd cthd hi0 e0p he0 heN hd.
rewrite kb1 kb2 wb ?fb in mb chb Rb.
rewrite kd1 kd2 wd ?fd in md chd Rd.
rewrite wc in mc chc Rc md chd Rd.
set kx1 := rkx pa rec h e0 in ma Ra mb Rb.
set ky1 := rky pa rec h e0 in ma Ra mb Rb.
set kx2 := rkx pc rec h e0 in mc Rc md Rd.
set ky2 := rky pc rec h e0 in mc Rc md Rd.
have Hx i : kx2 ord0 (tau i) = (- kx1 ord0 i)%Re.
  rewrite !mxE htau /= kxc !opp_IZR; rfold; ring.
have Hy i : ky2 ord0 (tau i) = (- ky1 ord0 i)%Re.
  rewrite !mxE htau /= kyc !opp_IZR; rfold; ring.
have hkx i : (map_mx (real_complex R_rcfType) kx2) ord0 (tau i) = - (map_mx (real_complex R_rcfType) kx1) ord0 i.
  by rewrite mxE Hx [in RHS]mxE -rmorphN.
have hky i : (map_mx (real_complex R_rcfType) ky2) ord0 (tau i) = - (map_mx (real_complex R_rcfType) ky1) ord0 i.
  by rewrite mxE Hy [in RHS]mxE -rmorphN.
have w0 := w_neq0 lam.
have P := recip_top Nx0 Ny0 eig_ok eig_ok w0 hform htau ti hkx hky he0 heN hrec.
have Pac := P _ _ _ _ ma mc oka okc _ _ _ _ cha chc _ _ ina inc outa outc.
have Pad := P _ _ _ _ ma md oka okd _ _ _ _ cha chd _ _ ina ind outa outd.
have Pbc := P _ _ _ _ mb mc okb okc _ _ _ _ chb chc _ _ inb inc outb outc.
have Pbd := P _ _ _ _ mb md okb okd _ _ _ _ chb chd _ _ inb ind outb outd.
set c := (pw_k0 pa * pw_k0 pa * (cos (pw_theta pa) * cos (pw_theta pa)))%Re.
have c0 : c <> 0%Re by apply: Rgt_not_eq; exact: (c_pos lam cth).
have n0 := Nsqrt_gt0 e0p; have nn := NsqrtM e0p.
have en : e0 <> 0%Re by lra.
have [k1 k2] := k_i0 pa rec hi0 e0.
have eqq v : qr (sim_omega pa) kx2 ky2 e0 v i0 = qr (sim_omega pa) kx1 ky1 e0 v i0.
  have := Hx i0; have := Hy i0; rewrite ti => e1 e2.
  by rewrite !qr_pf e1 e2 !pf_neg.
have [a1 [a2 a3]] := crossed_pol lam cth hab va vb.
have [c1 [c2 c3]] := crossed_pol lamc cthc hcd vc vd.
rewrite k0c kxc kyc st !pf_neg -/c in c1 c2 c3; rewrite -/c in a1 a2 a3.
have med x1 x2 y1 y2 : pf (sim_omega pa) (/ e0) (kx1 ord0 i0) (ky1 ord0 i0) x1 x2 y1 y2 =
   pf (pw_k0 pa) 1 (pw_kx pa) (pw_ky pa) x1 x2 y1 y2.
  by rewrite k1 k2 (pf_medium _ _ _ _ _ _ _ n0 nn).
have Vab v := @parseval nh (sim_omega pa) e0 kx1 ky1 tau i0 ti en aa ab c v c0.
have Vcd v := @parseval nh (sim_omega pa) e0 kx1 ky1 tau i0 ti en ac ad c v c0.
rewrite !med in Vab Vcd.
have top f s ss : mapr f (l0 :: rest) = Ok (s :: ss) -> f l0 = Ok (s : slayer nh).
  by move=> H; have [? [? [[-> _] [-> _]]]] := mapr_cons H.
have ta := top _ _ _ ma; have tb' := top _ _ _ mb; have tc := top _ _ _ mc; have td' := top _ _ _ md.
rewrite he0 in ta tb' tc td'.
have Ea := R_qr lam cth hi0 e0p qa.2 ta; have Eb := R_qr lam cth hi0 e0p qb.2 tb'.
have Ec := R_qr lamc cthc hi0 e0p qc.2; rewrite wc in Ec; have {}Ec := Ec _ _ _ _ _ _ _ tc.
have Ed := R_qr lamc cthc hi0 e0p qd.2; rewrite wc in Ed; have {}Ed := Ed _ _ _ _ _ _ _ td'.
rewrite Ra Ea Rb Eb Rc Ec Rd Ed k0c st -/kx1 -/ky1 -/kx2 -/ky2 !eqq -/c.
suff H : (c * qr (sim_omega pa) kx1 ky1 e0 qa.2 i0 + c * qr (sim_omega pa) kx1 ky1 e0 qb.2 i0 =
  c * qr (sim_omega pa) kx1 ky1 e0 qc.2 i0 + c * qr (sim_omega pa) kx1 ky1 e0 qd.2 i0)%Re.
  apply: (Rmult_eq_reg_l (c * c)%Re); last by apply: Rmult_integral_contrapositive.
  by move: H; move: (qr _ _ _ _ _ _) (qr _ _ _ _ _ _) (qr _ _ _ _ _ _) (qr _ _ _ _ _ _) => x y z t H; field_simplify.
rewrite (Vcd qa.2 c1 c2 c3) (Vcd qb.2 c1 c2 c3) (Vab qc.2 a1 a2 a3) (Vab qd.2 a1 a2 a3).
rewrite Pac Pad Pbc Pbd !(be_sym _ _ _ _ ti _ (sim_a0 _ _)).
by ring.
Qed.
End Four.

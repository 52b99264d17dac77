(** Reciprocity: transmission of unpolarised light from both sides. *)
From Coq Require Import Reals ZArith Lra.
From mathcomp Require Import all_ssreflect all_algebra fingroup perm.
From mathcomp Require Import complex.
From Verif Require Import RStruct Cplx Cderiv Base Fourier_Model Fourier_Spec Sim_Model Sim_Spec Setup_Model.
From Verif Require Import SMat_Proofs SMat_Proofs2 SMat_Proofs3 Maxwell_Spec Modes_Proofs Maxwell_Proofs.
From Verif Require Import Fourier_Proofs Energy_Spec Energy_Proofs Energy_Proofs2 Energy_Proofs3 Run_Proofs2.
From Verif Require Import Symm_Proofs2 Symm_Proofs3 Symm_Proofs5 Symm_Proofs10.
From Verif Require Import Recip_Spec Recip_Proofs Recip_Proofs2 Recip_Proofs3 Recip_Proofs4 Recip_Proofs5 Recip_Proofs6 Recip_Proofs7.

Set Implicit Arguments.
Unset Strict Implicit.
Unset Printing Implicit Defensive.

Import Order.TTheory GRing.Theory Num.Theory.
Local Open Scope ring_scope.
Local Open Scope complex_scope.

Lemma rev_shape (T : Type) (x : T) s : exists y t, rev (x :: s) = y :: t /\ y = last x s /\ last y t = x.
Proof.
elim/last_ind: s => [|s y _]; first by exists x, [::].
exists y, (rev (x :: s)); rewrite -rcons_cons rev_rcons last_rcons; split=> //; split=> //.
by rewrite rev_cons last_rcons.
Qed.

Lemma in_rev_seq (T : Type) (x : T) s : List.In x (rev s) -> List.In x s.
Proof.
have rc_in (y : T) t : List.In x (rcons t y) -> y = x \/ List.In x t.
  elim: t => [|z t IH] /=; first by case; [left|].
  by case=> [h|/IH [h|h]]; [right; left|left|right; right].
elim: s => [|y s IH] //; rewrite rev_cons => /rc_in [->|/IH h]; [by left|by right].
Qed.

Lemma qu_qo nh (w : R) (kxr kyr : 'rV[R]_nh) e i :
  qu w (map_mx (real_complex R_rcfType) kxr) (map_mx (real_complex R_rcfType) kyr) (rc e) i = qo w kxr kyr e i.
Proof.
rewrite /qu /qo; congr csqrt; rewrite !mxE /omega2.
by apply/eqP; rewrite eq_complex /=; apply/andP; split; apply/eqP; rfold; rewrite /gam2; ring.
Qed.

Lemma sqn_wt nh (w : R) (kxr kyr : 'rV[R]_nh) e l i q : (0 < w)%Re -> (0 < q)%Re -> qo w kxr kyr e i = rc q ->
  sqn (wt w (map_mx (real_complex R_rcfType) kxr) (map_mx (real_complex R_rcfType) kyr) (rc e) l i) = (/ ((w * q) * (w * q)))%Re.
Proof.
move=> w0 q0 hq; rewrite /wt qu_qo hq sqnM sqn_phase Rmult_1_l -rmorphM rcV; last first.
  by apply: Rmult_integral_contrapositive; split; apply: Rgt_not_eq.
rewrite /sqn /=; rfold; field; repeat split; exact: Rgt_not_eq.
Qed.

Lemma recip_alg (k n m s t Xac Xad Xbc Xbd Yac Yad Ybc Ybd Qa Qb Qc Qd : R) :
  (0 < k)%Re -> (0 < n)%Re -> (0 < m)%Re -> (0 < s)%Re -> (0 < t)%Re ->
  (k * k * (t * t) * Qa = Yac + Yad)%Re -> (k * k * (t * t) * Qb = Ybc + Ybd)%Re ->
  (k * k * (s * s) * Qc = Xac + Xbc)%Re -> (k * k * (s * s) * Qd = Xad + Xbd)%Re ->
  (Xac * / (k * (n * (k * s)) * (k * (n * (k * s)))) = Yac * / (k * (m * (k * t)) * (k * (m * (k * t)))))%Re ->
  (Xad * / (k * (n * (k * s)) * (k * (n * (k * s)))) = Yad * / (k * (m * (k * t)) * (k * (m * (k * t)))))%Re ->
  (Xbc * / (k * (n * (k * s)) * (k * (n * (k * s)))) = Ybc * / (k * (m * (k * t)) * (k * (m * (k * t)))))%Re ->
  (Xbd * / (k * (n * (k * s)) * (k * (n * (k * s)))) = Ybd * / (k * (m * (k * t)) * (k * (m * (k * t)))))%Re ->
  (Qa / (k * (m * (k * t))) * / (s / n) + Qb / (k * (m * (k * t))) * / (s / n) =
   Qc / (k * (n * (k * s))) * / (t / m) + Qd / (k * (n * (k * s))) * / (t / m))%Re.
Proof.
move=> k0 n0 m0 s0 t0 ha hb hc hd e1 e2 e3 e4.
have E X Y : (X * / (k * (n * (k * s)) * (k * (n * (k * s)))) = Y * / (k * (m * (k * t)) * (k * (m * (k * t)))) ->
  X = Y * (n * n * (s * s)) / (m * m * (t * t)))%Re.
  move=> e; transitivity (X * / (k * (n * (k * s)) * (k * (n * (k * s)))) * ((k * (n * (k * s)) * (k * (n * (k * s))))))%Re.
    by field; lra.
  by rewrite e; field; lra.
rewrite (E _ _ e1) (E _ _ e3) in hc; rewrite (E _ _ e2) (E _ _ e4) in hd.
have D c Q y : (0 < c -> c * Q = y -> Q = y / c)%Re by move=> c0 <-; field; lra.
have ct : (0 < k * k * (t * t))%Re by do !(apply: Rmult_lt_0_compat => //).
have cs : (0 < k * k * (s * s))%Re by do !(apply: Rmult_lt_0_compat => //).
rewrite (D _ _ _ ct ha) (D _ _ _ ct hb) (D _ _ _ cs hc) (D _ _ _ cs hd).
by field; lra.
Qed.

Section Four.
Variables (Nx Ny nh : nat).
Hypotheses (Nx0 : (0 < Nx)%N) (Ny0 : (0 < Ny)%N).
Variable eig : forall m, 'M[C]_m -> 'rV[C]_m * 'M[C]_m.
Hypothesis eig_ok : forall m (A : 'M[C]_m), A *m (eig A).2 = (eig A).2 *m diag_mx (eig A).1.
Variables (rec : 'M[R]_2) (h : 'I_nh -> order) (form : formulation_t Nx Ny) (i0 : 'I_nh).
Hypothesis hform : plain_form form.
Hypothesis hinj : injective h.
Hypothesis hopp : opposite_closed h.
Hypothesis hi0 : h i0 = (0%Zc, 0%Zc).
Variables (l0 : layer_in Nx Ny) (rest : seq (layer_in Nx Ny)) (e0 eN : R).
Hypotheses (e0p : (0 < e0)%Re) (eNp : (0 < eN)%Re).
Hypothesis he0 : li_eps l0 = EpsUniform Nx Ny (rc e0).
Hypothesis heN : li_eps (last l0 rest) = EpsUniform Nx Ny (rc eN).
Hypothesis hrec : forall l, List.In l (l0 :: rest) -> reciprocal (li_eps l).
Variables pa pb pc pd : planewave.
Hypothesis lam : (0 < pw_lambda pa)%Re.
Hypothesis cth : (0 < cos (pw_theta pa))%Re.
Hypothesis cthc : (0 < cos (pw_theta pc))%Re.
Hypotheses (hab : crossed pb pa) (hac : reversed_below e0 eN pc pa) (hcd : crossed pd pc).
Notation runs pw st r := (run_efficiencies eig pw rec h form st i0 = Ok r).

Theorem recip_transmission ra rb rc' rd :
  runs pa (l0 :: rest) ra -> runs pb (l0 :: rest) rb -> runs pc (rev (l0 :: rest)) rc' -> runs pd (rev (l0 :: rest)) rd ->
  (ra.2 i0 ord0 + rb.2 i0 ord0 = rc'.2 i0 ord0 + rd.2 i0 ord0)%Re.
Proof.
have [tau [htau ti]] := negation_perm hinj hopp hi0.
have [sl [ss sp]] := hac.
have lb : pw_lambda pb = pw_lambda pa by rewrite hab.
have tb : pw_theta pb = pw_theta pa by rewrite hab.
have pb' : pw_phi pb = pw_phi pa by rewrite hab.
have ld : pw_lambda pd = pw_lambda pc by rewrite hcd.
have td : pw_theta pd = pw_theta pc by rewrite hcd.
have pd' : pw_phi pd = pw_phi pc by rewrite hcd.
have lamc : (0 < pw_lambda pc)%Re by rewrite sl.
have lamb : (0 < pw_lambda pb)%Re by rewrite lb.
have cthb : (0 < cos (pw_theta pb))%Re by rewrite tb.
have lamd : (0 < pw_lambda pd)%Re by rewrite ld.
have cthd : (0 < cos (pw_theta pd))%Re by rewrite td.
have k0c : pw_k0 pc = pw_k0 pa by rewrite /pw_k0 sl.
have n0 := Nsqrt_gt0 e0p; have nn := NsqrtM e0p.
have m0 := Nsqrt_gt0 eNp; have mm := NsqrtM eNp.
rewrite -(Nsqrt_sqrt e0p) -(Nsqrt_sqrt eNp) in ss.
have kxc : (pw_kx pc * Num.sqrt eN = - (pw_kx pa * Num.sqrt e0))%Re.
  transitivity (pw_k0 pc * cos (pw_phi pc) * (Num.sqrt eN * sin (pw_theta pc)))%Re; first by rewrite /pw_kx; ring.
  by rewrite ss sp neg_cos k0c /pw_kx; ring.
have kyc : (pw_ky pc * Num.sqrt eN = - (pw_ky pa * Num.sqrt e0))%Re.
  transitivity (pw_k0 pc * sin (pw_phi pc) * (Num.sqrt eN * sin (pw_theta pc)))%Re; first by rewrite /pw_ky; ring.
  by rewrite ss sp neg_sin k0c /pw_ky; ring.
have wc : sim_omega pc = sim_omega pa by rewrite /sim_omega k0c.
have [kb1 [kb2 [wb fb]]] := same_k rec h lb tb pb' e0.
have [kd1 [kd2 [wd fd]]] := same_k rec h ld td pd' eN.
have [lN [rest2 [eR [eF eL]]]] := rev_shape l0 rest.
rewrite eR => ha hb hc hd.
have heF : li_eps lN = EpsUniform Nx Ny (rc eN) by rewrite eF.
have heL : li_eps (last lN rest2) = EpsUniform Nx Ny (rc e0) by rewrite eL.
have [aa [sa [ssa [qa [psa [va [ma [oka [cha [ina [outa [_ Ta]]]]]]]]]]]] := run_solution lam cth hi0 e0p he0 heN ha.
have [ab [sb [ssb [qb [psb [vb [mb [okb [chb [inb [outb [_ Tb]]]]]]]]]]]] := run_solution lamb cthb hi0 e0p he0 heN hb.
have [ac [sc [ssc [qc [psc [vc [mc [okc [chc [inc [outc [_ Tc]]]]]]]]]]]] := run_solution lamc cthc hi0 eNp heF heL hc.
have [ad [sd [ssd [qd [psd [vd [md [okd [chd [ind [outd [_ Td]]]]]]]]]]]] := run_solution lamd cthd hi0 eNp heF heL hd.
have {}Ta := Ta _ erefl; have {}Tb := Tb _ erefl; have {}Tc := Tc _ erefl; have {}Td := Td _ erefl.
rewrite kb1 kb2 wb ?fb in mb chb Tb.
rewrite kd1 kd2 wd ?fd in md chd Td.
rewrite wc in mc chc Tc md chd Td.
set kx1 := rkx pa rec h e0 in ma Ta mb Tb.
set ky1 := rky pa rec h e0 in ma Ta mb Tb.
set kx2 := rkx pc rec h eN in mc Tc md Td.
set ky2 := rky pc rec h eN in mc Tc md Td.
have Hx i : kx2 ord0 (tau i) = (- kx1 ord0 i)%Re.
  rewrite !mxE htau /= !opp_IZR; move: kxc; rfold => kxc; rewrite kxc; ring.
have Hy i : ky2 ord0 (tau i) = (- ky1 ord0 i)%Re.
  rewrite !mxE htau /= !opp_IZR; move: kyc; rfold => kyc; rewrite kyc; ring.
have hkx i : (map_mx (real_complex R_rcfType) kx2) ord0 (tau i) = - (map_mx (real_complex R_rcfType) kx1) ord0 i.
  by rewrite mxE Hx [in RHS]mxE -rmorphN.
have hky i : (map_mx (real_complex R_rcfType) ky2) ord0 (tau i) = - (map_mx (real_complex R_rcfType) ky1) ord0 i.
  by rewrite mxE Hy [in RHS]mxE -rmorphN.
have w0 := w_neq0 lam.
have flip f s t q ps a : mapr f (lN :: rest2) = Ok (s :: t) -> (forall l, List.In l (s :: t) -> q_ok l) ->
   chain (sim_omega pa) s q t ps -> q.1 = sim_a0 i0 a -> (last q ps).2 = 0 ->
   exists (s' : slayer nh) t' q' ps', mapr f (l0 :: rest) = Ok (s' :: t') /\ (forall l, List.In l (s' :: t') -> q_ok l) /\
     chain (sim_omega pa) s' q' t' ps' /\ q'.1 = 0 /\ q'.2 = (last q ps).1 /\ (last q' ps').2 = sim_a0 i0 a.
  move=> hm hq hch hin hout; rewrite -eR in hm; have := mapr_rev hm.
  have := chain_rev hch; have [s' [t' [e1 _]]] := rev_shape s t; have [q' [ps' [e2 [e3 e4]]]] := rev_shape (swap q) (map (@swap nh) ps).
  have hq' l : List.In l (s' :: t') -> q_ok l by rewrite -e1 => hl; apply: hq; apply: in_rev_seq.
  rewrite last_map in e3; rewrite /= e1 e2 => hsol hmr.
  exists s', t', q', ps'; split=> //; split=> //.
  by split; [exact: hsol|rewrite e4 e3 /swap /= hin hout].
have [sc' [ssc' [qc' [psc' [mc' [okc' [chc' [i1c [i2c i3c]]]]]]]]] := flip _ _ _ _ _ _ mc okc chc inc outc.
have [sd' [ssd' [qd' [psd' [md' [okd' [chd' [i1d [i2d i3d]]]]]]]]] := flip _ _ _ _ _ _ md okd chd ind outd.
have P := recip_through Nx0 Ny0 eig_ok eig_ok w0 hform htau ti hkx hky he0 heN hrec.
have Pac := P _ _ _ _ ma mc' oka okc' _ _ _ _ cha chc' _ _ ina outa i1c i3c.
have Pad := P _ _ _ _ ma md' oka okd' _ _ _ _ cha chd' _ _ ina outa i1d i3d.
have Pbc := P _ _ _ _ mb mc' okb okc' _ _ _ _ chb chc' _ _ inb outb i1c i3c.
have Pbd := P _ _ _ _ mb md' okb okd' _ _ _ _ chb chd' _ _ inb outb i1d i3d.
rewrite i2c in Pac Pbc; rewrite i2d in Pad Pbd.
have k0 := k0_pos lam.
set k := pw_k0 pa in k0.
set ct1 := cos (pw_theta pa); set ct2 := cos (pw_theta pc).
have cp1 : (0 < ct1)%Re := cth; have cp2 : (0 < ct2)%Re := cthc.
set n := (Num.sqrt e0 : R) in n0 nn; set m := (Num.sqrt eN : R) in m0 mm.
set c1 := (k * k * (ct1 * ct1))%Re; set c2 := (k * k * (ct2 * ct2))%Re.
have c10 : c1 <> 0%Re by apply: Rgt_not_eq; rewrite /c1; do !(apply: Rmult_lt_0_compat => //).
have c20 : c2 <> 0%Re by apply: Rgt_not_eq; rewrite /c2; do !(apply: Rmult_lt_0_compat => //).
have en : e0 <> 0%Re by lra.
have eNn : eN <> 0%Re by lra.
have [k1 k2] := k_i0 pa rec hi0 e0; have [k1c k2c] := k_i0 pc rec hi0 eN.
have Hx0 := Hx i0; have Hy0 := Hy i0; rewrite ti in Hx0 Hy0.
have eqq e v : qr (sim_omega pa) kx2 ky2 e v i0 = qr (sim_omega pa) kx1 ky1 e v i0.
  by rewrite !qr_pf Hx0 Hy0 !pf_neg.
have [a1 [a2 a3]] := crossed_pol lam cth hab va vb.
have [b1 [b2 b3]] := crossed_pol lamc cthc hcd vc vd.
rewrite k0c -/k -/ct2 -/c2 in b1 b2 b3; rewrite -/k -/ct1 -/c1 in a1 a2 a3.
have med x1 x2 y1 y2 : pf (sim_omega pa) (/ e0) (kx1 ord0 i0) (ky1 ord0 i0) x1 x2 y1 y2 =
   pf k 1 (pw_kx pa) (pw_ky pa) x1 x2 y1 y2.
  by rewrite k1 k2 (pf_medium _ _ _ _ _ _ _ n0 nn).
have medN x1 x2 y1 y2 : pf (sim_omega pa) (/ eN) (kx1 ord0 i0) (ky1 ord0 i0) x1 x2 y1 y2 =
   pf k 1 (pw_kx pc) (pw_ky pc) x1 x2 y1 y2.
  rewrite -[LHS]pf_neg -Hx0 -Hy0 k1c k2c (pf_medium _ _ _ _ _ _ _ m0 mm) //.
have Vab v := @parseval nh (sim_omega pa) e0 kx1 ky1 tau i0 ti en aa ab c1 v c10.
have Vcd v := @parseval nh (sim_omega pa) eN kx1 ky1 tau i0 ti eNn ac ad c2 v c20.
rewrite !med in Vab; rewrite !medN in Vcd.
have sc2a := sc2 (pw_theta pa); have sc2c := sc2 (pw_theta pc).
have g1 : gam2 (sim_omega pa) kx1 ky1 e0 i0 = (e0 * (k * k * (ct1 * ct1)))%Re by exact: i0_gam.
have g2 : gam2 (sim_omega pa) kx1 ky1 eN i0 = (eN * (k * k * (ct2 * ct2)))%Re.
  have -> : gam2 (sim_omega pa) kx1 ky1 eN i0 = gam2 (sim_omega pc) kx2 ky2 eN i0.
    by rewrite /gam2 Hx0 Hy0 wc; ring.
  by rewrite i0_gam // k0c.
have g3 : gam2 (sim_omega pc) kx2 ky2 e0 i0 = (e0 * (pw_k0 pc * pw_k0 pc * (ct1 * ct1)))%Re.
  by rewrite k0c -/k -g1 /gam2 Hx0 Hy0 wc; ring.
have top f s t : mapr f (l0 :: rest) = Ok (s :: t) -> f l0 = Ok (s : slayer nh).
  by move=> H; have [? [? [[-> _] [-> _]]]] := mapr_cons H.
have ta := top _ _ _ ma; have tbb := top _ _ _ mb; rewrite he0 in ta tbb.
have na := mapr_last ma; have nb := mapr_last mb; have nc := mapr_last mc; have nd := mapr_last md.
rewrite /= heN in na nb; rewrite /= heL in nc nd.
have [Q0 _] := ff_zero_order lam 0 n0 cp1 nn g1 ta.
have [QN Fa] := ff_zero_order lam (last qa psa).1 m0 cp2 mm g2 na.
have [_ Fb] := ff_zero_order lam (last qb psb).1 m0 cp2 mm g2 nb.
have Fc' := ff_zero_order lamc (last qc psc).1 n0 cp1 nn g3; rewrite wc in Fc'; have [_ Fc] := Fc' _ _ _ _ _ _ nc.
have Fd' := ff_zero_order lamc (last qd psd).1 n0 cp1 nn g3; rewrite wc in Fd'; have [_ Fd] := Fd' _ _ _ _ _ _ nd.
rewrite Ta Tb Tc Td Fa Fb Fc Fd !flux_E // -/ct1 -/ct2 -/n -/m -/kx1 -/ky1 -/kx2 -/ky2 !eqq k0c -/k.
have q0p : (0 < n * (k * ct1))%Re by do !(apply: Rmult_lt_0_compat => //).
have qNp : (0 < m * (k * ct2))%Re by do !(apply: Rmult_lt_0_compat => //).
have s0a := sqn_wt sa k0 q0p Q0; have sNa := sqn_wt (last sa ssa) k0 qNp QN.
have s0b := sqn_wt sb k0 q0p Q0; have sNb := sqn_wt (last sb ssb) k0 qNp QN.
have sq x y (u v : C) : x * u = y * v -> (sqn x * sqn u = sqn y * sqn v)%Re by move=> H; rewrite -!sqnM H.
have {}Pac := sq _ _ _ _ Pac; have {}Pad := sq _ _ _ _ Pad.
have {}Pbc := sq _ _ _ _ Pbc; have {}Pbd := sq _ _ _ _ Pbd.
rewrite s0a sNa in Pac Pad; rewrite s0b sNb in Pbc Pbd.
have V1 := Vcd (last qa psa).1 b1 b2 b3; have V2 := Vcd (last qb psb).1 b1 b2 b3.
have V3 := Vab (last qc psc).1 a1 a2 a3; have V4 := Vab (last qd psd).1 a1 a2 a3.
rewrite !(be_sym _ _ _ _ ti (sim_a0 i0 ac)) !(be_sym _ _ _ _ ti (sim_a0 i0 ad)) in V1 V2.
have f1 : (ct1 / n)%Re <> 0%Re by apply: Rgt_not_eq; apply: Rdiv_lt_0_compat.
have f2 : (ct2 / m)%Re <> 0%Re by apply: Rgt_not_eq; apply: Rdiv_lt_0_compat.
rewrite -!R_invE //.
exact: (recip_alg k0 n0 m0 cp1 cp2 V1 V2 V3 V4 Pac Pad Pbc Pbd).
Qed.
End Four.

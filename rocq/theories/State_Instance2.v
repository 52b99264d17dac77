(** Two simulations sharing layer objects; results kept without reset. *)
From Coq Require Import Reals ZArith String List Lra.
From mathcomp Require Import all_ssreflect all_algebra.
From mathcomp Require Import complex.
From Verif Require Init_Model.
From Verif Require Import State_Model State_Spec State_Proofs State_World State_Stack State_Extra.
From Verif Require Import RStruct Cplx Base Fourier_Model Sim_Model Setup_Model Orders_Model.
From Verif Require Import Energy_Proofs3 Orders_Proofs State_Instance.

Set Implicit Arguments.
Unset Strict Implicit.
Unset Printing Implicit Defensive.

Import Order.TTheory GRing.Theory Num.Theory.
Local Open Scope ring_scope.
Local Open Scope complex_scope.

Section Scale.
Variable nh : nat.

Lemma Re_rcM (c : R) (z : C) : complex.Re (rc c * z) = c * complex.Re z.
Proof. by case: z => a b /=; rewrite mul0r subr0. Qed.

Definition fw (aa ab pa pb : C) : R :=
  complex.Re (rc (complex.Re (conj aa * pa)) + 2%:R^-1 * (conj pb * aa - conj ab * pa)).
Definition bw (aa ab pa pb : C) : R :=
  complex.Re (- rc (complex.Re (conj ab * pb)) + conj (2%:R^-1 * (conj pb * aa - conj ab * pa))).

Lemma half_rc : (2%:R^-1 : C) = rc (2%:R^-1).
Proof. by rewrite fmorphV rmorph_nat. Qed.

Lemma fw_scale c aa ab pa pb : fw (rc c * aa) (rc c * ab) pa pb = c * fw aa ab pa pb.
Proof.
rewrite /fw half_rc; move: (2%:R^-1 : R) => k.
case: aa => a1 a2; case: ab => b1 b2; case: pa => c1 c2; case: pb => d1 d2 /=.
by rfold; ring.
Qed.
Lemma bw_scale c aa ab pa pb : bw (rc c * aa) (rc c * ab) pa pb = c * bw aa ab pa pb.
Proof.
rewrite /bw half_rc; move: (2%:R^-1 : R) => k.
case: aa => a1 a2; case: ab => b1 b2; case: pa => c1 c2; case: pb => d1 d2 /=.
by rfold; ring.
Qed.

Definition adm_mx (w : R) (l : slayer nh) : 'M[C]_(nh + nh) :=
  sl_Qeps l *m sl_phi l *m diag_mx (\row_i ((rc w * sl_q l ord0 i)^-1)).

Lemma poyntingE (w : R) (l : slayer nh) a b (i : 'I_nh) :
  let Aa := adm_mx w l *m a in let Ab := adm_mx w l *m b in
  let Pa := sl_phi l *m a in let Pb := sl_phi l *m b in
  let at_ (f : C -> C -> C -> C -> R) j := f (Aa j ord0) (Ab j ord0) (Pa j ord0) (Pb j ord0) in
  (poynting w l a b).1 i ord0 = at_ fw (lshift nh i) + at_ fw (rshift nh i) /\
  (poynting w l a b).2 i ord0 = at_ bw (lshift nh i) + at_ bw (rshift nh i).
Proof.
rewrite /poynting -/(adm_mx w l) [fst _]/= [snd _]/=.
move: (adm_mx w l *m a) (adm_mx w l *m b) (sl_phi l *m a) (sl_phi l *m b) => Aa Ab Pa Pb.
by rewrite /fw /bw !mxE !raddfD.
Qed.

Lemma poynting_scale (w w' : R) (l : slayer nh) a b : rc w != 0 -> rc w' != 0 ->
  let c := w' / w in
  (poynting w l a b).1 = c *: (poynting w' l a b).1 /\
  (poynting w l a b).2 = c *: (poynting w' l a b).2.
Proof.
move=> wn wn' c.
have ec : rc c = rc w' / rc w by rewrite /c rmorphM fmorphV.
have eD : adm_mx w l = rc c *: adm_mx w' l.
  rewrite /adm_mx scalemxAr; congr (_ *m _).
  apply/matrixP=> i j; rewrite !mxE; case: (i =P j) => [->|_]; rewrite ?mulr1n ?mulr0n ?mulr0 //.
  by rewrite ec !invfM [rc w' / _]mulrC -mulrA mulVKf.
have sE (M : 'cV[C]_(nh + nh)) k : (rc c *: M) k ord0 = rc c * M k ord0 by rewrite mxE.
have sc (M : 'cV[R]_nh) (k : 'I_nh) : (c *: M) k ord0 = c * M k ord0 by rewrite mxE.
split; apply/colP=> i.
- have E1 := proj1 (poyntingE w l a b i); have E2 := proj1 (poyntingE w' l a b i).
  apply: (etrans E1); apply: etrans (esym (etrans (sc _ i) (congr1 ( *%R c) E2))).
  by rewrite eD -!scalemxAl !sE !fw_scale mulrDr.
- have E1 := proj2 (poyntingE w l a b i); have E2 := proj2 (poyntingE w' l a b i).
  apply: (etrans E1); apply: etrans (esym (etrans (sc _ i) (congr1 ( *%R c) E2))).
  by rewrite eD -!scalemxAl !sE !bw_scale mulrDr.
Qed.
End Scale.

Section Shared.
Variables (Nx Ny nh : nat).
Variable eig : forall m, 'M[C]_m -> 'rV[C]_m * 'M[C]_m.
Notation E := (eps_t Nx Ny).
Notation T := (option R).
Notation n2 := (nh + nh)%N.
Notation Pat := ('M[C]_n2 * 'M[C]_nh)%type.
Notation Q := 'M[C]_n2.
Notation G := ('rV[C]_n2 * 'M[C]_n2)%type.
Notation param := (param Nx Ny nh).
Notation iheap := (heap T E Pat Q G).
Notation isim := (sim param (smat nh)).
Notation iworld := (world param T E Pat Q G (smat nh)).
Notation ask := (@i_ask Nx Ny nh eig).
Notation exec := (@i_exec Nx Ny nh eig).

Definition scale_effs (c : R) (r : effs nh) : effs nh := (c *: r.1, c *: r.2).

Lemma Ok_inv A (a b : A) : Ok a = Ok b -> a = b.
Proof. by case. Qed.

Lemma scale_pair (c f : R) (A B A' B' : 'cV[R]_nh) : A = c *: A' -> B = c *: B' ->
  Ok (map_mx (fun x => - x / f) A, map_mx (fun x => x / f) B) =
  Ok (scale_effs c (map_mx (fun x => - x / f) A', map_mx (fun x => x / f) B')).
Proof.
move=> -> ->; congr (Ok (_, _)); apply/matrixP=> i j; rewrite !mxE; last by rewrite mulrA.
by rewrite mulrA mulrN.
Qed.

(** Same incident amplitudes and flux, other frequency: the flux of given modes is
    scaled by the ratio of the frequencies. *)
Lemma i_eff_scale (p0 p1 : param) v v' x r : rc (p_omega p0) != 0 ->
  p_a0 p0 = p_a0 p1 -> p_flux p0 = p_flux p1 -> i_eff p1 v v' x = Ok r ->
  i_eff p0 v v' x = Ok (scale_effs (p_omega p1 / p_omega p0)%R r).
Proof.
move=> w0 ea ef; rewrite /i_eff.
case: (slayer_modes v) => [l|] //; case: (slayer_modes v') => [l'|] //; cbn [bind].
rewrite (negbTE w0) ea ef orbF.
case: (q_ok l && q_ok l') => //; cbn [negb orb].
case w1: (rc (p_omega p1) == 0) => //; move/negbT: w1 => w1; cbn [orb].
case: (p_flux p1 == 0) => // /(@Ok_inv (effs nh)) <-.
set xe := solve_ext x (p_a0 p1) 0.
have [_ e1] := poynting_scale l (p_a0 p1) xe.2 w0 w1.
have [e2 _] := poynting_scale l' xe.1 0 w0 w1.
exact: (scale_pair _ e1 e2).
Qed.

Lemma step_param (p0 p1 : param) : forall vs x js,
  s_product (@i_step Nx Ny nh) p0 vs x js = s_product (@i_step Nx Ny nh) p1 vs x js.
Proof.
by [].
Qed.

Notation i_views := (@solved_views param T E Pat Q G (@i_unif Nx Ny) (@i_build_u Nx Ny nh) (@i_build_p Nx Ny nh)
  (@i_modes_u Nx Ny nh) (@i_modes_p nh eig)).
Notation i_eff_spec := (@eff_spec param T E Pat Q G (smat nh) (effs nh) (@i_unif Nx Ny) (@i_build_u Nx Ny nh) (@i_build_p Nx Ny nh)
  (@i_modes_u Nx Ny nh) (@i_modes_p nh eig) (@i_S0 Nx Ny nh) (@i_step Nx Ny nh) (@i_eff Nx Ny nh)).
Notation good := (@good param T E Pat Q G (smat nh) (@i_unif Nx Ny) (@i_build_u Nx Ny nh) (@i_build_p Nx Ny nh)
  (@i_modes_u Nx Ny nh) (@i_modes_p nh eig) (@i_S0 Nx Ny nh) (@i_step Nx Ny nh)).
Notation efficiencies := (@State_Model.efficiencies param T E Pat Q G (smat nh) (effs nh) (@i_unif Nx Ny) (@i_build_u Nx Ny nh) (@i_build_p Nx Ny nh)
  (@i_modes_u Nx Ny nh) (@i_modes_p nh eig) (@i_S0 Nx Ny nh) (@i_step Nx Ny nh) (@i_eff Nx Ny nh)).

(** A heap whose layers carry the modes of simulation 1: simulation 0, marked as
    solved, computes with them. *)
Lemma borrowed (h h0 : iheap) ls (p0 p1 : param) m r : usable (@i_unif Nx Ny) h0 ls ->
  good h0 p1 ls (h, m) -> s_solved m = true ->
  rc (p_omega p0) != 0 -> p_a0 p0 = p_a0 p1 -> p_flux p0 = p_flux p1 ->
  i_eff_spec p1 (data h0 ls) = Ok r ->
  snd (efficiencies (h, Sim ls p0 true None (@empty_cache (smat nh)))) =
    Ok (scale_effs (p_omega p1 / p_omega p0)%R r).
Proof.
move=> US Gd Hs w0 ea ef Hr.
have Gd' : good h0 p1 ls (h, Sim ls p1 true None (@empty_cache (smat nh))).
  by case: Gd => gp gl go gs gv gc gS; constructor=> //= _; exact: gv.
have [e1 _] := @tr_eff param T E Pat Q G (smat nh) (effs nh) _ _ _ _ _ _ _ (@i_eff Nx Ny nh) h0 p1 ls US _ Gd' I.
rewrite Hr eff_raw in e1; rewrite eff_raw; move: e1; cbv zeta.
case: Z.ltb => //.
rewrite (step_param p0 p1) /i_S0.
case: s_product => [x|] //; case: Init_Model.pynth => [a|] //; case: Init_Model.pynth => [b|] //.
cbn [bind]; exact: i_eff_scale.
Qed.

Theorem shared_scaled (w : iworld) (ls : seq nat) (p0 p1 : param) vs r :
  w_sims w 0 = new_sim (smat nh) p0 ls -> w_sims w 1 = new_sim (smat nh) p1 ls ->
  let h := w_heap w in
  usable (@i_unif Nx Ny) h ls ->
  rc (p_omega p0) != 0 -> p_a0 p0 = p_a0 p1 -> p_flux p0 = p_flux p1 ->
  i_views p0 (data h ls) = Ok vs -> i_eff_spec p1 (data h ls) = Ok r ->
  let w1 := fst (exec (OAsk _ _ _ 0 (QSolve R)) w) in
  let w2 := fst (exec (OAsk _ _ _ 1 (QEff R)) w1) in
  snd (exec (OAsk _ _ _ 0 (QSolve R)) w) = Some (Ok (ADone _ _ _ _ _ _)) /\
  snd (exec (OAsk _ _ _ 1 (QEff R)) w1) = Some (Ok (AEff _ _ _ _ _ r)) /\
  snd (exec (OAsk _ _ _ 0 (QEff R)) w2) =
    Some (Ok (AEff _ _ _ _ _ (scale_effs (p_omega p1 / p_omega p0)%R r))).
Proof.
move=> W0 W1 h US w0 ea ef Hv Hr w1 w2.
have [A0 [A1 [E0 [H2 [S2 D2]]]]] := @shared_state param T E Pat Q G (smat nh) (amp nh) (effs nh) R (fields nh) (R * R * R)
  (vec3 nh * vec3 nh) (@i_unif Nx Ny) (@i_build_u Nx Ny nh) (@i_build_p Nx Ny nh) (@i_modes_u Nx Ny nh)
  (@i_modes_p nh eig) (@i_S0 Nx Ny nh) (@i_step Nx Ny nh) (@i_amp0 Nx Ny nh) (@i_ampN Nx Ny nh) (@i_ampI Nx Ny nh)
  (@i_eff Nx Ny nh) (@i_fld Nx Ny nh) (@i_str Nx Ny nh) (@i_cx Nx Ny nh) 0%Re w ls p0 p1 vs r W0 W1 US Hv Hr.
split; first exact: A0.
split; first exact: A1.
rewrite /i_exec ask_eff_answer.
have -> : w_sims w2 0 = Sim ls p0 true None (@empty_cache (smat nh)) by exact: E0.
rewrite (@borrowed _ (w_heap w2) ls p0 p1 (w_sims w2 1) r) //.
- exact: (hl_usable H2).
- exact: (hl_good H2).
- by rewrite D2.
Qed.

(** Two plane waves of the same direction and polarisation: same incident pair. *)
Lemma a0_wavelength (pw pw' : planewave) a a' :
  pw_theta pw = pw_theta pw' -> pw_phi pw = pw_phi pw' -> pw_psi pw = pw_psi pw' ->
  (0 < pw_lambda pw)%Re -> (0 < pw_lambda pw')%Re -> (0 < cos (pw_theta pw))%Re ->
  pw_a0 pw = Ok a -> pw_a0 pw' = Ok a' -> a = a'.
Proof.
move=> et ep es l l' c ha ha'.
have [a1 a2] := pw_a0_H l c ha.
have c' : (0 < cos (pw_theta pw'))%Re by rewrite -et.
have [a1' a2'] := pw_a0_H l' c' ha'.
have k0 : (0 < pw_k0 pw)%Re by exact: k0_pos.
have k0' : (0 < pw_k0 pw')%Re by exact: k0_pos.
rewrite (surjective_pairing a) (surjective_pairing a') a1 a2 a1' a2'.
rewrite /pw_kx /pw_ky /pw_kz /pw_cx /pw_cy /pw_cz et ep es.
by congr (_, _); field; lra.
Qed.

Theorem shared_run (pw0 pw1 : planewave) rec hm form i0 (w : iworld) ls p0 p1 r0 r1 :
  w_sims w 0 = new_sim (smat nh) p0 ls -> w_sims w 1 = new_sim (smat nh) p1 ls ->
  let h := w_heap w in
  usable (@i_unif Nx Ny) h ls ->
  pw_theta pw0 = pw_theta pw1 -> pw_phi pw0 = pw_phi pw1 -> pw_psi pw0 = pw_psi pw1 ->
  (0 < pw_lambda pw0)%Re -> (0 < pw_lambda pw1)%Re -> (0 < cos (pw_theta pw0))%Re ->
  mk_param pw0 rec hm form i0 (data h ls) = Ok p0 -> mk_param pw1 rec hm form i0 (data h ls) = Ok p1 ->
  run_efficiencies eig pw0 rec hm form (map (@as_layer Nx Ny) (data h ls)) i0 = Ok r0 ->
  run_efficiencies eig pw1 rec hm form (map (@as_layer Nx Ny) (data h ls)) i0 = Ok r1 ->
  let w1 := fst (exec (OAsk _ _ _ 0 (QSolve R)) w) in
  let w2 := fst (exec (OAsk _ _ _ 1 (QEff R)) w1) in
  snd (exec (OAsk _ _ _ 0 (QSolve R)) w) = Some (Ok (ADone _ _ _ _ _ _)) /\
  snd (exec (OAsk _ _ _ 1 (QEff R)) w1) = Some (Ok (AEff _ _ _ _ _ r1)) /\
  snd (exec (OAsk _ _ _ 0 (QEff R)) w2) =
    Some (Ok (AEff _ _ _ _ _ (scale_effs (pw_lambda pw0 / pw_lambda pw1)%Re r1))).
Proof.
move=> W0 W1 h US et ep es l0 l1 c hp0 hp1 hr0 hr1 w1 w2.
have k0 := k0_pos l0; have k1 := k0_pos l1.
have ep0 : i_eff_spec p0 (data h ls) = Ok r0 by rewrite -hr0; exact: eff_run.
have ep1 : i_eff_spec p1 (data h ls) = Ok r1 by rewrite -hr1; exact: eff_run.
have [vs hv] : exists vs, i_views p0 (data h ls) = Ok vs.
  by move: ep0; rewrite /eff_spec /S_full /S_between; case: solved_views => [vs|] // _; exists vs.
have [ea ef eo] : [/\ p_a0 p0 = p_a0 p1, p_flux p0 = p_flux p1 &
   (p_omega p1 / p_omega p0)%R = (pw_lambda pw0 / pw_lambda pw1)%Re].
  move: hp0 hp1; rewrite /mk_param; case: (data h ls) => [|x d] //.
  case: (scalar_eps x.2) => [e0|] //; cbn [bind].
  case h0: (pw_a0 pw0) => [a|] //; case h1: (pw_a0 pw1) => [a'|] //; cbn [bind] => -[<-] -[<-].
  have ea := a0_wavelength et ep es l0 l1 c h0 h1.
  rewrite /p_a0 /p_flux /p_omega /= ea /incident_flux et; split=> //.
  have n0 : pw_k0 pw0 <> 0 by move: k0 => /[swap] ->; rewrite -R_zeroE; lra.
  rewrite /sim_omega -(R_invE n0) /pw_k0; have pi := PI_RGT_0; rfold; field; lra.
have w0 : rc (p_omega p0) != 0.
  have -> : p_omega p0 = pw_k0 pw0.
    move: hp0; rewrite /mk_param; case: (data h ls) => [|x d] //.
    by case: (scalar_eps x.2) => [e0|] //; case: (pw_a0 pw0) => [a|] // [<-].
  apply/eqP=> E1; have : complex.Re (rc (pw_k0 pw0)) = complex.Re (0 : C) by rewrite E1.
  by rewrite /= => E2; move: k0; rewrite E2 -R_zeroE; lra.
have := shared_scaled W0 W1 US w0 ea ef hv ep1.
by rewrite eo.
Qed.

(** ** The efficiencies read only Qeps, the eigenvalues and the eigenvectors *)
Lemma i_eff_attrs (p : param) (v v' u u' : view T E Pat Q G) x :
  v_Q v = v_Q u -> v_G v = v_G u -> v_Q v' = v_Q u' -> v_G v' = v_G u' ->
  i_eff p v v' x = i_eff p u u' x.
Proof.
case: v => ? ? ? q g; case: u => ? ? ? q1 g1; case: v' => ? ? ? q' g'; case: u' => ? ? ? q1' g1' /=.
move=> <- <- <- <-; rewrite /i_eff /slayer_modes /=.
case: q => [q|] //; case: g => [g|] //; case: q' => [q'|] //; case: g' => [g'|] //.
Qed.

Notation iop := (op param T E R).
Notation iedit := (@edit param T E Pat Q G (smat nh) (amp nh) (effs nh) R (fields nh) (R * R * R)
  (vec3 nh * vec3 nh) (@i_unif Nx Ny) (@i_build_u Nx Ny nh) (@i_build_p Nx Ny nh) (@i_modes_u Nx Ny nh)
  (@i_modes_p nh eig) (@i_S0 Nx Ny nh) (@i_step Nx Ny nh) (@i_amp0 Nx Ny nh) (@i_ampN Nx Ny nh) (@i_ampI Nx Ny nh)
  (@i_eff Nx Ny nh) (@i_fld Nx Ny nh) (@i_str Nx Ny nh) (@i_cx Nx Ny nh) 0%Re).
Theorem stale_eff k (w : iworld) (os : seq iop) r :
  snd (exec (OAsk _ _ _ k (QEff R)) w) = Some (Ok (AEff _ _ _ _ _ r)) ->
  Forall (@is_edit param T E R) os ->
  snd (exec (OAsk _ _ _ k (QEff R)) (fold_left iedit os (fst (exec (OAsk _ _ _ k (QEff R)) w)))) =
    Some (Ok (AEff _ _ _ _ _ r)).
Proof.
move=> A F; set w' := fst _.
have A' : snd (efficiencies (w_heap w, w_sims w k)) = Ok r.
  move: A; rewrite /i_exec ask_eff_answer.
  by case: (snd _) => [y|//]; rewrite /rmap; cbn [bind] => -[->].
have [hs [x [a [b [hS [ha [hb he]]]]]]] := eff_success _ _ _ _ _ _ _ _ _ A'.
have [eh em] : w_heap w' = fst (fst (efficiencies (w_heap w, w_sims w k))) /\
   w_sims w' k = snd (fst (efficiencies (w_heap w, w_sims w k))).
  rewrite /w' /i_exec /State_Model.exec /= /amap /seqa.
  by case: (State_Model.efficiencies _ _ _ _ _ _ _ _ _) => [[h1 m1] [y|]] /=; rewrite upd_sim_eq.
rewrite /i_exec ask_eff_answer.
have es : w_sims (fold_left iedit os w') k = w_sims w' k by rewrite edits_sims.
rewrite es em (@eff_stale _ _ _ _ _ _ _ _ _ _ _ _ _ _ _ _ _ (snd (fst (efficiencies (w_heap w, w_sims w k)))) x a b) //.
have [qa ga] := @edits_attrs _ _ _ _ _ _ _ _ _ _ _ _ _ (@i_unif Nx Ny) (@i_build_u Nx Ny nh) (@i_build_p Nx Ny nh) (@i_modes_u Nx Ny nh)
  (@i_modes_p nh eig) (@i_S0 Nx Ny nh) (@i_step Nx Ny nh) (@i_amp0 Nx Ny nh) (@i_ampN Nx Ny nh) (@i_ampI Nx Ny nh)
  (@i_eff Nx Ny nh) (@i_fld Nx Ny nh) (@i_str Nx Ny nh) (@i_cx Nx Ny nh) 0%Re os w' F a.
have [qb gb] := @edits_attrs _ _ _ _ _ _ _ _ _ _ _ _ _ (@i_unif Nx Ny) (@i_build_u Nx Ny nh) (@i_build_p Nx Ny nh) (@i_modes_u Nx Ny nh)
  (@i_modes_p nh eig) (@i_S0 Nx Ny nh) (@i_step Nx Ny nh) (@i_amp0 Nx Ny nh) (@i_ampN Nx Ny nh) (@i_ampI Nx Ny nh)
  (@i_eff Nx Ny nh) (@i_fld Nx Ny nh) (@i_str Nx Ny nh) (@i_cx Nx Ny nh) 0%Re os w' F b.
rewrite (@i_eff_attrs _ _ _ (look (@i_unif Nx Ny) (w_heap w') a) (look (@i_unif Nx Ny) (w_heap w') b)) //.
by rewrite eh he.
Qed.

(** ** A superstrate changed after construction *)
Lemma i_eff_flux (p p' : param) v v' x r :
  p_pw p = p_pw p' -> p_a0 p = p_a0 p' -> p_flux p != 0 -> p_flux p' != 0 ->
  i_eff p' v v' x = Ok r -> i_eff p v v' x = Ok (scale_effs (p_flux p' / p_flux p)%R r).
Proof.
move=> ew ea f f'; rewrite /i_eff.
case: (slayer_modes v) => [l|] //; case: (slayer_modes v') => [l'|] //; cbn [bind].
rewrite /p_omega ew ea (negbTE f) (negbTE f').
case: (_ || _) => //.
move: (poynting _ l _ _).2 (poynting _ l' _ _).1 => A B /(@Ok_inv (effs nh)) <-.
have K (a : R) : a / p_flux p = (p_flux p' / p_flux p) * (a / p_flux p').
  by rewrite [RHS]mulrC mulrA divfK.
by rewrite /scale_effs; congr (Ok (_, _)); apply/matrixP=> i j; rewrite !mxE; exact: K.
Qed.

Notation i_view := (@solved_view param T E Pat Q G (@i_unif Nx Ny) (@i_build_u Nx Ny nh) (@i_build_p Nx Ny nh)
  (@i_modes_u Nx Ny nh) (@i_modes_p nh eig)).
Lemma view_param (p p' : param) : p_pw p = p_pw p' -> p_kx p = p_kx p' -> p_ky p = p_ky p' ->
  p_h p = p_h p' -> p_form p = p_form p' -> forall x, i_view p x = i_view p' x.
Proof.
move=> ew ex ey eh ef [t e].
have b : i_build p e = i_build p' e by rewrite /i_build /p_omega ew ex ey eh ef.
have bu : i_build_u p e = i_build_u p' e by rewrite /i_build_u b.
have bp : i_build_p p e = i_build_p p' e by rewrite /i_build_p b.
have mu : i_modes_u p e = i_modes_u p' e by rewrite /i_modes_u /p_omega ew ex ey.
by rewrite /solved_view bu bp mu.
Qed.
Lemma eff_spec_flux (p p' : param) d r : p_pw p = p_pw p' -> p_kx p = p_kx p' -> p_ky p = p_ky p' ->
  p_h p = p_h p' -> p_form p = p_form p' -> p_a0 p = p_a0 p' -> p_flux p != 0 -> p_flux p' != 0 ->
  i_eff_spec p' d = Ok r -> i_eff_spec p d = Ok (scale_effs (p_flux p' / p_flux p)%R r).
Proof.
move=> ew ex ey eh ef ea f f'.
apply: (@eff_spec_map _ _ _ _ _ _ _ _ _ _ _ _ _ _ _ _ p p' (scale_effs (p_flux p' / p_flux p)%R)).
- exact: view_param.
- by [].
- by [].
- by move=> v v' x r'; exact: i_eff_flux.
Qed.

(** Normal incidence: the permittivity of the superstrate enters the parameters only
    through the incident flux. *)
Theorem superstrate_run (pw : planewave) rec hm form i0 (e0 e1 : R) t0 d0 t d p r :
  (0 < cos (pw_theta pw))%Re -> sin (pw_theta pw) = 0%Re -> (0 < e0)%Re -> (0 < e1)%Re ->
  mk_param pw rec hm form i0 ((t0, EpsUniform Nx Ny (rc e0)) :: d0) = Ok p ->
  run_efficiencies eig pw rec hm form (map (@as_layer Nx Ny) ((t, EpsUniform Nx Ny (rc e1)) :: d)) i0 = Ok r ->
  i_eff_spec p ((t, EpsUniform Nx Ny (rc e1)) :: d) = Ok (scale_effs (Num.sqrt e0 / Num.sqrt e1)%Re r).
Proof.
move=> c sn e0p e1p; rewrite /mk_param [scalar_eps _]/=; cbn [bind].
case ha: (pw_a0 pw) => [a|] //; cbn [bind] => -[<-].
set p0 := Param _ _ _ _ (rc e0) _ _; pose p1 := Param pw rec hm form (rc e1) i0 a.
have hp1 : mk_param pw rec hm form i0 ((t, EpsUniform Nx Ny (rc e1)) :: d) = Ok p1.
  by rewrite /mk_param [scalar_eps _]/=; cbn [bind]; rewrite ha.
move=> hr.
have ep1 : i_eff_spec p1 ((t, EpsUniform Nx Ny (rc e1)) :: d) = Ok r by rewrite -hr; exact: eff_run.
have kz e : k0para pw e = (0, 0).
  by rewrite /k0para /pw_kx /pw_ky sn !Rmult_0_l !Rmult_0_r !mul0r.
have kz0 : k0para (p_pw p0) (p_e0 p0) = (0, 0) := kz _.
have kz1 : k0para (p_pw p1) (p_e0 p1) = (0, 0) := kz _.
have ex : p_kx p0 = p_kx p1 by rewrite /p_kx /sim_kx kz0 kz1.
have ey : p_ky p0 = p_ky p1 by rewrite /p_ky /sim_ky kz0 kz1.
have s0 : (0 < Num.sqrt e0)%Re by apply/RltP; rewrite sqrtr_gt0; apply/RltP.
have s1 : (0 < Num.sqrt e1)%Re by apply/RltP; rewrite sqrtr_gt0; apply/RltP.
have f0 : p_flux p0 = (cos (pw_theta pw) / Num.sqrt e0)%Re by exact: flux_E.
have f1 : p_flux p1 = (cos (pw_theta pw) / Num.sqrt e1)%Re by exact: flux_E.
have g0 : (0 < p_flux p0)%Re by rewrite f0; exact: Rdiv_lt_0_compat.
have g1 : (0 < p_flux p1)%Re by rewrite f1; exact: Rdiv_lt_0_compat.
have n0 : p_flux p0 <> 0 by move=> E0; rewrite E0 -R_zeroE in g0; lra.
have n1 : p_flux p1 <> 0 by move=> E0; rewrite E0 -R_zeroE in g1; lra.
have := @eff_spec_flux p0 p1 _ r erefl ex ey erefl erefl erefl (introN eqP n0) (introN eqP n1) ep1.
move=> ->; congr (Ok (scale_effs _ r)).
by rewrite -(R_invE n0) f0 f1; rfold; field; lra.
Qed.
End Shared.

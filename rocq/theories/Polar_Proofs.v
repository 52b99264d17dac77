(** The computation is linear in the polarization. *)
From Coq Require Import Reals ZArith Lra.
From mathcomp Require Import all_ssreflect all_algebra.
From mathcomp Require Import complex.
From Verif Require Import RStruct Cplx Base Fourier_Model Sim_Model Setup_Model Energy_Proofs Energy_Proofs2 Polar_Spec.

Set Implicit Arguments.
Unset Strict Implicit.
Unset Printing Implicit Defensive.

Import Order.TTheory GRing.Theory Num.Theory.
Local Open Scope ring_scope.
Local Open Scope complex_scope.

Lemma a0_polar pw psi u v :
  pw_a0 (polarized pw 0%Re) = Ok u -> pw_a0 (polarized pw (PI / 2)%Re) = Ok v ->
  pw_a0 (polarized pw psi) = Ok ((cos psi * u.1 + sin psi * v.1)%Re, (cos psi * u.2 + sin psi * v.2)%Re).
Proof.
rewrite /pw_a0.
rewrite -/(pw_det (polarized pw 0%Re)).
change (pw_det (polarized pw (PI / 2)%Re)) with (pw_det (polarized pw 0%Re)).
change (pw_det (polarized pw psi)) with (pw_det (polarized pw 0%Re)).
case: (Req_EM_T _ _) => // hd [<-] [<-] /=.
rewrite /pw_cx /pw_cy /= cos_0 sin_0 cos_PI2 sin_PI2.
change (pw_Q11 (polarized pw (PI / 2)%Re)) with (pw_Q11 (polarized pw 0%Re)).
change (pw_Q12 (polarized pw (PI / 2)%Re)) with (pw_Q12 (polarized pw 0%Re)).
change (pw_Q22 (polarized pw (PI / 2)%Re)) with (pw_Q22 (polarized pw 0%Re)).
change (pw_Q11 (polarized pw psi)) with (pw_Q11 (polarized pw 0%Re)).
change (pw_Q12 (polarized pw psi)) with (pw_Q12 (polarized pw 0%Re)).
change (pw_Q22 (polarized pw psi)) with (pw_Q22 (polarized pw 0%Re)).
change (pw_k0 (polarized pw (PI / 2)%Re)) with (pw_k0 (polarized pw 0%Re)).
change (pw_k0 (polarized pw psi)) with (pw_k0 (polarized pw 0%Re)).
change (pw_q (polarized pw (PI / 2)%Re)) with (pw_q (polarized pw 0%Re)).
change (pw_q (polarized pw psi)) with (pw_q (polarized pw 0%Re)).
congr (Ok (_, _)); ring.
Qed.

Lemma a0_some pw psi psi' u : pw_a0 (polarized pw psi) = Ok u -> exists v, pw_a0 (polarized pw psi') = Ok v.
Proof.
rewrite /pw_a0.
change (pw_det (polarized pw psi')) with (pw_det (polarized pw psi)).
by case: (Req_EM_T _ _) => // hd _; eexists.
Qed.

(** One component of the flux is a quadratic form. *)
Definition fwd (Aa Ab pa pb : C) : R :=
  complex.Re (rc (complex.Re (conj Aa * pa)) + 2%:R^-1 * (conj pb * Aa - conj Ab * pa)).
Definition bwd (Aa Ab pa pb : C) : R :=
  complex.Re (- rc (complex.Re (conj Ab * pb)) + conj (2%:R^-1 * (conj pb * Aa - conj Ab * pa))).

Lemma quad_fwd (c s : R) (A1 A2 B1 B2 p1 p2 r1 r2 : C) :
  fwd (rc c * A1 + rc s * A2) (rc c * B1 + rc s * B2) (rc c * p1 + rc s * p2) (rc c * r1 + rc s * r2) =
  (c * c * fwd A1 B1 p1 r1 + s * s * fwd A2 B2 p2 r2 +
   c * s * (fwd (A1 + A2)%R (B1 + B2)%R (p1 + p2)%R (r1 + r2)%R - fwd A1 B1 p1 r1 - fwd A2 B2 p2 r2))%Re.
Proof.
rewrite /fwd half_rc; case: A1 => ? ?; case: A2 => ? ?; case: B1 => ? ?; case: B2 => ? ?.
case: p1 => ? ?; case: p2 => ? ?; case: r1 => ? ?; case: r2 => ? ? /=.
by rfold; field.
Qed.

Lemma quad_bwd (c s : R) (A1 A2 B1 B2 p1 p2 r1 r2 : C) :
  bwd (rc c * A1 + rc s * A2) (rc c * B1 + rc s * B2) (rc c * p1 + rc s * p2) (rc c * r1 + rc s * r2) =
  (c * c * bwd A1 B1 p1 r1 + s * s * bwd A2 B2 p2 r2 +
   c * s * (bwd (A1 + A2)%R (B1 + B2)%R (p1 + p2)%R (r1 + r2)%R - bwd A1 B1 p1 r1 - bwd A2 B2 p2 r2))%Re.
Proof.
rewrite /bwd half_rc; case: A1 => ? ?; case: A2 => ? ?; case: B1 => ? ?; case: B2 => ? ?.
case: p1 => ? ?; case: p2 => ? ?; case: r1 => ? ?; case: r2 => ? ? /=.
by rfold; field.
Qed.

Lemma Ok_inj T (x y : T) : Ok x = Ok y -> x = y. Proof. by case. Qed.

Section P.
Variables (nh : nat) (omega : R).
Notation n2 := (nh + nh)%N.
Notation comb c s a b := (rc c *: a + rc s *: b).

Lemma upL (M : 'M[C]_n2) c s (a b : 'cV[C]_n2) i :
  up (M *m comb c s a b) i = rc c * up (M *m a) i + rc s * up (M *m b) i.
Proof. by rewrite /up mulmxDr -!scalemxAr !mxE. Qed.
Lemma dnL (M : 'M[C]_n2) c s (a b : 'cV[C]_n2) i :
  dn (M *m comb c s a b) i = rc c * dn (M *m a) i + rc s * dn (M *m b) i.
Proof. by rewrite /dn mulmxDr -!scalemxAr !mxE. Qed.
Lemma upD (M : 'M[C]_n2) (a b : 'cV[C]_n2) i : up (M *m (a + b)) i = up (M *m a) i + up (M *m b) i.
Proof. by rewrite /up mulmxDr mxE. Qed.
Lemma dnD (M : 'M[C]_n2) (a b : 'cV[C]_n2) i : dn (M *m (a + b)) i = dn (M *m a) i + dn (M *m b) i.
Proof. by rewrite /dn mulmxDr mxE. Qed.

Lemma poynting_quad (l : slayer nh) c s (a1 a2 b1 b2 : 'cV[C]_n2) i :
  let P a b := poynting omega l a b in
  let q x y z := (c * c * x + s * s * y + c * s * (z - x - y))%Re in
  (P (comb c s a1 a2) (comb c s b1 b2)).1 i ord0 =
    q ((P a1 b1).1 i ord0) ((P a2 b2).1 i ord0) ((P (a1 + a2) (b1 + b2)).1 i ord0) /\
  (P (comb c s a1 a2) (comb c s b1 b2)).2 i ord0 =
    q ((P a1 b1).2 i ord0) ((P a2 b2).2 i ord0) ((P (a1 + a2) (b1 + b2)).2 i ord0).
Proof.
move=> P q; rewrite /P.
have [-> ->] := poyntingE omega l (comb c s a1 a2) (comb c s b1 b2) i.
have [-> ->] := poyntingE omega l a1 b1 i.
have [-> ->] := poyntingE omega l a2 b2 i.
have [-> ->] := poyntingE omega l (a1 + a2) (b1 + b2) i.
rewrite !upL !dnL !upD !dnD.
split.
- rewrite -!/(fwd _ _ _ _) !quad_fwd /q; rfold; ring.
- rewrite -!/(bwd _ _ _ _) !quad_bwd /q; rfold; ring.
Qed.

Lemma ext_lin (S : smat nh) c s (a1 a2 : 'cV[C]_n2) :
  let p1 := solve_ext S a1 0 in let p2 := solve_ext S a2 0 in
  (solve_ext S (comb c s a1 a2) 0) = (comb c s p1.1 p2.1, comb c s p1.2 p2.2) /\
  (solve_ext S (a1 + a2) 0) = (p1.1 + p2.1, p1.2 + p2.2).
Proof. by rewrite /solve_ext /= !mulmx0 !addr0 !mulmxDr -!scalemxAr. Qed.

Lemma q_div (c s x y z f : R) :
  (c * c * x + s * s * y + c * s * (z - x - y))%Re / f =
  (c * c * (x / f)%R + s * s * (y / f)%R + c * s * ((z - x - y)%R / f)%R)%Re.
Proof. by move: (f^-1) => g; rfold; ring. Qed.

Lemma q_neg (c s x y z f : R) :
  - (c * c * x + s * s * y + c * s * (z - x - y))%Re / f =
  (c * c * (- x / f)%R + s * s * (- y / f)%R + c * s * (- (z - x - y)%R / f)%R)%Re.
Proof. by move: (f^-1) => g; rfold; ring. Qed.

Lemma map_div (c s f : R) (B B1 B2 B3 : 'cV[R]_nh) i :
  B i ord0 = (c * c * B1 i ord0 + s * s * B2 i ord0 + c * s * (B3 i ord0 - B1 i ord0 - B2 i ord0))%Re ->
  map_mx (fun x => x / f) B i ord0 =
  (c * c * map_mx (fun x => x / f)%R B1 i ord0 + s * s * map_mx (fun x => x / f)%R B2 i ord0 +
   c * s * ((B3 i ord0 - B1 i ord0 - B2 i ord0)%R / f)%R)%Re.
Proof. by move=> e; rewrite !mxE e q_div. Qed.

Lemma map_neg (c s f : R) (B B1 B2 B3 : 'cV[R]_nh) i :
  B i ord0 = (c * c * B1 i ord0 + s * s * B2 i ord0 + c * s * (B3 i ord0 - B1 i ord0 - B2 i ord0))%Re ->
  map_mx (fun x => - x / f) B i ord0 =
  (c * c * map_mx (fun x => - x / f)%R B1 i ord0 + s * s * map_mx (fun x => - x / f)%R B2 i ord0 +
   c * s * (- (B3 i ord0 - B1 i ord0 - B2 i ord0)%R / f)%R)%Re.
Proof. by move=> e; rewrite !mxE e q_neg. Qed.

Lemma eff_polar flux stack (a1 a2 : 'cV[C]_n2) r1 r2 :
  efficiencies omega flux stack a1 0 = Ok r1 -> efficiencies omega flux stack a2 0 = Ok r2 ->
  exists X : 'I_nh -> R * R, forall c s, exists2 r,
    efficiencies omega flux stack (comb c s a1 a2) 0 = Ok r &
    forall i, r.1 i ord0 = (c * c * r1.1 i ord0 + s * s * r2.1 i ord0 + c * s * (X i).1)%Re /\
              r.2 i ord0 = (c * c * r1.2 i ord0 + s * s * r2.2 i ord0 + c * s * (X i).2)%Re.
Proof.
rewrite /efficiencies; case: (smatrix stack) => [Sm|//]; cbn [bind].
case: stack => [|l0 rest]; first by [].
case: (~~ _ || _); first by []. case: (flux == 0); first by [].
move=> e1 e2; have {e1 e2} [<- <-] := (Ok_inj e1, Ok_inj e2).
set p1 := solve_ext Sm a1 0; set p2 := solve_ext Sm a2 0; set lN := last l0 rest.
exists (fun i => (- ((poynting omega l0 (a1 + a2) (p1.2 + p2.2)).2 i ord0 -
                     (poynting omega l0 a1 p1.2).2 i ord0 - (poynting omega l0 a2 p2.2).2 i ord0) / flux,
                 ((poynting omega lN (p1.1 + p2.1) 0).1 i ord0 -
                     (poynting omega lN p1.1 0).1 i ord0 - (poynting omega lN p2.1 0).1 i ord0) / flux)).
move=> c s; eexists; first by reflexivity.
move=> i; have [-> _] := ext_lin Sm c s a1 a2; rewrite -/p1 -/p2; cbn [fst snd].
have [_ H2] := poynting_quad l0 c s a1 a2 p1.2 p2.2 i.
have z : (0 : 'cV[C]_n2) = comb c s 0 0 by rewrite !scaler0 addr0.
have [H1 _] := poynting_quad lN c s p1.1 p2.1 0 0 i.
rewrite -z addr0 in H1; cbv zeta in H1, H2.
by split; [exact: (map_neg flux H2) | exact: (map_div flux H1)].
Qed.

Lemma amp_polar stack k (a1 a2 : 'cV[C]_n2) p1 p2 c s :
  get_amplitudes stack k a1 0 = Ok p1 -> get_amplitudes stack k a2 0 = Ok p2 ->
  get_amplitudes stack k (comb c s a1 a2) 0 = Ok (comb c s p1.1 p2.1, comb c s p1.2 p2.2).
Proof.
rewrite /get_amplitudes; case: ifP => _.
  case: (smatrix stack) => [Sm|//]; cbn [bind] => -[<-] [<-].
  by have [-> _] := ext_lin Sm c s a1 a2.
case: ifP => _.
  case: (smatrix stack) => [Sm|//]; cbn [bind] => -[<-] [<-].
  have [-> _] := ext_lin Sm c s a1 a2 => /=; by rewrite !scaler0 addr0.
case: (smatrix (take _ _)) => [Sm|//]; cbn [bind]; case: (smatrix (drop _ _)) => [Pm|//]; cbn [bind].
rewrite /solve_int /solve; case: ifP => // _; cbn [bind] => -[<-] [<-] /=.
by rewrite !mulmxDr -!scalemxAr ?mulmxDr -?scalemxAr.
Qed.

Lemma translate_polar (l : slayer nh) z p1 p2 q1 q2 c s :
  translate l z p1 = Ok q1 -> translate l z p2 = Ok q2 ->
  translate l z (comb c s p1.1 p2.1, comb c s p1.2 p2.2) = Ok (comb c s q1.1 q2.1, comb c s q1.2 q2.2).
Proof.
rewrite /translate; case: (sl_thick l) => [t|//] [<-] [<-] /=.
have vm (d : 'rV[C]_n2) (u v : 'cV[C]_n2) : vmul d (comb c s u v) = comb c s (vmul d u) (vmul d v).
  by apply/colP => i; rewrite !mxE mulrDl !mulrA.
by rewrite !vm.
Qed.

Lemma field_polar (kx ky : 'rV[C]_nh) (l : slayer nh) p1 p2 F1 F2 c s :
  field_of omega kx ky l p1 = Ok F1 -> field_of omega kx ky l p2 = Ok F2 ->
  exists2 F, field_of omega kx ky l (comb c s p1.1 p2.1, comb c s p1.2 p2.2) = Ok F &
             superposed c s F1 F2 F.
Proof.
rewrite /field_of; case: ifP => // _ /=.
set ht1 := sl_phi l *m (p1.1 + p1.2); set ht2 := sl_phi l *m (p2.1 + p2.2).
set A1 : 'cV[C]_n2 := \col_i ((p1.1 - p1.2) i ord0 / _).
set A2 : 'cV[C]_n2 := \col_i ((p2.1 - p2.2) i ord0 / _).
have -> : sl_phi l *m (comb c s p1.1 p2.1 + comb c s p1.2 p2.2) = comb c s ht1 ht2.
  by rewrite addrACA -!scalerDr mulmxDr -!scalemxAr.
set A : 'cV[C]_n2 := \col_i ((comb c s p1.1 p2.1 - comb c s p1.2 p2.2) i ord0 / _).
have -> : A = comb c s A1 A2.
  by apply/colP => i; rewrite !mxE; cring.
rewrite (mulmxDr (sl_phi l)) -!(scalemxAr _ (sl_phi l)) (mulmxDr (sl_Qeps l)) -!(scalemxAr _ (sl_Qeps l)).
set et1 := sl_Qeps l *m (sl_phi l *m A1); set et2 := sl_Qeps l *m (sl_phi l *m A2).
clearbody et1 et2 ht1 ht2.
set z1 : 'cV[C]_nh := \col_i ((ky ord0 i * usubmx ht1 i ord0 - _) / _).
set z2 : 'cV[C]_nh := \col_i ((ky ord0 i * usubmx ht2 i ord0 - _) / _).
set z : 'cV[C]_nh := \col_i ((ky ord0 i * usubmx (comb c s ht1 ht2) i ord0 - _) / _).
have -> : z = comb c s z1 z2 by apply/colP => i; rewrite !mxE; cring.
clearbody z1 z2; case: (sl_eps l) => [e|E].
  case: ifP => // _; cbn [bind] => -[<-] [<-]; eexists; first by reflexivity.
  by split; split=> i; cbn [f_ex f_ey f_ez f_hx f_hy f_hz]; rewrite !mxE; cring.
rewrite /solve; case: ifP => // _; cbn [bind].
rewrite (mulmxDr (invmx E)) -!(scalemxAr _ (invmx E)).
move: (invmx E *m z1) (invmx E *m z2) => w1 w2 [<-] [<-]; eexists; first by reflexivity.
by split; split=> i; cbn [f_ex f_ey f_ez f_hx f_hy f_hz]; rewrite !mxE; cring.
Qed.

Lemma fourier_polar (kx ky : 'rV[C]_nh) stack k (a1 a2 : 'cV[C]_n2) z F1 F2 c s :
  get_field_fourier omega kx ky stack k a1 0 z = Ok F1 -> get_field_fourier omega kx ky stack k a2 0 z = Ok F2 ->
  exists2 F, get_field_fourier omega kx ky stack k (comb c s a1 a2) 0 z = Ok F & superposed c s F1 F2 F.
Proof.
rewrite /get_field_fourier; case: (List.nth_error stack k) => [l|//].
case h1: (get_amplitudes stack k a1 0) => [p1|//]; case h2: (get_amplitudes stack k a2 0) => [p2|//].
cbn [bind]; rewrite (amp_polar c s h1 h2); cbn [bind].
case t1: (translate l z p1) => [q1|//]; case t2: (translate l z p2) => [q2|//].
by cbn [bind]; rewrite (translate_polar c s t1 t2); cbn [bind]; apply: field_polar.
Qed.

Lemma sim_a0_comb (i0 : 'I_nh) c s (u v : R * R) :
  sim_a0 i0 ((c * u.1 + s * v.1)%Re, (c * u.2 + s * v.2)%Re) = comb c s (sim_a0 i0 u) (sim_a0 i0 v).
Proof.
have rl (x y : R) : rc (c * x + s * y)%Re = rc c * rc x + rc s * rc y.
  by apply/eqP; rewrite eq_complex /=; apply/andP; split; apply/eqP; rfold; ring.
rewrite /sim_a0 /= !scale_col_mx add_col_mx; congr col_mx; apply/colP => i; rewrite !mxE;
  by case: ifP => _; rewrite ?rl // !mulr0 addr0.
Qed.
End P.


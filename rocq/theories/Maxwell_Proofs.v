From Coq Require Import Reals ZArith Lra.
From mathcomp Require Import all_ssreflect all_algebra.
From mathcomp Require Import complex.
From Verif Require Import RStruct Cplx Cderiv Base Fourier_Model Sim_Model Sim_Spec.
From Verif Require Import SMat_Proofs SMat_Proofs2 SMat_Proofs3 Maxwell_Spec Modes_Proofs.

Set Implicit Arguments.
Unset Strict Implicit.
Unset Printing Implicit Defensive.

Import Order.TTheory GRing.Theory Num.Theory.
Local Open Scope ring_scope.
Local Open Scope complex_scope.

Section Maxwell.
Variables (Nx Ny nh : nat).
Variable eig : forall m, 'M[C]_m -> 'rV[C]_m * 'M[C]_m.
Variable omega : R.
Hypothesis omega_neq0 : rc omega != 0.
Variables kx ky : 'rV[C]_nh.
Variable h : 'I_nh -> order.
Notation n2 := (nh + nh)%N.
Notation Kx := (diag_mx kx).
Notation Ky := (diag_mx ky).
Notation w2 := (omega2 omega).
Implicit Types (l : slayer nh) (p : amp nh).

Lemma cderiv_fwd l p m z : cderiv (fun t => fwd l t p m) z ('i * sl_q l ord0 m * fwd l z p m).
Proof.
apply: (@cderiv_ext (fun t => p.1 m ord0 * cexp ('i * sl_q l ord0 m * rc t + 0))).
  by move=> t; rewrite addr0.
rewrite /fwd mulrCA.
have := cderiv_scale (p.1 m ord0) (cderiv_exp ('i * sl_q l ord0 m) 0 z).
by rewrite addr0.
Qed.

Lemma cderiv_bwd l p m z : cderiv (fun t => bwd l t p m) z (- ('i * sl_q l ord0 m * bwd l z p m)).
Proof.
have E t : 'i * sl_q l ord0 m * rc (thick0 l - t) =
  - ('i * sl_q l ord0 m) * rc t + 'i * sl_q l ord0 m * rc (thick0 l).
  by rewrite rmorphB /= mulrBr mulNr addrC.
apply: (@cderiv_ext (fun t => p.2 m ord0 *
   cexp (- ('i * sl_q l ord0 m) * rc t + 'i * sl_q l ord0 m * rc (thick0 l)))).
  by move=> t; rewrite /bwd E.
rewrite /bwd E; set c := 'i * _; set X := cexp _.
have -> : - (c * (p.2 m ord0 * X)) = p.2 m ord0 * (- c * X) by rewrite mulrCA mulNr mulrN.
exact: cderiv_scale (cderiv_exp _ _ z).
Qed.

Lemma vderiv_mul m k (A : 'M[C]_(m, k)) f z d : vderiv f z d -> vderiv (fun t => A *m f t) z (A *m d).
Proof.
move=> hd i; apply: (@cderiv_ext (fun t => \sum_j A i j * f t j ord0)).
  by move=> t; rewrite mxE.
by rewrite mxE; apply: cderiv_sum => j; apply: cderiv_scale.
Qed.

Lemma vderiv_add m (f g : R -> 'cV[C]_m) z d e : vderiv f z d -> vderiv g z e ->
  vderiv (fun t => f t + g t) z (d + e).
Proof.
move=> h1 h2 i; rewrite mxE; apply: (@cderiv_ext (fun t => f t i ord0 + g t i ord0)).
  by move=> t; rewrite mxE.
exact: cderiv_add.
Qed.

Lemma vderiv_ext m (f g : R -> 'cV[C]_m) z d : (forall t, f t = g t) -> vderiv f z d -> vderiv g z d.
Proof. by move=> e hd i; apply: cderiv_ext (hd i) => t; rewrite e. Qed.

Lemma vderiv_scale m c (f : R -> 'cV[C]_m) z d : vderiv f z d -> vderiv (fun t => c *: f t) z (c *: d).
Proof.
move=> hd i; rewrite mxE; apply: (@cderiv_ext (fun t => c * f t i ord0)).
  by move=> t; rewrite mxE.
exact: cderiv_scale.
Qed.

Lemma vderiv_opp m (f : R -> 'cV[C]_m) z d : vderiv f z d -> vderiv (fun t => - f t) z (- d).
Proof.
move=> hd; rewrite -scaleN1r; apply: vderiv_ext (vderiv_scale _ hd) => t.
by rewrite scaleN1r.
Qed.

Lemma vderiv_usub m k (f : R -> 'cV[C]_(m + k)) z d : vderiv f z d ->
  vderiv (fun t => usubmx (f t)) z (usubmx d).
Proof.
move=> hd i; rewrite mxE; apply: cderiv_ext (hd (lshift k i)) => t.
by rewrite mxE.
Qed.
Lemma vderiv_dsub m k (f : R -> 'cV[C]_(m + k)) z d : vderiv f z d ->
  vderiv (fun t => dsubmx (f t)) z (dsubmx d).
Proof.
move=> hd i; rewrite mxE; apply: cderiv_ext (hd (rshift m i)) => t.
by rewrite mxE.
Qed.

(** First order system for the tangential fields. *)
Lemma mode_E_deriv l p z : q_ok l ->
  vderiv (fun t => mode_E omega l t p) z (('i / rc omega) *: (sl_Qeps l *m mode_H l z p)).
Proof.
move=> /forallP hq.
apply: (@vderiv_ext _ (fun t => (rc omega)^-1 *: (sl_Qeps l *m scale_cols (sl_phi l) (qinv l)
   *m (\col_m (fwd l t p m) - \col_m (bwd l t p m))))).
  by move=> t; rewrite mode_EE.
rewrite mode_HE.
have hd : vderiv (fun t => \col_m fwd l t p m - \col_m bwd l t p m) z
  (\col_m ('i * sl_q l ord0 m * (fwd l z p m + bwd l z p m))).
  move=> i; rewrite mxE; apply: (@cderiv_ext (fun t => fwd l t p i + (-1) * bwd l t p i)).
    by move=> t; rewrite !mxE mulN1r.
  have -> : 'i * sl_q l ord0 i * (fwd l z p i + bwd l z p i) =
    'i * sl_q l ord0 i * fwd l z p i + (-1) * (- ('i * sl_q l ord0 i * bwd l z p i)).
    by rewrite mulN1r opprK mulrDr.
  exact: cderiv_add (cderiv_fwd _ _ _ _) (cderiv_scale _ (cderiv_bwd _ _ _ _)).
have := vderiv_scale ((rc omega)^-1) (vderiv_mul (sl_Qeps l *m scale_cols (sl_phi l) (qinv l)) hd).
congr (vderiv _ _ _).
rewrite -mulmxA scale_cols_mul mulrC -scalerA; congr (_ *: _).
rewrite scalemxAr; congr (_ *m _); rewrite scalemxAr; congr (_ *m _).
apply/colP=> i; rewrite !mxE.
by rewrite mulrAC mulfK ?hq.
Qed.

Lemma mode_H_deriv l p z (P : 'M[C]_n2) : q_ok l ->
  P *m sl_Qeps l *m sl_phi l = sl_phi l *m qsq l ->
  vderiv (fun t => mode_H l t p) z (('i * rc omega) *: (P *m mode_E omega l z p)).
Proof.
move=> /forallP hq hP.
apply: (@vderiv_ext _ (fun t => sl_phi l *m (\col_m (fwd l t p m) + \col_m (bwd l t p m)))).
  by move=> t; rewrite mode_HE.
rewrite mode_EE.
have hd : vderiv (fun t => \col_m fwd l t p m + \col_m bwd l t p m) z
  (\col_m ('i * sl_q l ord0 m * (fwd l z p m - bwd l z p m))).
  move=> i; rewrite mxE; apply: (@cderiv_ext (fun t => fwd l t p i + bwd l t p i)).
    by move=> t; rewrite !mxE.
  rewrite mulrBr.
  exact: cderiv_add (cderiv_fwd _ _ _ _) (cderiv_bwd _ _ _ _).
have := vderiv_mul (sl_phi l) hd.
congr (vderiv _ _ _).
rewrite -scalemxAr scalerA -mulrA divff // mulr1.
rewrite -mulmxA scale_cols_mul !mulmxA hP -mulmxA scalemxAr; congr (_ *m _).
rewrite /qsq mul_diag_mx; apply/colP=> i; rewrite !mxE expr2.
by rewrite [_ / _]mulrC -!mulrA mulVKf ?hq.
Qed.

Definition layer_epsz (eps : eps_t Nx Ny) (b : built nh) : 'M[C]_nh :=
  match eps with
  | EpsUniform e => e%:M
  | _ => odflt 0 (bt_eps_hat b)
  end.

Definition field_at l p (F : R -> fields nh) : Prop :=
  forall z, (let! p' := translate l z p in field_of omega kx ky l p') = Ok (F z).

Lemma field_atP l p F z : field_at l p F ->
  sl_thick l <> None /\ q_ok l /\
  col_mx (f_hx (F z)) (f_hy (F z)) = mode_H l z p /\
  col_mx (- f_ey (F z)) (f_ex (F z)) = mode_E omega l z p /\
  f_hz (F z) = \col_i ((kx ord0 i * f_ey (F z) i ord0 - ky ord0 i * f_ex (F z) i ord0) / rc omega) /\
  (match sl_eps l with inl e => e != 0 /\ e *: f_ez (F z) =
     \col_i ((ky ord0 i * f_hx (F z) i ord0 - kx ord0 i * f_hy (F z) i ord0) / rc omega)
   | inr eh => eh *m f_ez (F z) =
     \col_i ((ky ord0 i * f_hx (F z) i ord0 - kx ord0 i * f_hy (F z) i ord0) / rc omega) end).
Proof.
move=> /(_ z) H; ubind H p' hp'.
have ht : sl_thick l <> None by move: hp'; rewrite /translate; case: (sl_thick l).
split=> //.
have ht' : sl_thick l != None by apply/eqP.
have [h1 h2] := field_modes ht' hp' H.
have hq : q_ok l by move: H; rewrite /field_of; case: (q_ok l).
split=> //; split=> //; split=> //.
move: H; rewrite /field_of hq (negPf omega_neq0) /=.
case: (sl_eps l) => [e|eh] H; ubind H ez hez; case: H => <- /=; split=> //.
- by move: hez; case: eqP => // /eqP e0 [<-]; rewrite scalerA divff // scale1r.
- by move: hez => /solveP [].
Qed.

Hypothesis eig_ok : forall m (A : 'M[C]_m), A *m (eig A).2 = (eig A).2 *m diag_mx (eig A).1.

Lemma sl_eps_solve form thick eps l b :
  build_matrix omega kx ky h form 1 eps = Ok b ->
  solve_layer eig omega kx ky h form thick 1 eps = Ok l ->
  match sl_eps l with inl e => layer_epsz eps b = e%:M | inr eh => layer_epsz eps b = eh end.
Proof.
move=> hb; rewrite /solve_layer hb /=.
case: eps hb => [e|u|u|e] hb //; first by move=> [<-].
- have hne : forall e, EpsGrid u <> EpsUniform Nx Ny e by [].
  have [eh [ehi [h1 [_ [_ [_ [h5 _]]]]]]] := build_patternedP omega_neq0 hne hb.
  by rewrite h1 h5 => -[<-] /=; rewrite h1.
- have hne : forall e, EpsTensorGrid u <> EpsUniform Nx Ny e by [].
  have [eh [ehi [h1 [_ [_ [_ [h5 _]]]]]]] := build_patternedP omega_neq0 hne hb.
  by rewrite h1 h5 => -[<-] /=; rewrite h1.
Qed.

Lemma Kmu_apply (u v : 'cV[C]_nh) :
  build_Kmatrix 1%:M Kx Ky *m col_mx u v =
  col_mx (Kx *m (Kx *m u + Ky *m v)) (Ky *m (Kx *m u + Ky *m v)).
Proof. by rewrite Kmatrix_factor mulmx1 -mulmxA mul_row_col mul_col_mx. Qed.

Lemma Qeps_apply (ei : 'M[C]_nh) (u v : 'cV[C]_nh) :
  (w2%:M - build_Kmatrix ei Ky (- Kx)) *m col_mx u v =
  col_mx (w2 *: u - Ky *m (ei *m (Ky *m u - Kx *m v)))
         (w2 *: v + Kx *m (ei *m (Ky *m u - Kx *m v))).
Proof.
rewrite mulmxBl mul_scalar_mx scale_col_mx diagN Kmatrix_factor -diagN.
rewrite -!mulmxA mul_row_col mulNmx mul_col_mx mulNmx.
by rewrite opp_col_mx add_col_mx opprK.
Qed.

(** The inverse permittivity matrix that enters Qeps. *)
Lemma Qeps_layer form thick eps l b :
  build_matrix omega kx ky h form 1 eps = Ok b ->
  solve_layer eig omega kx ky h form thick 1 eps = Ok l ->
  layer_epsz eps b \in unitmx /\
  sl_Qeps l = w2%:M - build_Kmatrix (invmx (layer_epsz eps b)) Ky (- Kx).
Proof.
move=> hb hl; have [_ [-> _]] := solve_layer_modes omega_neq0 eig_ok hb hl.
case: eps hb hl => [e|u|u|e] hb hl //.
- move: hb; rewrite /build_matrix; case: eqP => // /eqP e0 [<-] /=.
  rewrite Pmu1 scale_scalar_mx mulr1 invmx_scalar; split=> //.
  by rewrite unitmxE det_scalar unitrX // unitfE.
- have hne : forall e, EpsGrid u <> EpsUniform Nx Ny e by [].
  have [eh [ehi [h1 [h2 [h3 [-> _]]]]]] := build_patternedP omega_neq0 hne hb.
  by rewrite /= h1 /= -h3.
- have hne : forall e, EpsTensorGrid u <> EpsUniform Nx Ny e by [].
  have [eh [ehi [h1 [h2 [h3 [-> _]]]]]] := build_patternedP omega_neq0 hne hb.
  by rewrite /= h1 /= -h3.
Qed.

Lemma maxwell_layer form thick eps l b p F z :
  build_matrix omega kx ky h form 1 eps = Ok b ->
  solve_layer eig omega kx ky h form thick 1 eps = Ok l ->
  field_at l p F ->
  let DT := layer_Peps eps b *m col_mx (- f_ey (F z)) (f_ex (F z)) in
  maxwell_at omega kx ky F (dsubmx DT) (- usubmx DT) (layer_epsz eps b *m f_ez (F z)) z.
Proof.
move=> hb hl hF DT.
have [hm [_ _]] := solve_layer_modes omega_neq0 eig_ok hb hl.
have [eu hQ] := Qeps_layer hb hl.
have [_ [hq _]] := field_atP z hF.
have dE := mode_E_deriv p z hq.
have dH := mode_H_deriv p z hq hm.
have {}dE : vderiv (fun t => col_mx (- f_ey (F t)) (f_ex (F t))) z
  (('i / rc omega) *: (sl_Qeps l *m col_mx (f_hx (F z)) (f_hy (F z)))).
  have [_ [_ [-> _]]] := field_atP z hF.
  by apply: vderiv_ext dE => t; have [_ [_ [_ [<- _]]]] := field_atP t hF.
have {}dH : vderiv (fun t => col_mx (f_hx (F t)) (f_hy (F t))) z
  (('i * rc omega) *: (Ptilde omega kx ky eps b *m col_mx (- f_ey (F z)) (f_ex (F z)))).
  have [_ [_ [_ [-> _]]]] := field_atP z hF.
  by apply: vderiv_ext dH => t; have [_ [_ [<- _]]] := field_atP t hF.
have Kd (k : 'rV[C]_nh) (v : 'cV[C]_nh) i : (diag_mx k *m v) i ord0 = k ord0 i * v i ord0.
  by rewrite mul_diag_mx mxE.
have Ka (u v : 'cV[C]_nh) i : (u + v) i ord0 = u i ord0 + v i ord0 by rewrite mxE.
have Kn (u : 'cV[C]_nh) i : (- u) i ord0 = - u i ord0 by rewrite mxE.
have Ks (a : C) (u : 'cV[C]_nh) i : (a *: u) i ord0 = a * u i ord0 by rewrite mxE.
have Kc (f : 'I_nh -> C) i : (\col_i f i) i ord0 = f i by rewrite mxE.
have KE := (Kd, Ka, Kn, Ks, Kc).
pose ez := f_ez (F z).
have hez : layer_epsz eps b *m ez =
  (rc omega)^-1 *: (Ky *m f_hx (F z) - Kx *m f_hy (F z)).
  have -> : (rc omega)^-1 *: (Ky *m f_hx (F z) - Kx *m f_hy (F z)) =
    \col_i ((ky ord0 i * f_hx (F z) i ord0 - kx ord0 i * f_hy (F z) i ord0) / rc omega).
    by apply/colP=> i; rewrite !KE mulrC.
  have [_ [_ [_ [_ [_]]]]] := field_atP z hF.
  have := sl_eps_solve hb hl; case: (sl_eps l) => [e|eh] -> => [[_ he]|he].
  - by rewrite mul_scalar_mx he.
  - by rewrite he.
have hei : invmx (layer_epsz eps b) *m (Ky *m f_hx (F z) - Kx *m f_hy (F z)) = rc omega *: ez.
  have -> : Ky *m f_hx (F z) - Kx *m f_hy (F z) = rc omega *: (layer_epsz eps b *m ez).
    by rewrite hez scalerA divff // scale1r.
  by rewrite -scalemxAr mulKmx.
pose hz := f_hz (F z).
have hhz : Kx *m (- f_ey (F z)) + Ky *m f_ex (F z) = - (rc omega *: hz).
  have [_ [_ [_ [_ [e _]]]]] := field_atP z hF.
  rewrite /hz e; apply/colP=> i.
  rewrite !KE mulrC mulrCA divff // mulr1; cring.
have w2i : rc omega * w2^-1 = (rc omega)^-1.
  by rewrite omega2E invfM mulrA divff // mul1r.
have iw : ('i / rc omega) * w2 = 'i * rc omega.
  by rewrite omega2E mulrA divfK.
rewrite hQ Qeps_apply hei in dE.
rewrite /Ptilde mulmxBl -scalemxAl Kmu_apply hhz -/DT in dH.
exists (dsubmx (('i / rc omega) *: col_mx (w2 *: f_hx (F z) - Ky *m (rc omega *: ez))
                                         (w2 *: f_hy (F z) + Kx *m (rc omega *: ez)))).
exists (- usubmx (('i / rc omega) *: col_mx (w2 *: f_hx (F z) - Ky *m (rc omega *: ez))
                                         (w2 *: f_hy (F z) + Kx *m (rc omega *: ez)))).
have dEx : vderiv (fun t => f_ex (F t)) z (dsubmx (('i / rc omega) *: col_mx (w2 *: f_hx (F z) - Ky *m (rc omega *: ez))
                                         (w2 *: f_hy (F z) + Kx *m (rc omega *: ez)))).
  by apply: vderiv_ext (vderiv_dsub dE) => t; rewrite col_mxKd.
have dEy : vderiv (fun t => f_ey (F t)) z (- usubmx (('i / rc omega) *: col_mx (w2 *: f_hx (F z) - Ky *m (rc omega *: ez))
                                         (w2 *: f_hy (F z) + Kx *m (rc omega *: ez)))).
  by apply: vderiv_ext (vderiv_opp (vderiv_usub dE)) => t; rewrite col_mxKu opprK.
eexists; eexists; eexists; split; first exact: dEx.
split; first exact: dEy.
split.
  by apply: vderiv_ext (vderiv_usub dH) => t; rewrite col_mxKu.
split.
  by apply: vderiv_ext (vderiv_dsub dH) => t; rewrite col_mxKd.
split.
  apply: vderiv_ext (vderiv_scale (rc omega)^-1 (vderiv_add (vderiv_mul Kx dEy) (vderiv_opp (vderiv_mul Ky dEx)))) => t.
  have [_ [_ [_ [_ [-> _]]]]] := field_atP t hF.
  by apply/colP=> i; rewrite !KE mulrC.
have Us (a : C) (v : 'cV[C]_n2) : usubmx (a *: v) = a *: usubmx v by apply/colP=> i; rewrite !mxE.
have Ds (a : C) (v : 'cV[C]_n2) : dsubmx (a *: v) = a *: dsubmx v by apply/colP=> i; rewrite !mxE.
have Ub (u v : 'cV[C]_n2) : usubmx (u - v) = usubmx u - usubmx v by apply/colP=> i; rewrite !mxE.
have Db (u v : 'cV[C]_n2) : dsubmx (u - v) = dsubmx u - dsubmx v by apply/colP=> i; rewrite !mxE.
have hhz' i : kx ord0 i * f_ey (F z) i ord0 - ky ord0 i * f_ex (F z) i ord0 = rc omega * hz i ord0.
  have /colP/(_ i) := hhz; rewrite !KE => /(congr1 -%R); rewrite opprK => <-; cring.
move=> i; rewrite -/ez hez /= !(Us, Ds, Ub, Db) !(col_mxKu, col_mxKd) !KE omega2E -/hz.
have := hhz' i; move: (rc omega) omega_neq0 (ez i ord0) (hz i ord0) => w w0 ezi hzi.
move: (f_ex (F z) i ord0) (f_ey (F z) i ord0) (f_hx (F z) i ord0) (f_hy (F z) i ord0) => ex ey hx hy.
move: (usubmx DT i ord0) (dsubmx DT i ord0) (kx ord0 i) (ky ord0 i) => dt1 dt2 a c e.
have e' : a * ey = w * hzi + c * ex by rewrite -e; cring.
have w0' : w <> C0 by apply/eqP.
split; first by cfield.
split; first by cfield.
split; first by rewrite -!mulrA e'; cring.
do 3 (split; first by cfield).
by cfield.
Qed.
End Maxwell.

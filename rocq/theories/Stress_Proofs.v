(** Conservation of the Maxwell stress through a lossless layer. *)
From Coq Require Import Reals ZArith Lra Lia.
From mathcomp Require Import all_ssreflect all_algebra.
From mathcomp Require Import complex.
From Verif Require Import RStruct Cplx Cderiv Base Fourier_Model Fourier_Spec Sim_Model Sim_Spec Setup_Model.
From Verif Require Import SMat_Proofs SMat_Proofs2 SMat_Proofs3 Maxwell_Spec Modes_Proofs Maxwell_Proofs.
From Verif Require Import Fourier_Proofs Energy_Spec Energy_Proofs Energy_Proofs2 Energy_Proofs3 Basis_Proofs.
From Verif Require Import Run_Proofs Run_Proofs2 Orders_Proofs Flux_Proofs Stress_Model Stress_Spec.

Set Implicit Arguments.
Unset Strict Implicit.
Unset Printing Implicit Defensive.

Import Order.TTheory GRing.Theory Num.Theory.
Local Open Scope ring_scope.
Local Open Scope complex_scope.

Section Dot.
Variable m : nat.
Lemma cderiv_dot (f g : R -> 'cV[C]_m) z d e : vderiv f z d -> vderiv g z e ->
  cderiv (fun t => dot (f t) (g t)) z (dot d (g z) + dot (f z) e).
Proof.
move=> hf hg; rewrite /dot -big_split /=; apply: cderiv_sum => i.
by apply: (cderiv_mul (hf i)); exact: cderiv_conj (hg i).
Qed.

Lemma dotNr (u v : 'cV[C]_m) : dot u (- v) = - dot u v.
Proof. by rewrite dotC dotN dotC; case: (dot u v) => a b; rewrite /conj /=; congr (_ +i* _); rewrite ?opprK. Qed.

Lemma herm_diag (k : 'rV[C]_m) : (forall i, conj (k ord0 i) = k ord0 i) -> herm (diag_mx k).
Proof.
move=> hk i j; rewrite !mxE eq_sym; case: eqP => [->|_]; first by rewrite !mulr1n hk.
by rewrite !mulr0n; apply/esym; exact: (conj_nat 0).
Qed.
End Dot.

Lemma sub_eq (x d c : C) : x - d = c -> d = x - c.
Proof. by move=> <-; rewrite opprB addrC subrK. Qed.
Lemma sub_eq' (x d c : C) : d - x = c -> d = c + x.
Proof. by move=> <-; rewrite subrK. Qed.
Lemma add_eq (x d c : C) : x + d = c -> d = c - x.
Proof. by move=> <-; rewrite addrC addKr. Qed.

Section Abstract.
Variable nh : nat.
Variable omega : R.
Hypothesis w0 : rc omega != 0.
Variables kx ky : 'rV[C]_nh.
Hypothesis kx_real : forall i, conj (kx ord0 i) = kx ord0 i.
Hypothesis ky_real : forall i, conj (ky ord0 i) = ky ord0 i.
Variable M : 'M[C]_nh.
Hypothesis hM : herm M.
Hypothesis uM : M \in unitmx.
Variable F : R -> fields nh.
Hypothesis hF : forall z, maxwell_at omega kx ky F (M *m f_ex (F z)) (M *m f_ey (F z)) (M *m f_ez (F z)) z.
Notation w := (rc omega).
Notation Kx := (diag_mx kx).
Notation Ky := (diag_mx ky).
Notation ex z := (f_ex (F z)).
Notation ey z := (f_ey (F z)).
Notation ez z := (f_ez (F z)).
Notation hx z := (f_hx (F z)).
Notation hy z := (f_hy (F z)).
Notation hz z := (f_hz (F z)).

Let Kd (k : 'rV[C]_nh) (v : 'cV[C]_nh) i : (diag_mx k *m v) i ord0 = k ord0 i * v i ord0.
Proof. by rewrite mul_diag_mx mxE. Qed.
Let Ka (u v : 'cV[C]_nh) i : (u + v) i ord0 = u i ord0 + v i ord0. Proof. by rewrite mxE. Qed.
Let Kn (u : 'cV[C]_nh) i : (- u) i ord0 = - u i ord0. Proof. by rewrite mxE. Qed.
Let Ks (a : C) (u : 'cV[C]_nh) i : (a *: u) i ord0 = a * u i ord0. Proof. by rewrite mxE. Qed.

Lemma dzE z : w *: (M *m ez z) = Ky *m hx z - Kx *m hy z.
Proof.
have [d1 [d2 [d3 [d4 [d5 [_ [_ [_ [_ [_ H]]]]]]]]]] := hF z.
apply/colP=> i; have [_ [_ [_ [_ [_ [H6 _]]]]]] := H i; move: H6.
rewrite !(Kd, Ka, Kn, Ks) => /= H6.
have i0 : 'i%R != 0 :> C by rewrite neq0Ci.
apply: (mulfI i0); have -> : 'i%R * (w * (M *m ez z) i ord0) = - (- 'i * w * (M *m ez z) i ord0) by cring.
by rewrite -H6; cring.
Qed.

Lemma hzE z : w *: hz z = Kx *m ey z - Ky *m ex z.
Proof.
have [d1 [d2 [d3 [d4 [d5 [_ [_ [_ [_ [_ H]]]]]]]]]] := hF z.
apply/colP=> i; have [_ [_ [H3 _]]] := H i; move: H3.
rewrite !(Kd, Ka, Kn, Ks) => /= H3.
have i0 : 'i%R != 0 :> C by rewrite neq0Ci.
by apply: (mulfI i0); rewrite !mulrA -H3; cring.
Qed.

Lemma derivs z : 
  vderiv (fun t => ex t) z ('i *: (w *: hy z + Kx *m ez z)) /\
  vderiv (fun t => ey t) z ('i *: (- (w *: hx z) + Ky *m ez z)) /\
  vderiv (fun t => hx t) z ('i *: (- (w *: (M *m ey z)) + Kx *m hz z)) /\
  vderiv (fun t => hy t) z ('i *: (w *: (M *m ex z) + Ky *m hz z)) /\
  vderiv (fun t => hz t) z (- 'i *: (Kx *m hx z + Ky *m hy z)) /\
  vderiv (fun t => M *m ez t) z (- 'i *: (Kx *m (M *m ex z) + Ky *m (M *m ey z))) /\
  vderiv (fun t => ez t) z (invmx M *m (- 'i *: (Kx *m (M *m ex z) + Ky *m (M *m ey z)))).
Proof.
have [d1 [d2 [d3 [d4 [d5 [D1 [D2 [D3 [D4 [D5 H]]]]]]]]]] := hF z.
have H1 i := (H i).1. have H2 i := (H i).2.1. have H4 i := (H i).2.2.2.1.
have H5 i := (H i).2.2.2.2.1. have H7 i := (H i).2.2.2.2.2.2.
have e1 : d1 = 'i *: (w *: hy z + Kx *m ez z).
  by apply/colP=> i; have := H2 i; rewrite !(Kd, Ka, Kn, Ks) => /= /sub_eq' ->; cring.
have e2 : d2 = 'i *: (- (w *: hx z) + Ky *m ez z).
  by apply/colP=> i; have := H1 i; rewrite !(Kd, Ka, Kn, Ks) => /= /sub_eq ->; cring.
have e3 : d3 = 'i *: (- (w *: (M *m ey z)) + Kx *m hz z).
  by apply/colP=> i; have := H5 i; rewrite !(Kd, Ka, Kn, Ks) => /= /sub_eq' ->; cring.
have e4 : d4 = 'i *: (w *: (M *m ex z) + Ky *m hz z).
  by apply/colP=> i; have := H4 i; rewrite !(Kd, Ka, Kn, Ks) => /= /sub_eq ->; cring.
have e5 : d5 = - 'i *: (Kx *m hx z + Ky *m hy z).
  by apply/colP=> i; have := H7 i; rewrite !(Kd, Ka, Kn, Ks) => /= /add_eq ->; cring.
rewrite -e1 -e2 -e3 -e4 -e5.
have D6 : vderiv (fun t => M *m ez t) z (- 'i *: (Kx *m (M *m ex z) + Ky *m (M *m ey z))).
  have -> : - 'i *: (Kx *m (M *m ex z) + Ky *m (M *m ey z)) = w^-1 *: (Ky *m d3 + - (Kx *m d4)).
    rewrite e3 e4; apply/colP=> i; rewrite !(Kd, Ka, Kn, Ks).
    have w0' : w <> C0 by apply/eqP.
    by cfield.
  apply: vderiv_ext (vderiv_scale w^-1 (vderiv_add (vderiv_mul Ky D3) (vderiv_opp (vderiv_mul Kx D4)))) => t.
  by rewrite -dzE scalerA mulVf // scale1r.
do 6 (split=> //).
apply: vderiv_ext (vderiv_mul (invmx M) D6) => t.
by rewrite mulKmx.
Qed.

Lemma Re_const (f : R -> C) : (forall z, exists d, cderiv f z d /\ complex.Re d = 0) ->
  forall x y, complex.Re (f x) = complex.Re (f y).
Proof.
move=> hd; apply: deriv0_const => z; have [d [[h1 _] h2]] := hd z.
exact: (derivable_pt_lim_eq h2 h1).
Qed.

Let hKx : herm Kx. Proof. exact: herm_diag. Qed.
Let hKy : herm Ky. Proof. exact: herm_diag. Qed.

Definition Tz z := dot (ez z) (M *m ez z) + dot (hz z) (hz z) - dot (ex z) (M *m ex z)
  - dot (ey z) (M *m ey z) - dot (hx z) (hx z) - dot (hy z) (hy z).
Definition Tx z := dot (ex z) (M *m ez z) + dot (hx z) (hz z).
Definition Ty z := dot (ey z) (M *m ez z) + dot (hy z) (hz z).

Lemma cderiv_sub f g z d e : cderiv f z d -> cderiv g z e -> cderiv (fun t => f t - g t) z (d - e).
Proof.
move=> hf hg; have -> : d - e = d + (-1) * e by rewrite mulN1r.
by apply: cderiv_ext (cderiv_add hf (cderiv_scale (-1) hg)) => t; rewrite mulN1r.
Qed.

(** a number and its conjugate, paired *)
Lemma Re_pairs (A B : C) : complex.Re (A + conj A - (B + conj B)) = 2%:R * complex.Re (A - B).
Proof. by case: A => a b; case: B => c d; rewrite /conj /=; rring. Qed.

Let conji : conj 'i = - 'i :> C.
Proof. by apply/eqP; rewrite eq_complex /= oppr0 !eqxx. Qed.

Let conjN (a : C) : conj (- a) = - conj a.
Proof. exact: rmorphN. Qed.

Lemma flipX u v : dot u (Kx *m v) = conj (dot v (Kx *m u)).
Proof. by rewrite -dotC -(dot_herm _ _ hKx). Qed.
Lemma flipY u v : dot u (Ky *m v) = conj (dot v (Ky *m u)).
Proof. by rewrite -dotC -(dot_herm _ _ hKy). Qed.

Lemma Tz_const x y : complex.Re (Tz x) = complex.Re (Tz y).
Proof.
apply: Re_const => z.
have [D1 [D2 [D3 [D4 [D5 [D6 D7]]]]]] := derivs z.
have hi := herm_inv hM.
eexists; split.
  apply: cderiv_sub (cderiv_dot D4 D4).
  apply: cderiv_sub (cderiv_dot D3 D3).
  apply: cderiv_sub (cderiv_dot D2 (vderiv_mul M D2)).
  apply: cderiv_sub (cderiv_dot D1 (vderiv_mul M D1)).
  exact: cderiv_add (cderiv_dot D7 D6) (cderiv_dot D5 D5).
rewrite (dot_herm _ _ hi) (mulKmx uM).
rewrite -!(dot_herm (ex z) _ hM) -!(dot_herm (ey z) _ hM).
rewrite !(dotZl, dotZr, dotDl, dotDr, dotN, dotNr, conjN, conji, rc_conj).
rewrite !(dot_herm _ _ hKx) !(dot_herm _ _ hKy).
rewrite (flipX (ez z) (M *m ex z)) (flipY (ez z) (M *m ey z)) (flipX (hz z) (hx z)) (flipY (hz z) (hy z)).
rewrite (dotC (M *m ex z) (hy z)) (dotC (M *m ey z) (hx z)).
move: (dot (M *m ex z) (Kx *m ez z)) (dot (M *m ey z) (Ky *m ez z)) (dot (hx z) (Kx *m hz z)).
move: (dot (hy z) (Ky *m hz z)) (dot (M *m ex z) (hy z)) (dot (M *m ey z) (hx z)).
by do 6 case=> ? ?; rewrite /conj /=; rring.
Qed.

Lemma wdz u z : w * dot u (M *m ez z) = dot u (Ky *m hx z) - dot u (Kx *m hy z).
Proof. by rewrite -[w in LHS]rc_conj -dotZr dzE dotDr dotNr. Qed.
Lemma whz u z : w * dot u (hz z) = dot u (Kx *m ey z) - dot u (Ky *m ex z).
Proof. by rewrite -[w in LHS]rc_conj -dotZr hzE dotDr dotNr. Qed.

Variable e : C.
Hypothesis he : conj e = e.
Hypothesis eM : M = e%:M.
Let hMe (v : 'cV[C]_nh) : M *m v = e *: v. Proof. by rewrite eM mul_scalar_mx. Qed.

Lemma realP (a : C) : conj a = a -> a = rc (complex.Re a).
Proof. by case: a => x y [] h0; congr (_ +i* _); move: h0; rfold; lra. Qed.
Lemma realX u : dot u (Kx *m u) = rc (complex.Re (dot u (Kx *m u))).
Proof. by apply: realP; rewrite -flipX. Qed.
Lemma realY u : dot u (Ky *m u) = rc (complex.Re (dot u (Ky *m u))).
Proof. by apply: realP; rewrite -flipY. Qed.

Lemma Tx_const x y : complex.Re (Tx x) = complex.Re (Tx y).
Proof.
apply: Re_const => z.
have [D1 [D2 [D3 [D4 [D5 [D6 D7]]]]]] := derivs z.
eexists; split.
  exact: cderiv_add (cderiv_dot D1 D6) (cderiv_dot D3 D5).
rewrite !(dotZl, dotZr, dotDl, dotDr, dotN, dotNr, conjN, conji, rc_conj).
rewrite ?(dot_herm _ _ hKx) ?(dot_herm _ _ hKy).
rewrite wdz whz !hMe -?scalemxAr !(dotZl, dotZr) he.
rewrite (flipY (ex z) (ey z)) (flipY (hx z) (hy z)).
rewrite (realX (hy z)) (realX (ez z)) (realX (ex z)) (realX (ey z)) (realX (hz z)) (realX (hx z)) (realP he).
move: (dot (hy z) (Ky *m hx z)) (dot (ey z) (Ky *m ex z)).
move: (complex.Re _) (complex.Re _) (complex.Re _) (complex.Re _) (complex.Re _) (complex.Re _) (complex.Re _).
by move=> ? ? ? ? ? ? ? [? ?] [? ?]; rewrite /conj /=; rring.
Qed.

Lemma Ty_const x y : complex.Re (Ty x) = complex.Re (Ty y).
Proof.
apply: Re_const => z.
have [D1 [D2 [D3 [D4 [D5 [D6 D7]]]]]] := derivs z.
eexists; split.
  exact: cderiv_add (cderiv_dot D2 D6) (cderiv_dot D4 D5).
rewrite !(dotZl, dotZr, dotDl, dotDr, dotN, dotNr, conjN, conji, rc_conj).
rewrite ?(dot_herm _ _ hKx) ?(dot_herm _ _ hKy).
rewrite wdz whz !hMe -?scalemxAr !(dotZl, dotZr) he.
rewrite (flipX (ey z) (ex z)) (flipX (hy z) (hx z)).
rewrite (realY (hy z)) (realY (ez z)) (realY (ex z)) (realY (ey z)) (realY (hz z)) (realY (hx z)) (realP he).
move: (dot (hx z) (Kx *m hy z)) (dot (ex z) (Kx *m ey z)).
move: (complex.Re _) (complex.Re _) (complex.Re _) (complex.Re _) (complex.Re _) (complex.Re _) (complex.Re _).
by move=> ? ? ? ? ? ? ? [? ?] [? ?]; rewrite /conj /=; rring.
Qed.
End Abstract.

Section StressOf.
Variables (nh : nat) (omega : R).
Hypothesis w0 : rc omega != 0.
Variables kx ky : 'rV[C]_nh.
Variable l : slayer nh.
Variable F : fields nh.
Variable M : 'M[C]_nh.
Hypothesis hl : match sl_eps l with inl e => M = e%:M | inr eh => M = eh end.
Hypothesis hdz : rc omega *: (M *m f_ez F) = diag_mx ky *m f_hx F - diag_mx kx *m f_hy F.

Lemma stressE : stress omega kx ky l F =
  (complex.Re (dot (f_ex F) (M *m f_ez F) + dot (f_hx F) (f_hz F)),
   complex.Re (dot (f_ey F) (M *m f_ez F) + dot (f_hy F) (f_hz F)),
   2%:R^-1 * complex.Re (dot (f_ez F) (M *m f_ez F) + dot (f_hz F) (f_hz F) - dot (f_ex F) (M *m f_ex F)
     - dot (f_ey F) (M *m f_ey F) - dot (f_hx F) (f_hx F) - dot (f_hy F) (f_hy F))).
Proof.
have dzi i : (ky ord0 i * f_hx F i ord0 - kx ord0 i * f_hy F i ord0) / rc omega = (M *m f_ez F) i ord0.
  have Kd (k : 'rV[C]_nh) (v : 'cV[C]_nh) : (diag_mx k *m v) i ord0 = k ord0 i * v i ord0 by rewrite mul_diag_mx mxE.
  have Ka (u v : 'cV[C]_nh) : (u - v) i ord0 = u i ord0 - v i ord0 by rewrite !mxE.
  have Ks (c : C) (u : 'cV[C]_nh) : (c *: u) i ord0 = c * u i ord0 by rewrite mxE.
  have /colP/(_ i) := hdz; rewrite Ka Ks !Kd => <-.
  by rewrite mulrC mulKf.
have D : (match sl_eps l with
    | inl e => (e *: f_ex F, e *: f_ey F)
    | inr eh => (eh *m f_ex F, - (eh *m - f_ey F))
    end) = (M *m f_ex F, M *m f_ey F).
  move: hl; case: (sl_eps l) => [e|eh] ->; first by rewrite !mul_scalar_mx.
  by rewrite mulmxN opprK.
rewrite /stress D /csum; congr (_, _, _ * _).
- by rewrite /dot -big_split /=; congr complex.Re; apply: eq_bigr => i _; rewrite dzi.
- by rewrite /dot -big_split /=; congr complex.Re; apply: eq_bigr => i _; rewrite dzi.
- congr complex.Re; rewrite /dot -big_split -!sumrB /=; apply: eq_bigr => i _.
  by rewrite dzi.
Qed.
End StressOf.

Section Run.
Variables (Nx Ny nh : nat).
Hypotheses (Nx0 : (0 < Nx)%N) (Ny0 : (0 < Ny)%N).
Variable eig : forall m, 'M[C]_m -> 'rV[C]_m * 'M[C]_m.
Hypothesis eig_ok : forall m (A : 'M[C]_m), A *m (eig A).2 = (eig A).2 *m diag_mx (eig A).1.
Variable pw : planewave.
Hypothesis lam : (0 < pw_lambda pw)%Re.
Variable rec : 'M[R]_2.
Variable h : 'I_nh -> order.
Variable form : formulation_t Nx Ny.
Variable i0 : 'I_nh.
Notation w := (sim_omega pw).
Variables (l0 : layer_in Nx Ny) (rest : seq (layer_in Nx Ny)) (e0 : R).
Hypothesis e0p : (0 < e0)%Re.
Hypothesis he0 : li_eps l0 = EpsUniform Nx Ny (rc e0).
Notation layers := (l0 :: rest).
Notation run_stress := (run_stress eig pw rec h form layers i0).
Notation run_field := (run_field eig pw rec h form layers i0).
Notation kx := (sim_kx pw rec h (rc e0)).
Notation ky := (sim_ky pw rec h (rc e0)).

Lemma run_stressP k z T : run_stress k z = Ok T ->
  exists a st l F, pw_a0 pw = Ok a /\ solve_stack eig pw rec h form (rc e0) layers = Ok st /\
    List.nth_error st k = Some l /\ get_field_fourier w kx ky st k (sim_a0 i0 a) 0 z = Ok F /\
    run_field k z = Ok F /\ T = stress w kx ky l F.
Proof.
rewrite /Stress_Model.run_stress /Setup_Model.run_field he0 /=.
case: (pw_a0 pw) => [a|] //=; case: (solve_stack _ _ _ _ _ _ _) => [st|] //=.
case hf: (get_field_fourier _ _ _ _ _ _ _ _) => [F|] //=; case hn: (List.nth_error st k) => [l|] //= [<-].
by exists a, st, l, F.
Qed.

Lemma k_real : (forall i, conj (kx ord0 i) = kx ord0 i) /\ (forall i, conj (ky ord0 i) = ky ord0 i).
Proof.
have [-> ->] := sim_kE pw rec h e0p.
by split=> i; rewrite mxE; apply: rc_conj.
Qed.

(** The matrix of the layer and its fields at all heights *)
Lemma stress_data k li z T : List.nth_error layers k = Some li ->
  (match li_eps li with EpsUniform _ => True | EpsGrid _ => form = Original Nx Ny | _ => False end) ->
  lossless (li_eps li) -> run_stress k z = Ok T ->
  exists M F, herm M /\ M \in unitmx /\
    (forall e, li_eps li = EpsUniform Nx Ny e -> M = e%:M) /\
    (forall z, maxwell_at w kx ky F (M *m f_ex (F z)) (M *m f_ey (F z)) (M *m f_ez (F z)) z) /\
    (forall z, constitutive h form (li_eps li) (f_ex (F z)) (f_ey (F z)) (f_ez (F z))
       (M *m f_ex (F z)) (M *m f_ey (F z)) (M *m f_ez (F z))) /\
    (forall z F', run_field k z = Ok F' -> F' = F z) /\
    (forall z, exists T, run_stress k z = Ok T) /\
    (forall z T, run_stress k z = Ok T -> T = (complex.Re (Tx M F z), complex.Re (Ty M F z),
       2%:R^-1 * complex.Re (Tz M F z))).
Proof.
move=> hk hiso hloss hT; have w0 := w_neq0 lam.
have [a [st [l [F0 [h2 [h3 [hl [h4 [_ _]]]]]]]]] := run_stressP hT.
have [l' [hl' hs]] := mapr_nth h3 hk; have e : l' = l by move: hl'; rewrite hl => -[].
subst l'.
have H := h4; rewrite /get_field_fourier hl in H; ubind H p hp; ubind H p' hp'.
have [F hFF] := field_all_z hp' H.
have hs' := hs; rewrite /solve_layer in hs'; ubind hs' b hb.
have hm z1 := maxwell_layer w0 eig_ok z1 hb hs hFF.
have [uM _] := Qeps_layer w0 eig_ok hb hs.
have hpf : herm (layer_epsz (li_eps li) b).
  move: hiso hloss hb {hs' hs hm uM}; case: (li_eps li) => [e|u|u|e] // hiso hloss hb; first exact: herm_scalar.
  have hf : plain_form form by rewrite hiso.
  by have [] := lossless_herm (eps := EpsGrid u) w0 Nx0 Ny0 hf hloss hb.
have hP (v : 'cV[C]_(nh + nh)) : layer_Peps (li_eps li) b *m v =
   col_mx (layer_epsz (li_eps li) b *m usubmx v) (layer_epsz (li_eps li) b *m dsubmx v).
  move: hiso hb {hs' hs hm uM hpf}; case: (li_eps li) hloss => [e|u|u|e] // _ hiso hb.
  - by rewrite /= !mul_scalar_mx -scale_col_mx vsubmxK.
  - have hne : forall e, EpsGrid u <> EpsUniform Nx Ny e by [].
    have [eh [ehi [h1' [_ [_ [_ [_ [_ [_ [h8 _]]]]]]]]]] := build_patternedP w0 hne hb.
    rewrite /= (h8 _ erefl hiso) h1' /= -[v in LHS]vsubmxK mul_block_col !mul0mx addr0 add0r //.
have hz1 z1 : get_field_fourier w kx ky st k (sim_a0 i0 a) 0 z1 = Ok (F z1).
  by rewrite /get_field_fourier hl hp /=; apply: hFF.
have hmx z1 : maxwell_at w kx ky F (layer_epsz (li_eps li) b *m f_ex (F z1))
    (layer_epsz (li_eps li) b *m f_ey (F z1)) (layer_epsz (li_eps li) b *m f_ez (F z1)) z1.
  move: (hm z1); cbv zeta; rewrite hP !col_mxKu !col_mxKd.
  by rewrite mulmxN opprK.
exists (layer_epsz (li_eps li) b), F; split=> //; split=> //; split.
  by move=> e ->.
split=> //; split.
  move=> z1; have hc : constitutive h form (li_eps li) (f_ex (F z1)) (f_ey (F z1)) (f_ez (F z1))
    (dsubmx (layer_Peps (li_eps li) b *m col_mx (- f_ey (F z1)) (f_ex (F z1))))
    (- usubmx (layer_Peps (li_eps li) b *m col_mx (- f_ey (F z1)) (f_ex (F z1))))
    (layer_epsz (li_eps li) b *m f_ez (F z1)).
    by apply: (constitutive_ok Nx0 Ny0 w0 _ _ _ _ hb); move: hiso; case: (li_eps li).
  by move: hc; rewrite hP !col_mxKu !col_mxKd mulmxN opprK.
split.
  move=> z1 F1; rewrite /Setup_Model.run_field he0 /= h2 /= h3 /= hz1.
  by move=> [].
split.
  by move=> z1; rewrite /Stress_Model.run_stress he0 /= h2 /= h3 /= hz1 /= hl /=; eexists.
move=> z1 T1 hT1.
have [a' [st' [l' [F1 [h2' [h3' [hl'' [h4' [_ ->]]]]]]]]] := run_stressP hT1.
have ea : a' = a by move: h2'; rewrite h2 => -[].
subst a'; have es : st' = st by move: h3'; rewrite h3 => -[].
subst st'; have el : l' = l by move: hl''; rewrite hl => -[].
subst l'; have eF : F1 = F z1 by move: h4'; rewrite hz1 => -[].
subst F1; rewrite (stressE w0 (l := l) (M := layer_epsz (li_eps li) b)) //.
  by have := sl_eps_solve w0 hb hs; case: (sl_eps l).
exact: (dzE hmx).
Qed.

Lemma run_stress_z k li z z' T : List.nth_error layers k = Some li ->
  (match li_eps li with EpsUniform _ => True | EpsGrid _ => form = Original Nx Ny | _ => False end) ->
  lossless (li_eps li) -> run_stress k z = Ok T ->
  exists T', run_stress k z' = Ok T' /\ T'.2 = T.2 /\
    (forall e, li_eps li = EpsUniform Nx Ny e -> T' = T).
Proof.
move=> hk hiso hloss hT; have w0 := w_neq0 lam; have [kxr kyr] := k_real.
have [M [F [hM [uM [hu [hmx [_ [_ [hall hval]]]]]]]]] := stress_data hk hiso hloss hT.
have [T' hT'] := hall z'; exists T'; split=> //.
rewrite (hval _ _ hT') (hval _ _ hT); split.
  by rewrite /= (Tz_const w0 kxr kyr hM uM hmx z' z).
move=> e ee; have eM := hu _ ee; have er : conj e = e by move: hloss; rewrite ee.
by rewrite (Tz_const w0 kxr kyr hM uM hmx z' z) (Tx_const w0 kxr kyr uM hmx er eM z' z)
  (Ty_const w0 kxr kyr uM hmx er eM z' z).
Qed.

(** The textbook tensor of the fields and of the displacement *)
Lemma run_stress_value k li z T F : List.nth_error layers k = Some li ->
  (match li_eps li with EpsUniform _ => True | EpsGrid _ => form = Original Nx Ny | _ => False end) ->
  lossless (li_eps li) -> run_stress k z = Ok T -> run_field k z = Ok F ->
  exists Dx Dy Dz, constitutive h form (li_eps li) (f_ex F) (f_ey F) (f_ez F) Dx Dy Dz /\
    T = z_stress F Dx Dy Dz.
Proof.
move=> hk hiso hloss hT hF.
have [M [F' [hM [uM [hu [hmx [hc [hf [hall hval]]]]]]]]] := stress_data hk hiso hloss hT.
rewrite (hf _ _ hF) (hval _ _ hT).
exists (M *m f_ex (F' z)), (M *m f_ey (F' z)), (M *m f_ez (F' z)); split=> //.
rewrite /Tx /Ty /Tz /z_stress /dot -!big_split /= -!sumrB !Re_sum.
by congr (_, _, _); rewrite mulr_sumr.
Qed.

(** The transverse components are the momentum carried by the power of the orders. *)
Lemma one_order (a b : R) (ex ey hx hy hz dz : C) : rc w != 0 ->
  hz = (rc a * ey - rc b * ex) / rc w -> dz = (rc b * hx - rc a * hy) / rc w ->
  complex.Re (ex * conj dz + hx * conj hz) = - (a * complex.Re (ex * conj hy - ey * conj hx)) / w /\
  complex.Re (ey * conj dz + hy * conj hz) = - (b * complex.Re (ex * conj hy - ey * conj hx)) / w.
Proof.
move=> w0 -> ->; have wn : w <> 0%Re by move=> e; move: w0; rewrite e eqxx.
rewrite (rcV wn); move: ex ey hx hy => [x1 x2] [y1 y2] [u1 u2] [v1 v2]; rewrite /conj /=.
rewrite (R_invE wn).
by split; rfold; field.
Qed.

Lemma run_stress_lateral k z T F : run_stress k z = Ok T -> run_field k z = Ok F ->
  T.1.1 = - (\sum_i rkx pw rec h e0 ord0 i * order_flux F i) / w /\
  T.1.2 = - (\sum_i rky pw rec h e0 ord0 i * order_flux F i) / w.
Proof.
move=> hT hF; have w0 := w_neq0 lam.
have [a [st [l [F0 [h2 [h3 [hl [h4 [h5 ->]]]]]]]]] := run_stressP hT.
have eF : F0 = F by move: h5; rewrite hF => -[].
subst F0.
have hz : f_hz F = \col_i ((kx ord0 i * f_ey F i ord0 - ky ord0 i * f_ex F i ord0) / rc w).
  move: h4; rewrite /get_field_fourier hl => H; ubind H p hp; ubind H p' hp'.
  by move: H; rewrite /field_of; case: ifP => // _ H; ubind H ez hez; case: H => <-.
have wn : w <> 0%Re by move=> e; move: w0; rewrite e eqxx.
have [ekx eky] := sim_kE pw rec h e0p.
have sumE (k1 : 'rV[R]_nh) : - (\sum_i k1 ord0 i * order_flux F i) / w =
   \sum_i - (k1 ord0 i * order_flux F i) / w.
  by rewrite -sumrN mulr_suml.
rewrite !sumE; split.
all: rewrite /stress; case: (match sl_eps l with inl _ => _ | inr _ => _ end) => dx dy; cbn [fst snd].
all: rewrite /csum Re_sum; apply: eq_bigr => i _.
all: have [H1 H2] := one_order (a := rkx pw rec h e0 ord0 i) (b := rky pw rec h e0 ord0 i) (ex := f_ex F i ord0)
   (ey := f_ey F i ord0) (hx := f_hx F i ord0) (hy := f_hy F i ord0) w0 erefl erefl.
all: rewrite hz ekx eky !mxE.
- by move: H1; rewrite !mxE.
- by move: H2; rewrite !mxE.
Qed.
End Run.

Lemma run_stress_defined (Nx Ny nh : nat) eig pw rec (h : 'I_nh -> order) (form : formulation_t Nx Ny) i0 layers k z F :
  run_field eig pw rec h form layers i0 k z = Ok F ->
  exists T, run_stress eig pw rec h form layers i0 k z = Ok T.
Proof.
rewrite /Setup_Model.run_field /run_stress; case: layers => [|l0 rest] //.
case: (scalar_eps _) => [e|] //=; case: (pw_a0 pw) => [a|] //=; case: (solve_stack _ _ _ _ _ _ _) => [st|] //=.
move=> hF; rewrite hF /=; move: hF; rewrite /get_field_fourier; case: (List.nth_error st k) => [l|] // _ /=.
by eexists.
Qed.

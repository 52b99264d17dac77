(** The general symmetry theorem in terms of the vocabulary of Symm_Spec. *)
From Coq Require Import Reals ZArith Lra.
From mathcomp Require Import all_ssreflect all_algebra all_fingroup.
From mathcomp Require Import complex.
From Verif Require Import RStruct Cplx Base Fourier_Model Fourier_Spec Sim_Model Setup_Model.
From Verif Require Import Fourier_Proofs Energy_Proofs Symm_Spec Symm_Proofs4 Symm_Proofs5 Symm_Proofs6 Symm_Proofs7.

Set Implicit Arguments.
Unset Strict Implicit.
Unset Printing Implicit Defensive.

Import Order.TTheory GRing.Theory Num.Theory.
Local Open Scope ring_scope.
Local Open Scope complex_scope.

Lemma Forall2_nth A B (Q : A -> B -> Prop) a b s t : List.Forall2 Q (a :: s) (b :: t) ->
  size s = size t /\ forall k, (k <= size t)%N -> Q (nth a (a :: s) k) (nth b (b :: t) k).
Proof.
have gen a' b' s' t' : List.Forall2 Q s' t' -> size s' = size t' /\
  forall k, (k < size t')%N -> Q (nth a' s' k) (nth b' t' k).
  elim=> [|x y s'' t'' hq _ [e ih]] //=; split=> [|[|k]] //; first by rewrite e.
  exact: ih.
by move=> /(gen a b) [[e] h]; split=> // k hk; apply: h.
Qed.

Section Comb.
Variable nh : nat.
Variable tau : 'S_nh.
Variable ph : 'I_nh -> C.
Hypothesis ph1 : forall i, ph i * conj (ph i) = 1.
Variable sg : R.
Hypothesis sg1 : (sg * sg = 1)%Re.
Variables o00 o01 o10 o11 : R.
Hypothesis c0 : (o00 * o00 + o10 * o10 = 1)%Re.
Hypothesis c1 : (o01 * o01 + o11 * o11 = 1)%Re.
Hypothesis c01 : (o00 * o01 + o10 * o11 = 0)%Re.
Variable d : R.
Hypotheses (d1 : (d * d = 1)%Re) (d00 : o11 = (d * o00)%Re) (d01 : (- o10 = d * o01)%Re).
Variables (s e : R).
Hypothesis s0 : (0 < s)%Re.
Hypothesis ee : (e * e = 1)%Re.
Variables Nx1 Ny1 Nx2 Ny2 : nat.
Hypotheses (Nx10 : (0 < Nx1)%N) (Ny10 : (0 < Ny1)%N) (Nx20 : (0 < Nx2)%N) (Ny20 : (0 < Ny2)%N).
Variables (h1 h2 : 'I_nh -> order).
Variable g : 'I_Nx2 * 'I_Ny2 -> 'I_Nx1 * 'I_Ny1.
Hypothesis gb : bijective g.
Hypothesis hg : forall i x y, wave (h2 i).1 (h2 i).2 x y =
  conj (ph i) * wave (h1 (tau i)).1 (h1 (tau i)).2 (g (x, y)).1 (g (x, y)).2.
Variables (form1 : formulation_t Nx1 Ny1) (form2 : formulation_t Nx2 Ny2).
Variables eig1 eig2 : forall m, 'M[C]_m -> 'rV[C]_m * 'M[C]_m.
Hypothesis eig1_ok : forall m (A : 'M[C]_m), A *m (eig1 A).2 = (eig1 A).2 *m diag_mx (eig1 A).1.
Hypothesis eig2_ok : forall m (A : 'M[C]_m), A *m (eig2 A).2 = (eig2 A).2 *m diag_mx (eig2 A).1.
Variables (pw1 pw2 : planewave) (rec1 rec2 : 'M[R]_2).
Hypothesis hk0 : pw_k0 pw1 = (s * pw_k0 pw2)%Re.
Hypothesis hth : pw_theta pw2 = pw_theta pw1.
Hypothesis hkx : pw_kx pw2 = (e / s * (o00 * pw_kx pw1 + o01 * pw_ky pw1))%Re.
Hypothesis hky : pw_ky pw2 = (e / s * (o10 * pw_kx pw1 + o11 * pw_ky pw1))%Re.
Hypothesis hcy : (- pw_cy pw2)%Re = (sg * (o00 * - pw_cy pw1 + o01 * pw_cx pw1))%Re.
Hypothesis hcx : pw_cx pw2 = (sg * (o10 * - pw_cy pw1 + o11 * pw_cx pw1))%Re.
Let G1 a (o : order) := (rec1 a ord0 * IZR o.1 + rec1 a ord_max * IZR o.2)%Re.
Let G2 a (o : order) := (rec2 a ord0 * IZR o.1 + rec2 a ord_max * IZR o.2)%Re.
Hypothesis hGx : forall i, G2 ord0 (h2 i) = (e / s * (o00 * G1 ord0 (h1 (tau i)) + o01 * G1 ord_max (h1 (tau i))))%Re.
Hypothesis hGy : forall i, G2 ord_max (h2 i) = (e / s * (o10 * G1 ord0 (h1 (tau i)) + o11 * G1 ord_max (h1 (tau i))))%Re.
Variables (i1 i2 : 'I_nh).
Hypothesis hi : tau i2 = i1.
Hypothesis phi2 : ph i2 = 1.
Variables (f : R -> R) (P : 'M[C]_(Nx2, Ny2) -> 'M[C]_(Nx1, Ny1) -> Prop).
Variable T : ('I_3 -> 'I_3 -> 'M[C]_(Nx2, Ny2)) -> ('I_3 -> 'I_3 -> 'M[C]_(Nx1, Ny1)) -> Prop.
Variables (D : Prop) (V : 'M[C]_(Nx2, Ny2) -> 'M[C]_(Nx2, Ny2) -> 'M[C]_(Nx1, Ny1) -> 'M[C]_(Nx1, Ny1) -> Prop).
Hypothesis hf : forall t, f t = (s * t)%Re.
Hypothesis hP : forall u2 u1, P u2 u1 -> u2 = pull g u1.
Hypothesis hT : forall u2 u1, T u2 u1 -> tensor_moved o00 o01 o10 o11 g u2 u1.
Hypothesis hD : D -> o01 = 0%Re /\ o10 = 0%Re.
Hypothesis hV : forall s0 s1 t0 t1, V s0 s1 t0 t1 -> turned o00 o01 o10 o11 g t0 t1 s0 s1.
Hypothesis hform : form_by D P V form2 form1.
Variables (l1 : layer_in Nx1 Ny1) (rest1 : seq (layer_in Nx1 Ny1)).
Variables (l2 : layer_in Nx2 Ny2) (rest2 : seq (layer_in Nx2 Ny2)).
Variables (e0 eN : C).
Hypotheses (he1 : li_eps l1 = EpsUniform Nx1 Ny1 e0).
Hypotheses (heN1 : li_eps (last l1 rest1) = EpsUniform Nx1 Ny1 eN).
Hypothesis hlay : stack_by f P (if_original form1 T) (l2 :: rest2) (l1 :: rest1).

Let S1 : rc sg * rc sg = 1. Proof. by rewrite -rmorphM; congr (rc _). Qed.
Let ph' i := rc sg * ph i.
Lemma comb_ph1 i : ph' i * conj (ph' i) = 1.
Proof. by rewrite /ph' conjM rc_conj mulrACA S1 ph1 mulr1. Qed.
Lemma comb_cw : conj (rc sg) * rc sg = 1.
Proof. by rewrite rc_conj S1. Qed.
Lemma comb_hg i x y : wave (h2 i).1 (h2 i).2 x y =
  rc sg * conj (ph' i) * wave (h1 (tau i)).1 (h1 (tau i)).2 (g (x, y)).1 (g (x, y)).2.
Proof. by rewrite hg /ph' conjM rc_conj mulrA S1 mul1r. Qed.

Let rr : rc e / rc s = rc (e / s)%Re.
Proof. by rewrite -fmorphV -rmorphM /Rdiv R_invE //; exact: Rgt_not_eq. Qed.
Lemma comb_k (rt e' a b kx2 kx1 ky1 g2 gx1 gy1 : C) : kx2 = e' * (a * kx1 + b * ky1) ->
  g2 = e' * (a * gx1 + b * gy1) ->
  kx2 * rt + g2 = e' * (a * (kx1 * rt + gx1) + b * (ky1 * rt + gy1)).
Proof. by move=> -> ->; cring. Qed.

Lemma rcD x y : rc (x + y)%Re = rc x + rc y. Proof. exact: rmorphD. Qed.
Lemma rcM x y : rc (x * y)%Re = rc x * rc y. Proof. exact: rmorphM. Qed.

Lemma comb_hkx i : sim_kx pw2 rec2 h2 e0 ord0 i = rc e / rc s *
  (rc o00 * sim_kx pw1 rec1 h1 e0 ord0 (tau i) + rc o01 * sim_ky pw1 rec1 h1 e0 ord0 (tau i)).
Proof.
rewrite rr !mxE /k0para /zC /= -!addrA -!rcM -!rcD.
apply: comb_k; first by rewrite hkx !(rcM, rcD).
by have := hGx i; rewrite /G1 /G2 => ->; rewrite !(rcM, rcD).
Qed.
Lemma comb_hky i : sim_ky pw2 rec2 h2 e0 ord0 i = rc e / rc s *
  (rc o10 * sim_kx pw1 rec1 h1 e0 ord0 (tau i) + rc o11 * sim_ky pw1 rec1 h1 e0 ord0 (tau i)).
Proof.
rewrite rr !mxE /k0para /zC /= -!addrA -!rcM -!rcD.
apply: comb_k; first by rewrite hky !(rcM, rcD).
by have := hGy i; rewrite /G1 /G2 => ->; rewrite !(rcM, rcD).
Qed.
Lemma comb_ha a1 a2 : pw_a0 pw1 = Ok a1 -> pw_a0 pw2 = Ok a2 ->
  rc a2.1 = ph' i2 * (rc o00 * rc a1.1 + rc o01 * rc a1.2) /\
  rc a2.2 = ph' i2 * (rc o10 * rc a1.1 + rc o11 * rc a1.2).
Proof.
move=> /(a0_related c0 c1 c01 s0 ee hk0 hkx hky hcy hcx) -> [<-] /=.
by rewrite /ph' phi2 mulr1 !(rcM, rcD).
Qed.
Lemma comb_flux : incident_flux pw2 e0 = incident_flux pw1 e0.
Proof. by rewrite /incident_flux hth. Qed.
Lemma comb_form : form_moved o00 o01 o10 o11 g form1 form2 P.
Proof.
move: hform; rewrite /form_by /form_moved; case: form2 => [||tan2]; case: form1 => [||tan1] // H u2 u1 v t hu h2' h1'.
by apply: hV; exact: H hu h2' h1'.
Qed.
Lemma comb_lay k : (k <= size rest1)%N ->
  li_thick (nth l2 (l2 :: rest2) k) = omap (Rmult s) (li_thick (nth l1 (l1 :: rest1) k)) /\
  eps_moved o00 o01 o10 o11 g form1 P (li_eps (nth l2 (l2 :: rest2) k)) (li_eps (nth l1 (l1 :: rest1) k)).
Proof.
move=> hk; have [_ /(_ _ hk)] := Forall2_nth hlay.
move: (nth l2 _ k) (nth l1 _ k) => y x [-> h]; split; first by case: (li_thick x) => //= t; rewrite hf.
move: h; case: (li_eps y) => [a|a|a|a]; case: (li_eps x) => [b|b|b|b] //=; by move=> [ef /hT ht].
Qed.

Let ws : sim_omega pw1 = s * sim_omega pw2. Proof. exact: hk0. Qed.
Let hsz : size rest2 = size rest1. Proof. by have [] := Forall2_nth hlay. Qed.

Theorem comb_eff r1 r2 :
  run_efficiencies eig1 pw1 rec1 h1 form1 (l1 :: rest1) i1 = Ok r1 ->
  run_efficiencies eig2 pw2 rec2 h2 form2 (l2 :: rest2) i2 = Ok r2 ->
  forall i, r2.1 i ord0 = r1.1 (tau i) ord0 /\ r2.2 i ord0 = r1.2 (tau i) ord0.
Proof.
move=> H1 H2 i.
exact: (master_eff comb_ph1 c0 c1 c01 d1 d00 d01 s0 ee Nx10 Ny10 Nx20 Ny20 gb comb_cw comb_hg eig1_ok eig2_ok ws comb_hkx comb_hky hi comb_ha comb_flux hP comb_form he1 heN1 hsz comb_lay H1 H2).
Qed.

Theorem comb_field k z F1 F2 :
  run_field eig1 pw1 rec1 h1 form1 (l1 :: rest1) i1 k z = Ok F1 ->
  run_field eig2 pw2 rec2 h2 form2 (l2 :: rest2) i2 k (s * z) = Ok F2 ->
  moved tau (fun i => rc sg * ph i) o00 o01 o10 o11 d e F2 F1.
Proof.
move=> H1 H2.
exact: (master_field comb_ph1 c0 c1 c01 d1 d00 d01 s0 ee Nx10 Ny10 Nx20 Ny20 gb comb_cw comb_hg eig1_ok eig2_ok ws comb_hkx comb_hky hi comb_ha hP comb_form he1 heN1 hsz comb_lay H1 H2).
Qed.

Theorem comb :
  (forall r1 r2,
  run_efficiencies eig1 pw1 rec1 h1 form1 (l1 :: rest1) i1 = Ok r1 ->
  run_efficiencies eig2 pw2 rec2 h2 form2 (l2 :: rest2) i2 = Ok r2 ->
  forall i, r2.1 i ord0 = r1.1 (tau i) ord0 /\ r2.2 i ord0 = r1.2 (tau i) ord0) /\
  (forall k z F1 F2,
  run_field eig1 pw1 rec1 h1 form1 (l1 :: rest1) i1 k z = Ok F1 ->
  run_field eig2 pw2 rec2 h2 form2 (l2 :: rest2) i2 k (s * z) = Ok F2 ->
  moved tau (fun i => rc sg * ph i) o00 o01 o10 o11 d e F2 F1).
Proof. by split=> [r1 r2 H1 H2|k z F1 F2 H1 H2]; [exact: (comb_eff H1 H2)|exact: (comb_field H1 H2)]. Qed.
End Comb.

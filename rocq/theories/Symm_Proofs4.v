(** Two simulations related by a symmetry: efficiencies and fields. *)
From Coq Require Import Reals ZArith Lra.
From mathcomp Require Import all_ssreflect all_algebra all_fingroup.
From mathcomp Require Import complex.
From Verif Require Import RStruct Cplx Cderiv Base Fourier_Model Fourier_Spec Sim_Model Sim_Spec Setup_Model.
From Verif Require Import SMat_Proofs SMat_Proofs2 SMat_Proofs3 Maxwell_Spec Modes_Proofs Maxwell_Proofs.
From Verif Require Import Fourier_Proofs Energy_Spec Energy_Proofs Energy_Proofs2 Energy_Proofs3 Basis_Proofs.
From Verif Require Import Run_Proofs Run_Proofs2 Orders_Proofs Symm_Proofs Symm_Proofs2 Symm_Proofs3.

Set Implicit Arguments.
Unset Strict Implicit.
Unset Printing Implicit Defensive.

Import Order.TTheory GRing.Theory Num.Theory.
Local Open Scope ring_scope.
Local Open Scope complex_scope.

Section Run.
Variable nh : nat.
Notation n2 := (nh + nh)%N.
Variable tau : 'S_nh.
Variable ph : 'I_nh -> C.
Hypothesis ph1 : forall i, ph i * conj (ph i) = 1.
Variables o00 o01 o10 o11 : R.
Hypothesis c0 : (o00 * o00 + o10 * o10 = 1)%Re.
Hypothesis c1 : (o01 * o01 + o11 * o11 = 1)%Re.
Hypothesis c01 : (o00 * o01 + o10 * o11 = 0)%Re.
Variable d : R.
Hypotheses (d1 : (d * d = 1)%Re) (d00 : o11 = (d * o00)%Re) (d01 : (- o10 = d * o01)%Re).
Variables (s e : R).
Hypothesis s0 : (0 < s)%Re.
Hypothesis ee : (e * e = 1)%Re.
Variables Nx1 Ny1 Nx2 Ny2 : nat.
Variables (h1 h2 : 'I_nh -> order).
Variables (form1 : formulation_t Nx1 Ny1) (form2 : formulation_t Nx2 Ny2).
Variables eig1 eig2 : forall m, 'M[C]_m -> 'rV[C]_m * 'M[C]_m.
Hypothesis eig1_ok : forall m (A : 'M[C]_m), A *m (eig1 A).2 = (eig1 A).2 *m diag_mx (eig1 A).1.
Hypothesis eig2_ok : forall m (A : 'M[C]_m), A *m (eig2 A).2 = (eig2 A).2 *m diag_mx (eig2 A).1.
Variables (pw1 pw2 : planewave) (rec1 rec2 : 'M[R]_2).
Variables (e0 eN : C).
Notation w1 := (sim_omega pw1).
Notation w2 := (sim_omega pw2).
Notation kx1 := (sim_kx pw1 rec1 h1 e0).
Notation ky1 := (sim_ky pw1 rec1 h1 e0).
Notation kx2 := (sim_kx pw2 rec2 h2 e0).
Notation ky2 := (sim_ky pw2 rec2 h2 e0).
Hypothesis ws : w1 = s * w2.
Hypothesis hkx : forall i, kx2 ord0 i = rc e / rc s * (rc o00 * kx1 ord0 (tau i) + rc o01 * ky1 ord0 (tau i)).
Hypothesis hky : forall i, ky2 ord0 i = rc e / rc s * (rc o10 * kx1 ord0 (tau i) + rc o11 * ky1 ord0 (tau i)).
Variables (i1 i2 : 'I_nh).
Hypothesis hi : tau i2 = i1.
Hypothesis ha : forall a1 a2, pw_a0 pw1 = Ok a1 -> pw_a0 pw2 = Ok a2 ->
  rc a2.1 = ph i2 * (rc o00 * rc a1.1 + rc o01 * rc a1.2) /\
  rc a2.2 = ph i2 * (rc o10 * rc a1.1 + rc o11 * rc a1.2).
Hypothesis hf : incident_flux pw2 e0 = incident_flux pw1 e0.

Variables (l1 : layer_in Nx1 Ny1) (rest1 : seq (layer_in Nx1 Ny1)).
Variables (l2 : layer_in Nx2 Ny2) (rest2 : seq (layer_in Nx2 Ny2)).
Notation um := (um tau ph).
Notation Um := (Um tau ph o00 o01 o10 o11).
Notation rel_eps := (rel_eps tau ph o00 o01 o10 o11 w1 w2 kx1 ky1 kx2 ky2 h1 h2 form1 form2).

Hypotheses (he1 : li_eps l1 = EpsUniform Nx1 Ny1 e0) (he2 : li_eps l2 = EpsUniform Nx2 Ny2 e0).
Hypotheses (heN1 : li_eps (last l1 rest1) = EpsUniform Nx1 Ny1 eN) (heN2 : li_eps (last l2 rest2) = EpsUniform Nx2 Ny2 eN).
Hypothesis hsz : size rest2 = size rest1.
Hypothesis hrel : forall k, (k <= size rest1)%N ->
  li_thick (nth l2 (l2 :: rest2) k) = omap (Rmult s) (li_thick (nth l1 (l1 :: rest1) k)) /\
  rel_eps (li_eps (nth l2 (l2 :: rest2) k)) (li_eps (nth l1 (l1 :: rest1) k)).

Lemma a0_sim a1 a2 : pw_a0 pw1 = Ok a1 -> pw_a0 pw2 = Ok a2 -> sim_a0 i2 a2 = Um *m sim_a0 i1 a1.
Proof.
move=> h1' h2'; have [e1 e2] := ha h1' h2'.
rewrite /sim_a0 Um_col; congr col_mx; apply/colP=> i; rewrite umE !mxE -hi (inj_eq perm_inj).
- by case: eqP => [->|_]; rewrite ?e1 // !mulr0 addr0 mulr0.
- by case: eqP => [->|_]; rewrite ?e2 // !mulr0 addr0 mulr0.
Qed.

Section Stacks.
Hypothesis w20 : rc w2 != 0.
Variables (s1 s2 : slayer nh) (ss1 ss2 : seq (slayer nh)).
Hypothesis hst1 : solve_stack eig1 pw1 rec1 h1 form1 e0 (l1 :: rest1) = Ok (s1 :: ss1).
Hypothesis hst2 : solve_stack eig2 pw2 rec2 h2 form2 e0 (l2 :: rest2) = Ok (s2 :: ss2).
Let Uu : Um \in unitmx := Um_unit tau ph1 c0 c1 c01.

Lemma sz_st : size ss2 = size ss1 /\ size ss1 = size rest1.
Proof. by have /= [->] := mapr_size hst1; have /= [->] := mapr_size hst2; rewrite hsz. Qed.

Lemma st_solve k : (k <= size ss1)%N ->
  solve_layer eig1 w1 kx1 ky1 h1 form1 (li_thick (nth l1 (l1 :: rest1) k)) 1 (li_eps (nth l1 (l1 :: rest1) k)) = Ok (nth s1 (s1 :: ss1) k) /\
  solve_layer eig2 w2 kx2 ky2 h2 form2 (li_thick (nth l2 (l2 :: rest2) k)) 1 (li_eps (nth l2 (l2 :: rest2) k)) = Ok (nth s2 (s2 :: ss2) k).
Proof.
have [z21 z1] := sz_st => hk; split.
- have hk' : (k < size (l1 :: rest1))%N by rewrite /= ltnS -z1.
  have [b [hb ->]] := mapr_nth hst1 (nth_ne l1 hk').
  by move: hb; rewrite (nth_ne s1 (_ : k < size (s1 :: ss1))%N) // => -[->].
- have hk' : (k < size (l2 :: rest2))%N by rewrite /= ltnS hsz -z1.
  have [b [hb ->]] := mapr_nth hst2 (nth_ne l2 hk').
  by move: hb; rewrite (nth_ne s2 (_ : k < size (s2 :: ss2))%N) /= ?z21 // => -[->].
Qed.

Lemma st_thick k : (k <= size ss1)%N -> thick0 (nth s2 (s2 :: ss2) k) = s * thick0 (nth s1 (s1 :: ss1) k).
Proof.
move=> hk; have [H1 H2] := st_solve hk; have [_ z1] := sz_st.
have [ht _] := hrel (eq_ind _ (fun x => k <= x)%N hk _ z1).
have T (Nx Ny : nat) (form : formulation_t Nx Ny) eig w kx ky (h : 'I_nh -> order) t eps l :
   solve_layer eig w kx ky h form t 1 eps = Ok l -> sl_thick l = t.
  rewrite /solve_layer => H; ubind H b hb; move: H; case: eps hb => [u|u|u|u] _; first by move=> [<-].
  - by case: (bt_matrix b) => // m; case: (bt_eps_hat b) => // eh [<-].
  - by case: (bt_matrix b) => // m; case: (bt_eps_hat b) => // eh [<-].
  - by case: (bt_matrix b) => // m; case: (bt_eps_hat b) => // eh [<-].
rewrite /thick0 (T _ _ _ _ _ _ _ _ _ _ _ H1) (T _ _ _ _ _ _ _ _ _ _ _ H2) ht.
by case: (li_thick _) => [t|] //=; rewrite mulr0.
Qed.

Lemma st_sim k : (k <= size ss1)%N -> let a2 := nth s2 (s2 :: ss2) k in let a1 := nth s1 (s1 :: ss1) k in
  sl_Qeps a2 *m Um = (rc s ^+ 2)^-1 *: (Um *m sl_Qeps a1) /\
  exists A2 A1 : 'M[C]_n2, A2 *m Um = (rc s ^+ 2)^-1 *: (Um *m A1) /\
   A1 *m sl_phi a1 = sl_phi a1 *m qsq a1 /\ A2 *m sl_phi a2 = sl_phi a2 *m qsq a2.
Proof.
move=> hk; have [H1 H2] := st_solve hk; have [_ z1] := sz_st.
have [_ hr] := hrel (eq_ind _ (fun x => k <= x)%N hk _ z1).
exact: (layer_sim c0 c1 c01 d1 d00 d01 s0 ee w20 ws hkx hky eig1_ok eig2_ok hr H2 H1).
Qed.

(** inner layers, when their modes are independent *)
Lemma st_gcov k : (k <= size ss1)%N -> sl_phi (nth s2 (s2 :: ss2) k) \in unitmx ->
  forall p1, exists p2, gcov s w1 w2 Um (nth s2 (s2 :: ss2) k) (nth s1 (s1 :: ss1) k) p2 p1.
Proof.
move=> hk hu; have [hQ [A2 [A1 [hA [m1 m2]]]]] := st_sim hk.
exact: (sim_gcov s0 ws Uu (st_thick hk) hQ hA m1 m2 hu).
Qed.

(** the outer layers *)
Lemma st_outer k e' : (k <= size ss1)%N ->
  li_eps (nth l1 (l1 :: rest1) k) = EpsUniform Nx1 Ny1 e' -> li_eps (nth l2 (l2 :: rest2) k) = EpsUniform Nx2 Ny2 e' ->
  let a2 := nth s2 (s2 :: ss2) k in let a1 := nth s1 (s1 :: ss1) k in
  [/\ sl_phi a1 = 1%:M, sl_phi a2 = 1%:M,
    (forall i j, Um i j = 0 \/ sl_q a2 ord0 i = sl_q a1 ord0 j / rc s) &
    (forall q, gcov s w1 w2 Um a2 a1 (lift_amp Um q) q)].
Proof.
move=> hk E1 E2; have [H1 H2] := st_solve hk; rewrite E1 in H1; rewrite E2 in H2.
have [hQ _] := st_sim hk.
have [f1 f2 hq] := uni_sim ph c0 c1 c01 s0 ee ws hkx hky H2 H1.
by split=> //; exact: (uni_gcov s0 ws f1 f2 (st_thick hk) hQ hq).
Qed.

Lemma lastE (T : Type) (x : T) l : last x l = nth x (x :: l) (size l).
Proof. by rewrite -nth_last /=; case: l. Qed.

Lemma st_first : let a2 := s2 in let a1 := s1 in
  [/\ sl_phi a1 = 1%:M, sl_phi a2 = 1%:M,
    (forall i j, Um i j = 0 \/ sl_q a2 ord0 i = sl_q a1 ord0 j / rc s) &
    (forall q, gcov s w1 w2 Um a2 a1 (lift_amp Um q) q)].
Proof. exact: (@st_outer 0%N e0). Qed.
Lemma st_last : let a2 := last s2 ss2 in let a1 := last s1 ss1 in
  [/\ sl_phi a1 = 1%:M, sl_phi a2 = 1%:M,
    (forall i j, Um i j = 0 \/ sl_q a2 ord0 i = sl_q a1 ord0 j / rc s) &
    (forall q, gcov s w1 w2 Um a2 a1 (lift_amp Um q) q)].
Proof.
have [z21 z1] := sz_st; rewrite !lastE z21.
by apply: (@st_outer (size ss1) eN) => //; [rewrite z1 -lastE|rewrite z1 -hsz -lastE].
Qed.

Lemma st_all : (forall k, (k.+1 < size ss1)%N -> sl_phi (nth s2 ss2 k) \in unitmx) ->
  forall k, (k < size ss1)%N -> thick0 (nth s2 ss2 k) = s * thick0 (nth s1 ss1 k) /\
      forall q1, exists q2, gcov s w1 w2 Um (nth s2 ss2 k) (nth s1 ss1 k) q2 q1.
Proof.
move=> hu k hk; split; first exact: (@st_thick k.+1).
move: (hk); rewrite leq_eqVlt => /orP [/eqP ek|hk1]; last by apply: (@st_gcov k.+1) => //; apply: hu.
have [z21 z1] := sz_st; have [_ _ _ hg] := st_last.
have -> : nth s1 ss1 k = last s1 ss1 by rewrite -nth_last -ek.
have -> : nth s2 ss2 k = last s2 ss2 by rewrite -nth_last z21 -ek.
by move=> q1; exists (lift_amp Um q1).
Qed.
End Stacks.

Theorem sim_eff r1 r2 :
  run_efficiencies eig1 pw1 rec1 h1 form1 (l1 :: rest1) i1 = Ok r1 ->
  run_efficiencies eig2 pw2 rec2 h2 form2 (l2 :: rest2) i2 = Ok r2 ->
  forall i, r2.1 i ord0 = r1.1 (tau i) ord0 /\ r2.2 i ord0 = r1.2 (tau i) ord0.
Proof.
move=> /run_effP [e1 [a1 [st1 [E1 [ha1 [hs1 [w10 H1]]]]]]] /run_effP [e2 [a2 [st2 [E2 [ha2 [hs2 [w20 H2]]]]]]].
move: E1 E2; rewrite he1 he2 => -[ee1] [ee2]; subst e1 e2.
have [s1 [ss1 [f1 _]]] := mapr_cons hs1; have [s2 [ss2 [f2 _]]] := mapr_cons hs2; subst st1 st2.
rewrite (a0_sim ha1 ha2) in H2; move: (sim_a0 i1 a1) H1 H2 => a H1 H2.
move: H1 H2; rewrite !efficienciesE => H1 H2; ubind H1 S1 hS1; ubind H2 S2 hS2.
have [z21 z1] := sz_st hs1 hs2.
have nn : ss1 <> [::] by move: hS1 => /[swap] ->.
have [p1 p2 hq0 g0] := st_first w20 hs1 hs2; have [q1 q2 hqN gN] := st_last w20 hs1 hs2.
have hu k : (k.+1 < size ss1)%N -> sl_phi (nth s2 ss2 k) \in unitmx.
  by rewrite -z21 => hk; have /andP [_ /M_phi] := smatrix_nth_ok hS2 hk.
have hall := st_all w20 hs1 hs2 hu.
have hx := gcov_smatrix s0 w20 ws a 0 nn z21 hall (st_thick hs1 hs2 (leq0n _)) g0 gN hS1 hS2.
rewrite mulmx0 in hx.
have [hQ0 _] := st_sim w20 hs1 hs2 (leq0n _); have [hQN _] := st_sim w20 hs1 hs2 (leqnn _).
rewrite /= in hQ0; rewrite -lastE -z21 -lastE in hQN.
move: H1 H2; rewrite /eff_of hx hf.
do 3 (case: ifP => // _); move=> [<-] [<-] i.
have P0 := poynting_sim ph1 c0 c1 c01 s0 ws p1 p2 hQ0 hq0 a (solve_ext S1 a 0).2 i.
have PN := poynting_sim ph1 c0 c1 c01 s0 ws q1 q2 hQN hqN (solve_ext S1 a 0).1 0 i.
rewrite mulmx0 in PN.
by split; rewrite [LHS]mxE [RHS]mxE; [rewrite (proj2 P0)|rewrite (proj1 PN)].
Qed.

(** What a field vector becomes. *)
Definition moved (F2 F1 : fields nh) : Prop := forall i : 'I_nh,
  let c (v : 'cV[C]_nh) j := v j ord0 in
  [/\ c (f_hx F2) i = ph i * (rc o00 * c (f_hx F1) (tau i) + rc o01 * c (f_hy F1) (tau i)),
      c (f_hy F2) i = ph i * (rc o10 * c (f_hx F1) (tau i) + rc o11 * c (f_hy F1) (tau i)) &
      c (f_hz F2) i = ph i * (rc e * c (f_hz F1) (tau i))] /\
  [/\ c (f_ex F2) i = rc d * ph i * (rc o00 * c (f_ex F1) (tau i) + rc o01 * c (f_ey F1) (tau i)),
      c (f_ey F2) i = rc d * ph i * (rc o10 * c (f_ex F1) (tau i) + rc o11 * c (f_ey F1) (tau i)) &
      c (f_ez F2) i = rc d * ph i * (rc e * c (f_ez F1) (tau i))].

Let D1 : rc d * rc d = 1. Proof. by rewrite -rmorphM; congr (rc _). Qed.
Let E1 : rc e * rc e = 1. Proof. by rewrite -rmorphM; congr (rc _). Qed.
Let r10 : rc o10 = - rc d * rc o01.
Proof. have h : (o10 = - d * o01)%Re by move: d1 d01 => a b; rfold; lra. by rewrite {1}h -rmorphN -rmorphM. Qed.
Let r11 : rc o11 = rc d * rc o00. Proof. by rewrite {1}d00 -rmorphM. Qed.

Lemma ez_sol (w : R) (kx ky : 'rV[C]_nh) (l : slayer nh) (F : fields nh) (epsz : 'M[C]_nh) :
  match sl_eps l with inl e' => epsz = e'%:M | inr eh => epsz = eh end ->
  (let ez0 := \col_i ((ky ord0 i * f_hx F i ord0 - kx ord0 i * f_hy F i ord0) / rc w) in
    match sl_eps l with
    | inl e' => if e' == 0 then Err NaN else Ok (e'^-1 *: ez0)
    | inr eps_hat => solve eps_hat ez0
    end = Ok (f_ez F)) ->
  epsz *m f_ez F = \col_i ((ky ord0 i * f_hx F i ord0 - kx ord0 i * f_hy F i ord0) / rc w).
Proof.
cbv zeta; case: (sl_eps l) => [e'|eh] ->.
- by case: eqP => // /eqP en [<-]; rewrite mul_scalar_mx scalerA divff // scale1r.
- by move=> /solveP [].
Qed.

Let C00 : rc o00 * rc o00 + rc o01 * rc o01 = 1.
Proof.
have -> : rc o01 * rc o01 = rc o10 * rc o10 by rewrite r10 mulrACA mulrNN D1 mul1r.
by rewrite -!rmorphM -rmorphD; congr (rc _).
Qed.

Let cross1 (g x y ex ey w : C) : (rc e / rc s * (rc o00 * x + rc o01 * y) * (rc d * g * (rc o10 * ex + rc o11 * ey)) -
  rc e / rc s * (rc o10 * x + rc o11 * y) * (rc d * g * (rc o00 * ex + rc o01 * ey))) / w =
  g * (rc e * ((x * ey - y * ex) / (rc s * w))).
Proof.
have -> : (rc e / rc s * (rc o00 * x + rc o01 * y) * (rc d * g * (rc o10 * ex + rc o11 * ey)) -
  rc e / rc s * (rc o10 * x + rc o11 * y) * (rc d * g * (rc o00 * ex + rc o01 * ey))) / w =
  (rc d * rc d) * (rc o00 * rc o00 + rc o01 * rc o01) * (g * (rc e * ((x * ey - y * ex) * ((rc s)^-1 / w)))).
  by rewrite r10 r11; cring.
by rewrite D1 C00 !mul1r invfM.
Qed.

Let cross2 (g x y hx hy w : C) : (rc e / rc s * (rc o10 * x + rc o11 * y) * (g * (rc o00 * hx + rc o01 * hy)) -
  rc e / rc s * (rc o00 * x + rc o01 * y) * (g * (rc o10 * hx + rc o11 * hy))) / w =
  rc d * rc e * (g * ((y * hx - x * hy) / (rc s * w))).
Proof.
have -> : (rc e / rc s * (rc o10 * x + rc o11 * y) * (g * (rc o00 * hx + rc o01 * hy)) -
  rc e / rc s * (rc o00 * x + rc o01 * y) * (g * (rc o10 * hx + rc o11 * hy))) / w =
  (rc o00 * rc o00 + rc o01 * rc o01) * (rc d * rc e * (g * ((y * hx - x * hy) * ((rc s)^-1 / w)))).
  by rewrite r10 r11; cring.
by rewrite C00 !mul1r invfM.
Qed.

Theorem sim_field k z F1 F2 :
  run_field eig1 pw1 rec1 h1 form1 (l1 :: rest1) i1 k z = Ok F1 ->
  run_field eig2 pw2 rec2 h2 form2 (l2 :: rest2) i2 k (s * z) = Ok F2 ->
  moved F2 F1.
Proof.
move=> /run_fieldP [e1 [a1 [st1 [E1' [ha1 [hs1 H1]]]]]] /run_fieldP [e2 [a2 [st2 [E2' [ha2 [hs2 H2]]]]]].
rewrite /= in E1' E2'.
move: E1' E2'; rewrite he1 he2 => -[ee1] [ee2]; subst e1 e2.
have w10 := gff_omega H1; have w20 := gff_omega H2.
have [s1 [ss1 [f1 _]]] := mapr_cons hs1; have [s2 [ss2 [f2 _]]] := mapr_cons hs2; subst st1 st2.
rewrite (a0_sim ha1 ha2) in H2; move: (sim_a0 i1 a1) H1 H2 => a H1 H2.
have nn (x : slayer nh) w kx ky (st : seq (slayer nh)) b zz (H : exists F, get_field_fourier w kx ky st k b 0 zz = Ok F) :
   List.nth_error st k = Some (nth x st k) /\ (k < size st)%N.
  case: H => F; rewrite /get_field_fourier; case E : (List.nth_error st k) => [l|] // _.
  have hk : (k < size st)%N by clear -E; elim: st k E => [|b' t IH] [|k] //= /IH.
  by rewrite -E (nth_ne x hk).
have [n1 hk1] := nn s1 _ _ _ _ _ _ (ex_intro _ F1 H1); have [n2' hk2] := nn s2 _ _ _ _ _ _ (ex_intro _ F2 H2).
have [p1 [hp1 [mh1 [me1 [hz1 ez1]]]]] := gff_fields H1 n1.
have [p2 [hp2 [mh2 [me2 [hz2 ez2]]]]] := gff_fields H2 n2'.
have [_ [ps1 [sol1 [un1 ep1]]]] := get_amplitudes_global w10 hp1.
have [_ [ps2 [sol2 [un2 ep2]]]] := get_amplitudes_global w20 hp2.
have [z21 z1] := sz_st hs1 hs2.
have hu j : (j.+1 < size ss1)%N -> sl_phi (nth s2 ss2 j) \in unitmx.
  rewrite -z21 => hj.
  by case/andP: (amps_ok (j := j.+1) s2 hp2 hk2 (hj : (j.+2 < size (s2 :: ss2))%N)) => _ /M_phi.
have hall := st_all w20 hs1 hs2 hu.
have [_ _ _ g0] := st_first w20 hs1 hs2; have [_ _ _ gN] := st_last w20 hs1 hs2.
have ne : ss1 <> [::].
  move=> e'; move: hk1 hp1; rewrite e' /= ltnS leqn0 => /eqP ->.
  by rewrite /get_amplitudes /=.
have [ps [sol [_ [_ ff]]]] := gcov_solves ne z21 hall (st_thick hs1 hs2 (leq0n _)) g0 gN sol1.
rewrite mulmx0 in sol; have e' := un2 _ sol; subst ps.
have hk : (k <= size ss1)%N := hk1.
have [gH gE] := ff k hk z; rewrite -ep1 -ep2 -mh1 -mh2 in gH; rewrite -ep1 -ep2 -me1 -me2 in gE.
have Uc (x y : 'cV[C]_nh) u v : col_mx u v = Um *m col_mx x y -> forall i,
   u i ord0 = ph i * (rc o00 * x (tau i) ord0 + rc o01 * y (tau i) ord0) /\
   v i ord0 = ph i * (rc o10 * x (tau i) ord0 + rc o11 * y (tau i) ord0).
  by rewrite Um_col => /eq_col_mx [-> ->] i; rewrite !umE; split; rewrite !mxE.
have {gH} hH := Uc _ _ _ _ gH; have {gE} hE := Uc _ _ _ _ gE.
have hyE i : f_ey F2 i ord0 = rc d * ph i * (rc o10 * f_ex F1 (tau i) ord0 + rc o11 * f_ey F1 (tau i) ord0).
  have [E _] := hE i; move: E; rewrite !mxE => /(congr1 -%R); rewrite opprK => ->.
  have {1}-> : rc o00 = rc d * rc o11 by rewrite r11 mulrA D1 mul1r.
  have {1}-> : rc o01 = - rc d * rc o10 by rewrite r10 mulrA mulrNN D1 mul1r.
  cring.
have hxE i : f_ex F2 i ord0 = rc d * ph i * (rc o00 * f_ex F1 (tau i) ord0 + rc o01 * f_ey F1 (tau i) ord0).
  by have [_ ->] := hE i; rewrite !mxE r10 r11; cring.
have hzE i : f_hz F2 i ord0 = ph i * (rc e * f_hz F1 (tau i) ord0).
  rewrite hz1 hz2 mxE [in RHS]mxE hxE hyE hkx hky.
  have -> : rc w1 = rc s * rc w2 by rewrite ws rmorphM.
  exact: cross1.
have [hs1k hs2k] := st_solve hs1 hs2 hk.
have ezE : f_ez F2 = (rc d * rc e) *: (um *m f_ez F1).
  have [b2 hb2] : exists b, build_matrix w2 kx2 ky2 h2 form2 1 (li_eps (nth l2 (l2 :: rest2) k)) = Ok b.
    by move: (hs2k); rewrite /solve_layer => H; ubind H b hb; exists b.
  have [b1 hb1] : exists b, build_matrix w1 kx1 ky1 h1 form1 1 (li_eps (nth l1 (l1 :: rest1) k)) = Ok b.
    by move: (hs1k); rewrite /solve_layer => H; ubind H b hb; exists b.
  have [_ hr] := hrel (eq_ind _ (fun x => k <= x)%N hk _ z1).
  have [tz _] := hr _ _ hb2 hb1.
  have [u2 _] := Qeps_layer w20 eig2_ok hb2 hs2k.
  have S1 := ez_sol (sl_eps_solve w10 hb1 hs1k) ez1.
  have S2 := ez_sol (sl_eps_solve w20 hb2 hs2k) ez2.
  apply: (can_inj (mulKmx u2)); rewrite S2 -scalemxAr mulmxA tz -mulmxA S1.
  apply/colP=> i; rewrite mxE [in RHS]mxE umE [in RHS]mxE.
  have [-> ->] := hH i; rewrite hkx hky.
  have -> : rc w1 = rc s * rc w2 by rewrite ws rmorphM.
  exact: cross2.
move=> i /=; have [hx hy] := hH i; split; first by split.
split=> //; by rewrite ezE mxE umE; rewrite mulrACA.
Qed.
End Run.

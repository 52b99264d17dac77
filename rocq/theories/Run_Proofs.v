(** The S-matrix results at the level of a whole simulation run. *)
From Coq Require Import Reals ZArith Lra.
From mathcomp Require Import all_ssreflect all_algebra.
From mathcomp Require Import complex.
From Verif Require Import RStruct Cplx Cderiv Base Fourier_Model Fourier_Spec Sim_Model Sim_Spec Setup_Model.
From Verif Require Import SMat_Proofs SMat_Proofs2 SMat_Proofs3 Maxwell_Spec Modes_Proofs Maxwell_Proofs.
From Verif Require Import Fourier_Proofs Energy_Spec Energy_Proofs Energy_Proofs2 Energy_Proofs3 Basis_Proofs.

Set Implicit Arguments.
Unset Strict Implicit.
Unset Printing Implicit Defensive.

Import Order.TTheory GRing.Theory Num.Theory.
Local Open Scope ring_scope.
Local Open Scope complex_scope.

Section Amp.
Variable nh : nat.
Variable omega : R.
Hypothesis omega_neq0 : rc omega != 0.
Notation n2 := (nh + nh)%N.
Notation slayer := (slayer nh).
Notation amp := (amp nh).
Notation z2 := ((0, 0) : amp).
Implicit Types (l : slayer) (p : amp) (stack : seq slayer).

Lemma smatrix_size stack S : smatrix stack = Ok S -> (1 < size stack)%N.
Proof. by case: stack => [|l [|l' s]]. Qed.

Lemma head_nth (T : Type) (x : T) s : head x s = nth x s 0. Proof. by case: s. Qed.

Lemma get_amplitudes_global stack k a0 p : get_amplitudes stack k a0 0 = Ok p ->
  (k < size stack)%N /\ exists ps, solves omega stack a0 0 ps /\
    (forall ps', solves omega stack a0 0 ps' -> ps' = ps) /\ p = nth z2 ps k.
Proof.
rewrite /get_amplitudes; case: (k =P 0%N) => [-> H|k0].
  ubind H Sm hS; case: H => <-.
  have hs := smatrix_size hS; split; first exact: ltn_trans hs.
  have [ps hps] := smatrix_exists omega_neq0 a0 0 hS; exists ps; split=> //; split.
    by move=> ps' hps'; apply: (smatrix_unique omega_neq0 hS hps' hps).
  have [_ <-] := smatrix_sound omega_neq0 hS hps; case: hps => _ [<- _].
  by rewrite -head_nth -surjective_pairing.
case: (k =P (size stack).-1) => [-> H|k1].
  ubind H Sm hS; case: H => <-.
  have hs := smatrix_size hS; split; first by rewrite prednK // (ltn_trans _ hs).
  have [ps hps] := smatrix_exists omega_neq0 a0 0 hS; exists ps; split=> //; split.
    by move=> ps' hps'; apply: (smatrix_unique omega_neq0 hS hps' hps).
  have [<- _] := smatrix_sound omega_neq0 hS hps; case: hps => /is_solution_size <- [_ e].
  by rewrite nth_last [RHS]surjective_pairing e.
move=> H; ubind H Sm hS; ubind H P hP; rewrite /solve_int in H; ubind H ai hai; case: H => <-.
have hk : (k < size stack)%N by have := smatrix_size hP; rewrite size_drop; case: (ltnP k (size stack)) => // /eqP ->.
split=> //; have [hU hai'] := solveP hai.
have eai : ai = S11 Sm *m a0 + S12 Sm *m (S21 P *m ai).
  by rewrite -hai' mulmxBl mul1mx mulmxA subrK.
have [ps1 hps1] := smatrix_exists omega_neq0 a0 (S21 P *m ai) hS.
have [ps2 hps2] := smatrix_exists omega_neq0 ai 0 hP.
have [s1 s1'] := smatrix_sound omega_neq0 hS hps1.
have [s2 s2'] := smatrix_sound omega_neq0 hP hps2.
case: (hps1) => sol1 [h1 l1]; case: (hps2) => sol2 [h2 l2].
have ej : last z2 ps1 = head z2 ps2.
  rewrite [LHS]surjective_pairing [RHS]surjective_pairing h2 l1 s1 s2' mulmx0 addr0; congr (_, _).
  by rewrite [RHS]eai.
have sz1 : size ps1 = k.+1 by rewrite (is_solution_size sol1) size_takel.
have sz2 : (1 < size ps2)%N by rewrite (is_solution_size sol2) (smatrix_size hP).
have sol := sol_join hk sol1 sol2 ej.
have hsol : solves omega stack a0 0 (ps1 ++ behead ps2).
  split=> //; split; first by rewrite -h1; case: ps1 sz1 {sol sol1 hps1 h1 l1 s1 s1' ej}.
  by rewrite -l2; case: ps2 sz2 {sol sol2 hps2 h2 l2 s2 s2' ej} => [|? [|? ?]] //= _; rewrite last_cat.
exists (ps1 ++ behead ps2); split=> //; split; last first.
  by rewrite nth_cat sz1 ltnSn -[k]/(k.+1.-1) -sz1 nth_last ej [RHS]surjective_pairing h2 s2' mulmx0 addr0.
move=> ps' hps'.
have hk' : (k < size ps')%N by case: hps' => /is_solution_size ->.
have t1 := solves_take hps' hk; have t2 := solves_drop hps' hk.
have [u1 _] := smatrix_sound omega_neq0 hS t1; have [_ u2] := smatrix_sound omega_neq0 hP t2.
rewrite last_take // in u1; rewrite head_drop mulmx0 addr0 in u2.
have eq1 : (nth z2 ps' k).1 = ai.
  apply: (can_inj (mulKmx hU)); rewrite hai' mulmxBl mul1mx -mulmxA -u2 {1}u1.
  by rewrite addrK.
have eq2 : (nth z2 ps' k).2 = S21 P *m ai by rewrite u2 eq1.
rewrite eq2 in t1; rewrite eq1 in t2.
have <- := smatrix_unique omega_neq0 hS t1 hps1; have <- := smatrix_unique omega_neq0 hP t2 hps2.
by rewrite -drop1 drop_drop add1n cat_take_drop.
Qed.

Variables kx ky : 'rV[C]_nh.
Notation gff := (get_field_fourier omega kx ky).

(** Continuity of the tangential components, from the success of the two calls. *)
Lemma fields_continuous stack k a0 l l' t F F' :
  List.nth_error stack k = Some l -> List.nth_error stack k.+1 = Some l' -> sl_thick l = Some t ->
  gff stack k a0 0 t = Ok F -> gff stack k.+1 a0 0 0 = Ok F' ->
  [/\ f_ex F = f_ex F', f_ey F = f_ey F', f_hx F = f_hx F' & f_hy F = f_hy F'].
Proof.
move=> hl hl' ht; rewrite /get_field_fourier hl hl' => H H'.
ubind H p hp; ubind H' p' hp'; ubind H q hq; ubind H' q' hq'.
have [hk [ps [hps [uniq ep]]]] := get_amplitudes_global hp.
have [hk' [ps' [hps' [_ ep']]]] := get_amplitudes_global hp'.
have e := uniq _ hps'; subst ps'.
have nt : sl_thick l != None by rewrite ht.
have nt' : sl_thick l' != None by move: hq'; rewrite /translate; case: (sl_thick l').
have [H1 E1] := field_modes nt hq H; have [H2 E2] := field_modes nt' hq' H'.
have tt : t = thick0 l by rewrite /thick0 ht.
have [mH mE] : matched omega l l' p p'.
  case: hps => sol _; move: sol hl hl'; rewrite ep ep'.
  elim: k stack ps {hp hp' hk hk' hps' uniq ep ep'} => [|k IH] [|a [|b s]] [|pa [|pb pt]] //=.
  - by move=> [? _] [<-] [<-].
  - by move=> [_ c]; apply: (IH (b :: s) (pb :: pt)).
rewrite tt mH -H2 in H1; rewrite tt mE -E2 in E1.
have [-> ->] := eq_col_mx H1; have [e1 ->] := eq_col_mx E1.
by split=> //; apply: oppr_inj.
Qed.
End Amp.

Section Mapr.
Variables (A B : Type) (f : A -> res B).
Lemma mapr_nth s r k a : mapr f s = Ok r -> List.nth_error s k = Some a ->
  exists b, List.nth_error r k = Some b /\ f a = Ok b.
Proof.
elim: s r k => [|x s IH] r [|k] //= H; ubind H b hb; ubind H bs hbs; case: H => <-.
- by move=> [<-]; exists b.
- by move=> /(IH _ _ hbs).
Qed.
Lemma mapr_nth' s r k b : mapr f s = Ok r -> List.nth_error r k = Some b ->
  exists a, List.nth_error s k = Some a /\ f a = Ok b.
Proof.
elim: s r k => [|x s IH] r k /= H; first by case: H => <-; case: k.
ubind H c hc; ubind H bs hbs; case: H => <-; case: k => [|k] /=.
- by move=> [<-]; exists x.
- by move=> /(IH _ _ hbs).
Qed.
Lemma mapr_size s r : mapr f s = Ok r -> size r = size s.
Proof.
elim: s r => [|x s IH] r /= H; first by case: H => <-.
by ubind H c hc; ubind H bs hbs; case: H => <- /=; rewrite (IH _ hbs).
Qed.
End Mapr.

Section Run.
Variables (Nx Ny nh : nat).
Hypotheses (Nx0 : (0 < Nx)%N) (Ny0 : (0 < Ny)%N).
Variable eig : forall m, 'M[C]_m -> 'rV[C]_m * 'M[C]_m.
Hypothesis eig_ok : forall m (A : 'M[C]_m), A *m (eig A).2 = (eig A).2 *m diag_mx (eig A).1.
Variable pw : planewave.
Variable rec : 'M[R]_2.
Variable h : 'I_nh -> order.
Variable form : formulation_t Nx Ny.
Variable i0 : 'I_nh.
Notation run_field := (run_field eig pw rec h form).
Implicit Types (layers : seq (layer_in Nx Ny)).

Definition first_eps layers (e0 : C) : Prop :=
  match layers with l0 :: _ => li_eps l0 = EpsUniform Nx Ny e0 | _ => False end.

Lemma run_fieldP layers k z F : run_field layers i0 k z = Ok F ->
  exists e0 a st, first_eps layers e0 /\ pw_a0 pw = Ok a /\
    solve_stack eig pw rec h form e0 layers = Ok st /\
    get_field_fourier (sim_omega pw) (sim_kx pw rec h e0) (sim_ky pw rec h e0) st k (sim_a0 i0 a) 0 z = Ok F.
Proof.
rewrite /run_field; case: layers => [|l0 ls] // H; ubind H e0 he; ubind H a ha; ubind H st hst.
exists e0, a, st; split=> //=; by move: he; case: (li_eps l0) => //= e [->].
Qed.

Lemma gff_omega (omega : R) kx ky (st : seq (slayer nh)) k a0 bN z F :
  get_field_fourier omega kx ky st k a0 bN z = Ok F -> rc omega != 0.
Proof.
rewrite /get_field_fourier; case: (List.nth_error st k) => [l|] // H; ubind H p hp; ubind H p' hp'.
by move: H; rewrite /field_of; case: ifP => // /negbT; rewrite negb_or => /andP [].
Qed.

Lemma run_continuous layers k li t F F' :
  List.nth_error layers k = Some li -> li_thick li = Some t ->
  run_field layers i0 k t = Ok F -> run_field layers i0 k.+1 0 = Ok F' ->
  [/\ f_ex F = f_ex F', f_ey F = f_ey F', f_hx F = f_hx F' & f_hy F = f_hy F'].
Proof.
move=> hk ht hF hF'.
have [e0 [a [st [h1 [h2 [h3 h4]]]]]] := run_fieldP hF.
have [e0' [a' [st' [h1' [h2' [h3' h4']]]]]] := run_fieldP hF'.
have e : e0' = e0 by move: h1 h1'; case: layers {hk hF hF' h3 h3'} => [|l0 ls] //= -> [].
have ea : a' = a by move: h2'; rewrite h2 => -[].
subst e0' a'; have es : st' = st by move: h3'; rewrite h3 => -[].
subst st'; have w0 := gff_omega h4.
have [l [hl hs]] := mapr_nth h3 hk.
have [l' hl'] : exists l', List.nth_error st k.+1 = Some l'.
  by move: h4'; rewrite /get_field_fourier; case: (List.nth_error st k.+1) => [l'|] // _; exists l'.
have htl : sl_thick l = Some t.
  have hs' := hs; rewrite /solve_layer in hs'; ubind hs' b hb.
  by have [_ [_ ->]] := solve_layer_modes w0 eig_ok hb hs.
exact: (fields_continuous w0 hl hl' htl h4 h4').
Qed.
End Run.

Section Maxwell.
Variables (Nx Ny nh : nat).
Hypotheses (Nx0 : (0 < Nx)%N) (Ny0 : (0 < Ny)%N).
Variable h : 'I_nh -> order.
Notation conv := (convolves h).

Lemma toeplitz_convolves (u : 'M[C]_(Nx, Ny)) M E : get_toeplitz h u = Ok M -> conv u E (M *m E).
Proof.
rewrite /get_toeplitz; case: (toeplitzP Nx0 Ny0 h u) => [[_ ->]|[_ ->]] //= [<-] i.
by rewrite mxE; apply: eq_bigr => j _; rewrite mxE.
Qed.

Lemma pointwise_recip (u v : 'M[C]_(Nx, Ny)) : pointwise_inv u = Ok v -> v = recip u.
Proof. by rewrite /pointwise_inv; case: ifP => // _ [<-]; apply/matrixP => i j; rewrite !mxE. Qed.

Lemma linvP (M N : 'M[C]_nh) : linv M = Ok N -> M *m N = 1%:M.
Proof. by rewrite /linv; case: ifP => // hM [<-]; rewrite mulmxV. Qed.

Lemma nu_convolves (u : 'M[C]_(Nx, Ny)) N E : nu_hat_inv_iso h u = Ok N -> conv (recip u) (N *m E) E.
Proof.
rewrite /nu_hat_inv_iso => H; ubind H nu hnu; ubind H nh' hnh.
have <- := pointwise_recip hnu; have := toeplitz_convolves (N *m E) hnh.
by rewrite mulmxA (linvP H) mul1mx.
Qed.

Variable omega : R.
Variables kx ky : 'rV[C]_nh.
Hypothesis omega_neq0 : rc omega != 0.

Lemma constitutive_ok form (eps : eps_t Nx Ny) b ex ey ez :
  match eps with EpsTensorGrid _ => False | _ => True end ->
  build_matrix omega kx ky h form 1 eps = Ok b ->
  let DT := layer_Peps eps b *m col_mx (- ey) ex in
  constitutive h form eps ex ey ez (dsubmx DT) (- usubmx DT) (layer_epsz eps b *m ez).
Proof.
case: eps => [e|u|u|e] // _ hb DT.
  rewrite /DT /layer_Peps /layer_epsz /constitutive !mul_scalar_mx scale_col_mx col_mxKd col_mxKu.
  by rewrite scalerN opprK.
rewrite /build_matrix in hb; ubind hb eh he; ubind hb ehi hi; ubind hb P hP.
have [hQ [h1 [h2 h3]]] := assembleP omega_neq0 hb.
rewrite /DT /layer_Peps /layer_epsz h1 h2 /=; split; first exact: toeplitz_convolves.
case: form hP => [|| tan] hP.
- case: hP => <-; rewrite mul_block_col !mul0mx addr0 add0r col_mxKd col_mxKu mulmxN opprK.
  by split; apply: toeplitz_convolves.
- ubind hP nu hnu; case: hP => <-.
  rewrite mul_block_col !mul0mx addr0 add0r col_mxKd col_mxKu mulmxN opprK.
  by split; [apply: nu_convolves|apply: toeplitz_convolves].
- ubind hP t ht; case: t ht hP => t0 t1 ht hP; exists t0, t1; split=> //; rewrite [(t0, t1).1]/= [(t0, t1).2]/= in hP.
  ubind hP nu hnu; rewrite /get_Peps in hP; ubind hP Pi hPi; case: hP => <-.
  rewrite /proj_blocks in hPi; ubind hPi Pxx hxx; ubind hPi Pyy hyy; ubind hPi Pxy hxy; ubind hPi Pyx hyx; case: hPi => <-.
  set w1 := Pyy *m (- ey); set w2 := Pyx *m ex; set w3 := Pxy *m (- ey); set w4 := Pxx *m ex.
  have E : (block_mx eh 0 0 eh - (block_mx eh 0 0 eh - block_mx nu 0 0 nu) *m block_mx Pyy Pyx Pxy Pxx)
     *m col_mx (- ey) ex = col_mx (eh *m (- ey - (w1 + w2)) + nu *m (w1 + w2)) (eh *m (ex - (w3 + w4)) + nu *m (w3 + w4)).
    rewrite !mulmxBl -!mulmxA [block_mx Pyy _ _ _ *m _]mul_block_col -/w1 -/w2 -/w3 -/w4.
    rewrite !mul_block_col !mul0mx !addr0 !add0r opprB opp_col_mx !add_col_mx !mulmxBr.
    by congr (col_mx _ _); rewrite -addrA [X in _ + X]addrC.
  rewrite E col_mxKd col_mxKu; exists w1, w2, w3, w4, (nu *m (w1 + w2)), (nu *m (w3 + w4)).
  rewrite opprK !addrK; do !split; try exact: toeplitz_convolves; exact: nu_convolves.
Qed.
End Maxwell.

Section RunMaxwell.
Variables (Nx Ny nh : nat).
Hypotheses (Nx0 : (0 < Nx)%N) (Ny0 : (0 < Ny)%N).
Variable eig : forall m, 'M[C]_m -> 'rV[C]_m * 'M[C]_m.
Hypothesis eig_ok : forall m (A : 'M[C]_m), A *m (eig A).2 = (eig A).2 *m diag_mx (eig A).1.
Variable pw : planewave.
Variable rec : 'M[R]_2.
Variable h : 'I_nh -> order.
Variable form : formulation_t Nx Ny.
Variable i0 : 'I_nh.
Notation run_field := (run_field eig pw rec h form).

(** Once a field can be computed at one height of a layer it can at all heights. *)
Lemma field_all_z (omega : R) kx ky (l : slayer nh) p p' F0 z0 :
  translate l z0 p = Ok p' -> field_of omega kx ky l p' = Ok F0 ->
  exists F, field_at omega kx ky l p F.
Proof.
move=> ht hf.
have H z : exists Fz, (let! p' := translate l z p in field_of omega kx ky l p') = Ok Fz.
  move: ht hf; rewrite /translate; case: (sl_thick l) => [t|] // _.
  rewrite [let! _ := Ok _ in _]/= /field_of; case: ifP => // _ H; ubind H ez hez.
  case: (sl_eps l) hez => [e|eh].
    by case: ifP => // _ _; eexists.
  by rewrite /solve; case: ifP => // _ _; eexists.
exists (fun z => match (let! p' := translate l z p in field_of omega kx ky l p') with Ok f => f | Err _ => F0 end).
by move=> z; have [Fz ->] := H z.
Qed.

Lemma run_maxwell layers k li z0 F0 e0 :
  List.nth_error layers k = Some li -> first_eps layers e0 ->
  run_field layers i0 k z0 = Ok F0 ->
  match li_eps li with EpsTensorGrid _ => False | _ => True end ->
  exists F, (forall z, run_field layers i0 k z = Ok (F z)) /\
  forall z, exists Dx Dy Dz,
    constitutive h form (li_eps li) (f_ex (F z)) (f_ey (F z)) (f_ez (F z)) Dx Dy Dz /\
    maxwell_at (sim_omega pw) (sim_kx pw rec h e0) (sim_ky pw rec h e0) F Dx Dy Dz z.
Proof.
move=> hk he0 hF hiso.
have [e0' [a [st [h1 [h2 [h3 h4]]]]]] := run_fieldP hF.
have e : e0' = e0 by move: he0 h1; case: layers {hk hF h3} => [|l0 ls] //= -> [].
subst e0'; have w0 := gff_omega h4.
have [l [hl hs]] := mapr_nth h3 hk.
have H := h4; rewrite /get_field_fourier hl in H; ubind H p hp; ubind H p' hp'.
have [F hFF] := field_all_z hp' H.
exists F; split=> [z|z].
  move: he0 h3; rewrite /Setup_Model.run_field /first_eps; case: layers {hk hF h1} => [|l0 ls] //= -> /= h3.
  by rewrite h2 /= h3 /= /get_field_fourier hl hp /=; apply: hFF.
have hs' := hs; rewrite /solve_layer in hs'; ubind hs' b hb.
have := maxwell_layer w0 eig_ok z hb hs hFF.
set DT := layer_Peps _ _ *m _ => hm.
exists (dsubmx DT), (- usubmx DT), (layer_epsz (li_eps li) b *m f_ez (F z)); split=> //.
exact: (constitutive_ok Nx0 Ny0 w0 (f_ex (F z)) (f_ey (F z)) (f_ez (F z)) hiso hb).
Qed.
End RunMaxwell.

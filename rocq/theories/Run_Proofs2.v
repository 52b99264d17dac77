(** Splitting layers, substrate thickness, eigensolver independence and constant
    patterns, for whole runs. *)
From Coq Require Import Reals ZArith Lra.
From mathcomp Require Import all_ssreflect all_algebra.
From mathcomp Require Import complex.
From Verif Require Import RStruct Cplx Cderiv Base Fourier_Model Fourier_Spec Sim_Model Sim_Spec Setup_Model.
From Verif Require Import SMat_Proofs SMat_Proofs2 SMat_Proofs3 Maxwell_Spec Modes_Proofs Maxwell_Proofs.
From Verif Require Import Fourier_Proofs Energy_Spec Energy_Proofs Energy_Proofs2 Energy_Proofs3 Basis_Proofs Run_Proofs.

Set Implicit Arguments.
Unset Strict Implicit.
Unset Printing Implicit Defensive.

Import Order.TTheory GRing.Theory Num.Theory.
Local Open Scope ring_scope.
Local Open Scope complex_scope.

Lemma same_refl (A : Type) (r : res A) : same_outcome r r. Proof. by case: r. Qed.
Lemma same_bind (A B : Type) (r : res A) (f g : A -> res B) :
  (forall a, r = Ok a -> same_outcome (f a) (g a)) -> same_outcome (bind r f) (bind r g).
Proof. by case: r => //= a H; apply: H. Qed.
Lemma same_bind2 (A B : Type) (r r' : res A) (f : A -> res B) :
  same_outcome r r' -> same_outcome (bind r f) (bind r' f).
Proof. by case: r => [a|e]; case: r' => [a'|e'] //= ->; apply: same_refl. Qed.

Section Layers.
Variable nh : nat.
Notation slayer := (slayer nh).
Implicit Types (l : slayer) (S : smat nh).

Lemma step_layer_ok l l' S S' : smat_step l l' S = Ok S' -> layer_ok l.
Proof.
rewrite /smat_step => H; ubind H im0 hI; move: hI; rewrite /build_Imatrix /layer_ok.
case: ifP => // /andP [-> _]; rewrite /solve; by case: ifP.
Qed.

Lemma loop_layer_ok S l r1 l1 r2 S' : smat_loop S l (r1 ++ l1 :: r2) = Ok S' -> layer_ok (last l r1).
Proof. by rewrite smat_loop_cat => H; ubind H S1 h1; move: H => /= H; ubind H S2 h2; apply: step_layer_ok h2. Qed.

Lemma M_phi l : build_Mmatrix l \in unitmx -> sl_phi l \in unitmx.
Proof.
move=> hM; have := mulmxV hM; set W := invmx _; rewrite -[W]submxK /build_Mmatrix mulmx_block.
rewrite scalar_mx_block => /eq_block_mx [_ _ _].
by rewrite -mulmxDr => /mulmx1_unit [].
Qed.

Lemma smatrix_layer_ok l r1 l1 r2 S : smatrix (l :: r1 ++ l1 :: r2) = Ok S -> layer_ok (last l r1).
Proof. by move=> H; apply: (@loop_layer_ok (smat_id nh) _ _ l1 r2 S); move: H; case: r1. Qed.

Lemma split_same l0 pre l t t' l2 post :
  same_outcome (smatrix (l0 :: pre ++ slice l (t + t') :: l2 :: post))
               (smatrix (l0 :: pre ++ slice l t :: slice l t' :: l2 :: post)).
Proof.
case E : (layer_ok l).
  by case/andP: E => hq hM; rewrite split_layer //; apply: same_refl.
have bad x : layer_ok (slice l x) = false by rewrite -E.
case E1 : (smatrix _) => [S|e].
  have := @smatrix_layer_ok l0 (rcons pre (slice l (t + t'))) l2 post S.
  by rewrite cat_rcons last_rcons bad => /(_ E1).
case E2 : (smatrix _) => [S|e'] //.
have := @smatrix_layer_ok l0 (rcons pre (slice l t)) (slice l t') (l2 :: post) S.
by rewrite cat_rcons last_rcons bad => /(_ E2).
Qed.
End Layers.

Section MaprCat.
Variables (A B : Type) (f : A -> res B).
Lemma mapr_cat s1 s2 : mapr f (s1 ++ s2) = let! a := mapr f s1 in let! b := mapr f s2 in Ok (a ++ b).
Proof.
elim: s1 => [|x s1 IH] /=; first by case: (mapr f s2).
by case: (f x) => //= b; rewrite IH; case: (mapr f s1) => //= a; case: (mapr f s2).
Qed.
End MaprCat.

Section Split.
Variables (Nx Ny nh : nat).
Variable eig : forall m, 'M[C]_m -> 'rV[C]_m * 'M[C]_m.
Variable pw : planewave.
Variable rec : 'M[R]_2.
Variable h : 'I_nh -> order.
Variable form : formulation_t Nx Ny.
Variable i0 : 'I_nh.
Notation LayerIn := (@LayerIn Nx Ny).

Lemma solve_layer_thick (omega : R) kx ky t t' mu (eps : eps_t Nx Ny) :
  solve_layer eig omega kx ky h form t mu eps =
  let! l := solve_layer eig omega kx ky h form t' mu eps in Ok (with_thick l t).
Proof.
rewrite /solve_layer; case: (build_matrix _ _ _ _ _ _ _) => //= b.
by case: eps => // *; case: (bt_matrix b) => //; case: (bt_eps_hat b).
Qed.

Lemma solve_layer_with (omega : R) kx ky t t' mu (eps : eps_t Nx Ny) l l' :
  solve_layer eig omega kx ky h form t mu eps = Ok l -> 
  solve_layer eig omega kx ky h form t' mu eps = Ok l' -> l' = with_thick l t'.
Proof. by move=> h1; rewrite (solve_layer_thick omega kx ky t' t) h1 => -[]. Qed.

Definition eff_of (flux : R) a0 (l0 : slayer nh) (lN : slayer nh) (Sm : smat nh) : res (effs nh) :=
  if ~~ (q_ok l0 && q_ok lN) || (rc (sim_omega pw) == 0) then Err NaN else
  if (flux == 0) then Err NaN else
  Ok (map_mx (fun x => - x / flux) (poynting (sim_omega pw) l0 a0 (solve_ext Sm a0 0).2).2,
      map_mx (fun x => x / flux) (poynting (sim_omega pw) lN (solve_ext Sm a0 0).1 0).1).

Lemma efficienciesE flux l0 rest a0 :
  efficiencies (sim_omega pw) flux (l0 :: rest) a0 0 =
  let! Sm := smatrix (l0 :: rest) in eff_of flux a0 l0 (last l0 rest) Sm.
Proof. by []. Qed.

Lemma run_split l0 pre eps t t' l2 post :
  same_outcome
   (run_efficiencies eig pw rec h form (l0 :: pre ++ LayerIn (Some (t + t')%Re) eps :: l2 :: post) i0)
   (run_efficiencies eig pw rec h form (l0 :: pre ++ LayerIn (Some t) eps :: LayerIn (Some t') eps :: l2 :: post) i0).
Proof.
rewrite /run_efficiencies; apply: same_bind => e0 _; apply: same_bind => a _.
rewrite /solve_stack -![l0 :: pre ++ _]/((l0 :: pre) ++ _) !mapr_cat.
set f := fun li => _.
case: (mapr f (l0 :: pre)) (@mapr_size _ _ f (l0 :: pre)) => [[|s0 ss]|] //; first by move=> /(_ _ erefl).
move=> _; rewrite ![mapr f (LayerIn _ _ :: _)]/= ![f (LayerIn _ eps)]/f /=.
rewrite (solve_layer_thick _ _ _ (Some (t + t')%Re) None) (solve_layer_thick _ _ _ (Some t) None).
rewrite (solve_layer_thick _ _ _ (Some t') None).
case: (solve_layer _ _ _ _ _ _ None 1 eps) => //= l.
case: (f l2) => //= s2; case: (mapr f post) => //= sp.
rewrite !efficienciesE !last_cat /=.
exact: (same_bind2 _ (split_same s0 ss l t t' s2 sp)).
Qed.

Lemma run_last_thick l0 pre eps t t' :
  same_outcome
   (run_efficiencies eig pw rec h form (l0 :: rcons pre (LayerIn t eps)) i0)
   (run_efficiencies eig pw rec h form (l0 :: rcons pre (LayerIn t' eps)) i0).
Proof.
rewrite /run_efficiencies; apply: same_bind => e0 _; apply: same_bind => a _.
rewrite /solve_stack -!rcons_cons -!cats1 !mapr_cat.
set f := fun li => _.
case: (mapr f (l0 :: pre)) (@mapr_size _ _ f (l0 :: pre)) => [[|s0 ss]|] //; first by move=> /(_ _ erefl).
move=> _; rewrite /=  ![f (LayerIn _ eps)]/f /=.
rewrite (solve_layer_thick _ _ _ t None) (solve_layer_thick _ _ _ t' None).
case: (solve_layer _ _ _ _ _ _ None 1 eps) => //= l.
rewrite !efficienciesE !cats1 !last_rcons.
have ok := last_thickness_ok s0 ss l t t'.
case E1 : (smatrix (s0 :: rcons ss (with_thick l t))) => [S1|e1];
  case E2 : (smatrix (s0 :: rcons ss (with_thick l t'))) => [S2|e2] //; rewrite E1 E2 // in ok.
have [e11 e21] := last_thickness E1 E2.
by rewrite /= /eff_of /solve_ext !mulmx0 !addr0 e11 e21; apply: same_refl.
Qed.
End Split.

(** Two solved layers describing the same medium with different mode bases. *)
Section SameOp.
Variable nh : nat.
Variable omega : R.
Hypothesis omega_neq0 : rc omega != 0.
Notation slayer := (slayer nh).
Implicit Types (l : slayer) (S : smat nh).

Definition same_op l l' : Prop :=
  thick0 l = thick0 l' /\ sl_Qeps l = sl_Qeps l' /\
  exists A, A *m sl_phi l = sl_phi l *m qsq l /\ A *m sl_phi l' = sl_phi l' *m qsq l'.

Lemma same_op_covers l l' : same_op l l' -> layer_ok l -> q_ok l' -> covers omega l l'.
Proof.
move=> [ht [hQ [A [h1 h2]]]] /andP [hq hM] hq'.
exact: (change_covers omega ht hQ h1 h2 (M_phi hM)).
Qed.

Lemma smatrix_nth_ok l ls S k : smatrix (l :: ls) = Ok S -> (k.+1 < size ls)%N -> layer_ok (nth l ls k).
Proof.
move=> hS hk; have hk' : (k < size ls)%N by apply: ltn_trans hk.
have := @smatrix_layer_ok nh l (take k.+1 ls) (nth l ls k.+1) (drop k.+2 ls) S.
by rewrite -drop_nth // cat_take_drop last_take // => /(_ hS).
Qed.

Lemma smatrix_same l ls ls' S S' :
  size ls = size ls' ->
  (forall k, (k.+1 < size ls)%N -> same_op (nth l ls k) (nth l ls' k)) ->
  last l ls = last l ls' ->
  smatrix (l :: ls) = Ok S -> smatrix (l :: ls') = Ok S' -> S = S'.
Proof.
move=> hs hop hl hS hS'; apply: (covers_smatrix omega_neq0 hs _ hl hS hS') => k hk.
move: (hk); rewrite leq_eqVlt => /orP [/eqP ek|hk1]; last first.
  apply: same_op_covers; [exact: hop|exact: smatrix_nth_ok hS _|].
  by have := smatrix_nth_ok hS' (_ : k.+1 < size ls')%N; rewrite -hs => /(_ hk1) /andP [].
have e1 : nth l ls k = last l ls by rewrite -nth_last -ek.
have e2 : nth l ls' k = last l ls' by rewrite -nth_last -hs -ek.
by rewrite e1 e2 hl; apply: covers_refl.
Qed.
End SameOp.

(** Independence of the eigensolver. *)
Section Eig.
Variables (Nx Ny nh : nat).
Variables eig1 eig2 : forall m, 'M[C]_m -> 'rV[C]_m * 'M[C]_m.
Hypothesis eig1_ok : forall m (A : 'M[C]_m), A *m (eig1 A).2 = (eig1 A).2 *m diag_mx (eig1 A).1.
Hypothesis eig2_ok : forall m (A : 'M[C]_m), A *m (eig2 A).2 = (eig2 A).2 *m diag_mx (eig2 A).1.
Variable pw : planewave.
Variable rec : 'M[R]_2.
Variable h : 'I_nh -> order.
Variable form : formulation_t Nx Ny.
Variable i0 : 'I_nh.
Hypothesis w0 : rc (sim_omega pw) != 0.

Lemma solve_same_op kx ky t (eps : eps_t Nx Ny) l1 l2 :
  solve_layer eig1 (sim_omega pw) kx ky h form t 1 eps = Ok l1 ->
  solve_layer eig2 (sim_omega pw) kx ky h form t 1 eps = Ok l2 ->
  same_op l1 l2 /\ sl_eps l1 = sl_eps l2 /\ (if eps is EpsUniform _ then l1 = l2 else True).
Proof.
move=> s1 s2; have s1' := s1; have s2' := s2; rewrite /solve_layer in s1' s2'.
ubind s1' b hb; rewrite hb /= in s2'.
have [m1 [q1 t1]] := solve_layer_modes w0 eig1_ok hb s1.
have [m2 [q2 t2]] := solve_layer_modes w0 eig2_ok hb s2.
split; last first.
  case: eps s1' s2' {hb s1 s2 m1 m2} => [e|u|u|e].
  - by move=> [<-] [<-].
  - by case: (bt_matrix b) => // m; case: (bt_eps_hat b) => // eh [<-] [<-].
  - by case: (bt_matrix b) => // m; case: (bt_eps_hat b) => // eh [<-] [<-].
  - by case: (bt_matrix b) => // m; case: (bt_eps_hat b) => // eh [<-] [<-].
split; first by rewrite /thick0 t1 t2.
split; first by rewrite q1 q2.
by exists (Ptilde (sim_omega pw) kx ky eps b *m sl_Qeps l1); split=> //; rewrite q1 -q2.
Qed.

Lemma nth_ne (T : Type) (x : T) s k : (k < size s)%N -> List.nth_error s k = Some (nth x s k).
Proof. by elim: s k => [|a s IH] [|k] //= /IH. Qed.

Lemma stacks_same e0 (l0 : layer_in Nx Ny) rest eN st1 st2 :
  li_eps l0 = EpsUniform Nx Ny e0 -> li_eps (last l0 rest) = EpsUniform Nx Ny eN ->
  solve_stack eig1 pw rec h form e0 (l0 :: rest) = Ok st1 ->
  solve_stack eig2 pw rec h form e0 (l0 :: rest) = Ok st2 ->
  exists s ss1 ss2, st1 = s :: ss1 /\ st2 = s :: ss2 /\ size ss1 = size rest /\ size ss2 = size rest /\
   last s ss1 = last s ss2 /\
   forall k, (k < size rest)%N -> same_op (nth s ss1 k) (nth s ss2 k) /\ sl_eps (nth s ss1 k) = sl_eps (nth s ss2 k).
Proof.
move=> he0 heN h1 h2.
have [s1 [ss1 [e1 [f1 r1]]]] := mapr_cons h1; have [s2 [ss2 [e2 [f2 r2]]]] := mapr_cons h2; subst st1 st2.
have l1 := mapr_last h1; have l2 := mapr_last h2.
have [_ [_ es]] := solve_same_op f1 f2; rewrite he0 in es; subst s2.
have [_ [_ el]] := solve_same_op l1 l2; rewrite heN in el.
exists s1, ss1, ss2; rewrite (mapr_size r1) (mapr_size r2); split=> //; split=> //; split=> //; split=> //; split=> // k hk.
have k1 : (k < size ss1)%N by rewrite (mapr_size r1).
have k2 : (k < size ss2)%N by rewrite (mapr_size r2).
have [a [ha hb]] := mapr_nth' r1 (nth_ne s1 k1).
have [b [hb1 hb2]] := mapr_nth r2 ha.
move: hb1; rewrite (nth_ne s1 k2) => -[eb]; rewrite -eb in hb2.
by have [? [? _]] := solve_same_op hb hb2.
Qed.
End Eig.

Section EigRun.
Variables (Nx Ny nh : nat).
Variables eig1 eig2 : forall m, 'M[C]_m -> 'rV[C]_m * 'M[C]_m.
Hypothesis eig1_ok : forall m (A : 'M[C]_m), A *m (eig1 A).2 = (eig1 A).2 *m diag_mx (eig1 A).1.
Hypothesis eig2_ok : forall m (A : 'M[C]_m), A *m (eig2 A).2 = (eig2 A).2 *m diag_mx (eig2 A).1.
Variable pw : planewave.
Variable rec : 'M[R]_2.
Variable h : 'I_nh -> order.
Variable form : formulation_t Nx Ny.
Variable i0 : 'I_nh.
Variables (l0 : layer_in Nx Ny) (rest : seq (layer_in Nx Ny)) (eN : C).
Hypothesis heN : li_eps (last l0 rest) = EpsUniform Nx Ny eN.

Lemma run_effP eig r : run_efficiencies eig pw rec h form (l0 :: rest) i0 = Ok r ->
  exists e0 a st, li_eps l0 = EpsUniform Nx Ny e0 /\ pw_a0 pw = Ok a /\
    solve_stack eig pw rec h form e0 (l0 :: rest) = Ok st /\ rc (sim_omega pw) != 0 /\
    efficiencies (sim_omega pw) (incident_flux pw e0) st (sim_a0 i0 a) 0 = Ok r.
Proof.
rewrite /run_efficiencies => H; ubind H e0 he; ubind H a ha; ubind H st hst.
exists e0, a, st; split; first by move: he; case: (li_eps l0) => //= e [->].
split=> //; split=> //; split=> //.
move: H; rewrite /efficiencies => H; ubind H Sm hS; move: H; case: st {hst hS} => // s ss.
by case: ifP => // /negbT; rewrite negb_or => /andP [].
Qed.

Lemma run_eig_eff r1 r2 :
  run_efficiencies eig1 pw rec h form (l0 :: rest) i0 = Ok r1 ->
  run_efficiencies eig2 pw rec h form (l0 :: rest) i0 = Ok r2 -> r1 = r2.
Proof.
move=> /run_effP [e0 [a [st1 [he0 [ha [h1 [w0 H1]]]]]]] /run_effP [e0' [a' [st2 [he0' [ha' [h2 [_ H2]]]]]]].
move: he0'; rewrite he0 => -[ee]; subst e0'; move: ha'; rewrite ha => -[ea]; subst a'.
have [s [ss1 [ss2 [e1 [e2 [z1 [z2 [el hop]]]]]]]] := stacks_same eig1_ok eig2_ok w0 he0 heN h1 h2.
subst st1 st2; move: H1 H2; rewrite !efficienciesE => H1 H2.
ubind H1 S1 hS1; ubind H2 S2 hS2.
have hs : size ss1 = size ss2 by rewrite z1 z2.
have eS : S1 = S2.
  by apply: (smatrix_same w0 hs _ el hS1 hS2) => k hk; apply: (proj1 (hop k _)); rewrite -z1; apply: ltn_trans hk.
by move: H2; rewrite -eS -el H1 => -[].
Qed.

Lemma smatrix_all_ok (stack : seq (slayer nh)) Sm j x : smatrix stack = Ok Sm -> (j.+1 < size stack)%N ->
  layer_ok (nth x stack j).
Proof.
case: stack => [|l ls] //; case: j => [|j] hS hj.
  by case: ls hS hj => [|l1 ls] // hS _; exact: (@smatrix_layer_ok nh l [::] l1 ls Sm).
have hj' : (j < size ls)%N by apply: (ltnW hj).
by rewrite /= (set_nth_default l) // (smatrix_nth_ok hS).
Qed.

Lemma amps_ok (stack : seq (slayer nh)) k a0 p j x :
  get_amplitudes stack k a0 0 = Ok p -> (k < size stack)%N -> (j.+1 < size stack)%N -> layer_ok (nth x stack j).
Proof.
rewrite /get_amplitudes; case: ifP => [_ H _ hj|_]; first by ubind H Sm hS; apply: (smatrix_all_ok _ hS hj).
case: ifP => [_ H _ hj|/negbT k1 H hk hj]; first by ubind H Sm hS; apply: (smatrix_all_ok _ hS hj).
ubind H Sm hS; ubind H P hP.
case: (ltnP j k) => hjk.
- have <- : nth x (take k.+1 stack) j = nth x stack j by rewrite nth_take // ltnW.
  apply: (smatrix_all_ok _ hS).
  by rewrite size_takel.
- rewrite -(subnKC hjk) -nth_drop; apply: (smatrix_all_ok _ hP).
  by rewrite size_drop -subSn // ltn_sub2r // (leq_ltn_trans hjk) // ltnW.
Qed.

Lemma gff_fields omega kx ky (st : seq (slayer nh)) k a0 z F l :
  get_field_fourier omega kx ky st k a0 0 z = Ok F -> List.nth_error st k = Some l ->
  exists p, get_amplitudes st k a0 0 = Ok p /\
   col_mx (f_hx F) (f_hy F) = mode_H l z p /\ col_mx (- f_ey F) (f_ex F) = mode_E omega l z p /\
   f_hz F = \col_i ((kx ord0 i * f_ey F i ord0 - ky ord0 i * f_ex F i ord0) / rc omega) /\
   (let ez0 := \col_i ((ky ord0 i * f_hx F i ord0 - kx ord0 i * f_hy F i ord0) / rc omega) in
    match sl_eps l with
    | inl e => if e == 0 then Err NaN else Ok (e^-1 *: ez0)
    | inr eps_hat => solve eps_hat ez0
    end = Ok (f_ez F)).
Proof.
rewrite /get_field_fourier => H hl; rewrite hl in H; ubind H p hp; ubind H p' hp'.
exists p; have nt : sl_thick l != None by move: hp'; rewrite /translate; case: (sl_thick l).
have [H1 H2] := field_modes nt hp' H; split=> //; split=> //; split=> //.
by move: H; rewrite /field_of; case: ifP => // _ H; ubind H ez hez; case: H => <-.
Qed.

Lemma run_eig_field k z F1 F2 :
  run_field eig1 pw rec h form (l0 :: rest) i0 k z = Ok F1 ->
  run_field eig2 pw rec h form (l0 :: rest) i0 k z = Ok F2 -> F1 = F2.
Proof.
move=> /run_fieldP [e0 [a [st1 [he0 [ha [h1 H1]]]]]] /run_fieldP [e0' [a' [st2 [he0' [ha' [h2 H2]]]]]].
rewrite /= in he0 he0'.
move: he0'; rewrite he0 => -[ee]; subst e0'; move: ha'; rewrite ha => -[ea]; subst a'.
have w0 := gff_omega H1.
have [s [ss1 [ss2 [e1 [e2 [z1 [z2 [el hop]]]]]]]] := stacks_same eig1_ok eig2_ok w0 he0 heN h1 h2.
subst st1 st2.
have nn (st : seq (slayer nh)) x (H : exists F, get_field_fourier (sim_omega pw) (sim_kx pw rec h e0)
         (sim_ky pw rec h e0) st k (sim_a0 i0 a) 0 z = Ok F) : List.nth_error st k = Some (nth x st k) /\ (k < size st)%N.
  case: H => F; rewrite /get_field_fourier; case E : (List.nth_error st k) => [l|] // _.
  have hk : (k < size st)%N by clear -E; elim: st k E => [|b t IH] [|k] //= /IH.
  by rewrite -E (nth_ne x hk).
have [n1 hk1] := nn _ s (ex_intro _ F1 H1); have [n2 hk2] := nn _ s (ex_intro _ F2 H2).
have [p1 [ha1 [mh1 [me1 [hz1 ez1]]]]] := gff_fields H1 n1.
have [p2 [ha2 [mh2 [me2 [hz2 ez2]]]]] := gff_fields H2 n2.
have [_ [ps1 [sol1 [un1 ep1]]]] := get_amplitudes_global w0 ha1.
have [_ [ps2 [sol2 [un2 ep2]]]] := get_amplitudes_global w0 ha2.
have hs : size ss1 = size ss2 by rewrite z1 z2.
have cov j : (j < size ss1)%N -> covers (sim_omega pw) (nth s ss1 j) (nth s ss2 j).
  move=> hj; move: (hj); rewrite leq_eqVlt => /orP [/eqP ek|hj1].
    have -> : nth s ss1 j = last s ss1 by rewrite -nth_last -ek.
    have -> : nth s ss2 j = last s ss2 by rewrite -nth_last -hs -ek.
    by rewrite el; apply: covers_refl.
  apply: same_op_covers; first by apply: (proj1 (hop j _)); rewrite -z1.
  - by apply: (amps_ok (j := j.+1) s ha1).
  - have hj2 : (j.+2 < size (s :: ss2))%N by rewrite /= -hs.
    by case/andP: (amps_ok (j := j.+1) s ha2 hk2 hj2).
have [ps [sol [_ [_ ff]]]] := covers_solves hs cov el sol2.
have e := un1 _ sol; subst ps.
have [fH fE] := ff k z hk1.
rewrite -ep1 -ep2 -mh1 -mh2 in fH; rewrite -ep1 -ep2 -me1 -me2 in fE.
have [ehx ehy] := eq_col_mx fH; have [eey eex] := eq_col_mx fE; have {}eey := oppr_inj eey.
have eeps : sl_eps (nth s (s :: ss1) k) = sl_eps (nth s (s :: ss2) k).
  by case: (k) hk1 => [|j] //= hj; apply: (proj2 (hop j _)); rewrite -z1.
have ehz : f_hz F1 = f_hz F2 by rewrite hz1 hz2 eey eex.
have eez : f_ez F1 = f_ez F2.
  by move: ez1 ez2; rewrite eeps ehx ehy; cbv zeta => -> [].
by case: F1 F2 ehx ehy eey eex ehz eez {H1 H2 mh1 me1 hz1 ez1 mh2 me2 hz2 ez2 fH fE} => ? ? ? ? ? ? [? ? ? ? ? ?] /= -> -> -> -> -> ->.
Qed.
End EigRun.

(** A constant pattern. *)
Section Constant.
Variables (Nx Ny nh : nat).
Hypotheses (Nx0 : (0 < Nx)%N) (Ny0 : (0 < Ny)%N).
Variable eig : forall m, 'M[C]_m -> 'rV[C]_m * 'M[C]_m.
Hypothesis eig_ok : forall m (A : 'M[C]_m), A *m (eig A).2 = (eig A).2 *m diag_mx (eig A).1.
Variable pw : planewave.
Variable rec : 'M[R]_2.
Variable h : 'I_nh -> order.
Hypothesis hsep : separated Nx Ny h.
Variable form : formulation_t Nx Ny.
Variable i0 : 'I_nh.
Notation LayerIn := (@LayerIn Nx Ny).

Lemma toeplitz_const' c M : get_toeplitz h (const_mx c : 'M[C]_(Nx, Ny)) = Ok M -> M = c%:M.
Proof.
rewrite /get_toeplitz; case E : (toeplitz h _) => [M'|] //= [<-].
exact: (toeplitz_const Nx0 Ny0 hsep E).
Qed.

Lemma linv_scalar (c : C) (M : 'M[C]_nh) : linv c%:M = Ok M -> M = (c^-1)%:M.
Proof. by rewrite /linv; case: ifP => // hu [<-]; rewrite invmx_scalar. Qed.

Lemma const_build omega kx ky c b b' : rc omega != 0 ->
  build_matrix omega kx ky h form 1 (EpsGrid (const_mx c : 'M[C]_(Nx, Ny))) = Ok b ->
  build_matrix omega kx ky h form 1 (EpsUniform Nx Ny c) = Ok b' ->
  bt_Qeps b = bt_Qeps b' /\ layer_Peps (EpsGrid (const_mx c : 'M[C]_(Nx, Ny))) b = c%:M.
Proof.
move=> w0 hb /=; case: eqP => // c0 [<-] /=.
rewrite /build_matrix in hb; ubind hb eh he; have ee := toeplitz_const' he; subst eh.
ubind hb ehi hi; have ei := linv_scalar hi; subst ehi; ubind hb P hP.
have [hQ [h1 [h2 h3]]] := assembleP w0 hb.
rewrite hQ h2 -scalar_mx_block scale_scalar_mx mulr1; split=> //=.
have nuE nu : nu_hat_inv_iso h (const_mx c : 'M[C]_(Nx, Ny)) = Ok nu -> nu = c%:M.
  rewrite /nu_hat_inv_iso => H; ubind H v hv; ubind H vh hvh.
  move: hv; rewrite /pointwise_inv; case: ifP => // _ [ev].
  have ev' : v = const_mx (c^-1) by rewrite -ev; apply/matrixP => i j; rewrite !mxE.
  rewrite ev' in hvh; have e := toeplitz_const' hvh; subst vh.
  by rewrite (linv_scalar H) invrK.
case: form hP => [|| tan] hP.
- by case: hP => <-; rewrite -scalar_mx_block.
- by ubind hP nu hnu; case: hP => <-; rewrite (nuE _ hnu) -scalar_mx_block.
- ubind hP t ht; ubind hP nu hnu; rewrite /get_Peps in hP; ubind hP Pi hPi; case: hP => <-.
  by rewrite (nuE _ hnu) subrr mul0mx subr0 -scalar_mx_block.
Qed.

Lemma const_same_op omega kx ky t c l l' : rc omega != 0 ->
  solve_layer eig omega kx ky h form t 1 (EpsGrid (const_mx c : 'M[C]_(Nx, Ny))) = Ok l ->
  solve_layer eig omega kx ky h form t 1 (EpsUniform Nx Ny c) = Ok l' ->
  same_op l l'.
Proof.
move=> w0 s1 s2; have s1' := s1; have s2' := s2; rewrite /solve_layer in s1' s2'.
ubind s1' b hb; ubind s2' b' hb'.
have [m1 [q1 t1]] := solve_layer_modes w0 eig_ok hb s1.
have [m2 [q2 t2]] := solve_layer_modes w0 eig_ok hb' s2.
have [eQ eP] := const_build w0 hb hb'.
split; first by rewrite /thick0 t1 t2.
split; first by rewrite q1 q2.
exists (Ptilde omega kx ky (EpsUniform Nx Ny c) b' *m sl_Qeps l').
by split=> //; rewrite -m1 q1 q2 eQ; congr (_ *m _ *m _); rewrite /Ptilde eP.
Qed.

Lemma run_const l0 pre t c l2 post r r' :
  run_efficiencies eig pw rec h form (l0 :: pre ++ LayerIn t (EpsGrid (const_mx c)) :: l2 :: post) i0 = Ok r ->
  run_efficiencies eig pw rec h form (l0 :: pre ++ LayerIn t (EpsUniform Nx Ny c) :: l2 :: post) i0 = Ok r' ->
  r = r'.
Proof.
move=> /run_effP [e0 [a [st1 [he0 [ha [h1 [w0 H1]]]]]]] /run_effP [e0' [a' [st2 [he0' [ha' [h2 [_ H2]]]]]]].
move: he0'; rewrite he0 => -[ee]; subst e0'; move: ha'; rewrite ha => -[ea]; subst a'.
move: h1 h2; rewrite /solve_stack -![l0 :: pre ++ _]/((l0 :: pre) ++ _) !mapr_cat.
set f := fun li => _ => h1 h2.
ubind h1 sA hA; rewrite hA /= in h2; move: h1 => /= h1.
ubind h1 sB hB; ubind hB sl hsl; ubind hB sC hC; case: hB => eB; subst sB.
rewrite hC /= in h2; ubind h2 sB' hB'; ubind hB' sl' hsl'; case: hB' => eB; subst sB'.
case: h1 => e1; case: h2 => e2; subst st1 st2.
have [s0 [ss [eA _]]] := mapr_cons hA; subst sA.
ubind hC s2 hs2; ubind hC sp hsp; case: hC => eC; subst sC.
have hop : same_op sl sl' := const_same_op w0 hsl hsl'.
move: H1 H2; rewrite /= !efficienciesE => H1 H2; ubind H1 S1 hS1; ubind H2 S2 hS2.
have o1 : layer_ok sl.
  by have := @smatrix_layer_ok nh s0 (rcons ss sl) s2 sp S1; rewrite cat_rcons last_rcons => /(_ hS1).
have o2 : q_ok sl'.
  by have := @smatrix_layer_ok nh s0 (rcons ss sl') s2 sp S2; rewrite cat_rcons last_rcons => /(_ hS2) /andP [].
have eS : S1 = S2.
  apply: (covers_smatrix w0 _ _ _ hS1 hS2); rewrite ?size_cat ?last_cat //= => k _.
  rewrite !nth_cat; case: ltnP => _; first exact: covers_refl.
  case: (k - size ss)%N => [|j] /=; [exact: same_op_covers|exact: covers_refl].
by move: H2; rewrite -eS; move: H1; rewrite !last_cat /= => -> [].
Qed.
End Constant.

From Coq Require Import Reals ZArith Lra.
From mathcomp Require Import all_ssreflect all_algebra.
From mathcomp Require Import complex.
From Verif Require Import RStruct Cplx Base Fourier_Model Sim_Model Sim_Spec.

Set Implicit Arguments.
Unset Strict Implicit.
Unset Printing Implicit Defensive.

Import Order.TTheory GRing.Theory Num.Theory.
Local Open Scope ring_scope.
Local Open Scope complex_scope.

Section Proofs.
Variable nh : nat.
Variable omega : R.
Hypothesis omega_neq0 : rc omega != 0.
Notation n2 := (nh + nh)%N.
Notation slayer := (slayer nh).
Notation amp := (amp nh).
Implicit Types (l : slayer) (p : amp) (S : smat nh) (a b bN : 'cV[C]_n2).

Notation F l := (diag_mx (phasor (sl_q l) (thick0 l))).
Notation Amat l := (sl_Qeps l *m scale_cols (sl_phi l) (qinv l)).

Lemma phasor0 m (q : 'rV[C]_m) : phasor q 0 = const_mx 1.
Proof. by apply/rowP=> i; rewrite !mxE mulr0 cexp0. Qed.

Lemma sum_col m k (A : 'M[C]_(m, k)) (v : 'I_k -> C) :
  \sum_j v j *: col j A = A *m \col_j v j.
Proof.
apply/colP=> i; rewrite summxE mxE; apply: eq_bigr=> j _; rewrite !mxE; cring.
Qed.

Lemma mode_HE l z p :
  mode_H l z p = sl_phi l *m (\col_m (fwd l z p m) + \col_m (bwd l z p m)).
Proof. by rewrite /mode_H sum_col; congr (_ *m _); apply/colP=> i; rewrite !mxE. Qed.

Lemma colE_mul m k (A : 'M[C]_m) (B : 'M[C]_(m, k)) j : col j (A *m B) = A *m col j B.
Proof. by apply/colP=> i; rewrite !mxE; apply: eq_bigr=> r _; rewrite !mxE. Qed.

Lemma scale_cols_mul (A : 'M[C]_n2) d (v : 'cV[C]_n2) :
  scale_cols A d *m v = A *m vmul d v.
Proof. by apply/colP=> i; rewrite !mxE; apply: eq_bigr=> j _; rewrite !mxE; cring. Qed.

Lemma mode_EE l z p :
  mode_E omega l z p =
  (rc omega)^-1 *: (Amat l *m (\col_m (fwd l z p m) - \col_m (bwd l z p m))).
Proof.
rewrite /mode_E -mulmxA scale_cols_mul mulmxA scalemxAr.
under eq_bigr do rewrite -colE_mul.
rewrite sum_col; congr (_ *m _).
by apply/colP=> i; rewrite !mxE invfM mulrCA.
Qed.

Lemma fwd_thick l p : \col_m (fwd l (thick0 l) p m) = F l *m p.1.
Proof. by apply/colP=> i; rewrite mul_diag_mx !mxE /fwd mulrC. Qed.
Lemma bwd_thick l p : \col_m (bwd l (thick0 l) p m) = p.2.
Proof. by apply/colP=> i; rewrite mxE /bwd subrr mulr0 cexp0 mulr1. Qed.
Lemma fwd_0 l p : \col_m (fwd l 0 p m) = p.1.
Proof. by apply/colP=> i; rewrite mxE /fwd mulr0 cexp0 mulr1. Qed.
Lemma bwd_0 l p : \col_m (bwd l 0 p m) = F l *m p.2.
Proof. by apply/colP=> i; rewrite mul_diag_mx !mxE /bwd subr0 mulrC. Qed.

Lemma Mmatrix_col l (u v : 'cV[C]_n2) :
  build_Mmatrix l *m col_mx u v = col_mx (Amat l *m (u - v)) (sl_phi l *m (u + v)).
Proof. by rewrite mul_block_col mulNmx mulmxBr mulmxDr. Qed.

(** Matching the fields is the linear system with the layer matrices. *)
Lemma matchedE l l' p p' :
  matched omega l l' p p' <->
  build_Mmatrix l *m col_mx (F l *m p.1) p.2 =
  build_Mmatrix l' *m col_mx p'.1 (F l' *m p'.2).
Proof.
rewrite /matched !mode_HE !mode_EE !fwd_thick !bwd_thick !fwd_0 !bwd_0 !Mmatrix_col.
split=> [[-> hE]|/eq_col_mx [-> ->]] //.
congr (col_mx _ _).
have := congr1 (fun x => rc omega *: x) hE.
by rewrite !scalerA !divff // !scale1r.
Qed.

Lemma solveP m k (A : 'M[C]_m) (B : 'M[C]_(m, k)) X :
  solve A B = Ok X -> A \in unitmx /\ A *m X = B.
Proof.
rewrite /solve; case: ifP => // Au [<-]; split=> //.
by rewrite mulKVmx.
Qed.

Lemma solve_unit m k (A : 'M[C]_m) (B : 'M[C]_(m, k)) :
  A \in unitmx -> solve A B = Ok (invmx A *m B).
Proof. by rewrite /solve => ->. Qed.

(** What the interface matrix says about amplitudes. *)
Lemma Imatrix_matched l l' I_ p p' :
  build_Imatrix l l' = Ok I_ ->
  (matched omega l l' p p' <->
   (F l *m p.1 = ulsubmx I_ *m p'.1 + ursubmx I_ *m (F l' *m p'.2) /\
    p.2 = dlsubmx I_ *m p'.1 + drsubmx I_ *m (F l' *m p'.2))).
Proof.
rewrite /build_Imatrix; case: ifP => // _ /solveP [Mu MI].
rewrite matchedE.
have E : I_ *m col_mx p'.1 (F l' *m p'.2) =
  col_mx (ulsubmx I_ *m p'.1 + ursubmx I_ *m (F l' *m p'.2))
         (dlsubmx I_ *m p'.1 + drsubmx I_ *m (F l' *m p'.2)).
  by rewrite -{1}[I_]submxK mul_block_col.
rewrite -MI -mulmxA E; split.
- by move=> /(can_inj (mulKmx Mu)) /eq_col_mx [-> ->].
- by move=> [-> ->].
Qed.

(** [rel S a0 b0 p]: the pair [p] in the current layer is related to the
    amplitudes (a0,b0) of the first layer by the S matrix. *)
Definition rel S (a0 b0 : 'cV[C]_n2) p : Prop :=
  p.1 = S11 S *m a0 + S12 S *m p.2 /\ b0 = S21 S *m a0 + S22 S *m p.2.

Definition bunch l (I_ : 'M[C]_(n2 + n2)) S : 'M[C]_n2 :=
  ulsubmx I_ - F l *m S12 S *m dlsubmx I_.

Lemma smat_stepP l l' S S' :
  smat_step l l' S = Ok S' ->
  exists I_, build_Imatrix l l' = Ok I_ /\
  bunch l I_ S \in unitmx /\
  bunch l I_ S *m S11 S' = F l *m S11 S /\
  bunch l I_ S *m S12 S' = (F l *m S12 S *m drsubmx I_ - ursubmx I_) *m F l' /\
  S21 S' = S22 S *m dlsubmx I_ *m S11 S' + S21 S /\
  S22 S' = S22 S *m dlsubmx I_ *m S12 S' + S22 S *m drsubmx I_ *m F l'.
Proof.
rewrite /smat_step; cbv zeta => H.
ubind H I_ hI; ubind H s11 h11; ubind H s12 h12; case: H => <-.
exists I_; move: h11 h12 => /solveP [Au h11] /solveP [_ h12].
by do !split.
Qed.

(** One step transports the relation forward... *)
Lemma step_rel l l' S S' a0 b0 p p' :
  smat_step l l' S = Ok S' -> matched omega l l' p p' -> rel S a0 b0 p ->
  rel S' a0 b0 p'.
Proof.
move=> /smat_stepP [I_ [hI [Au [h11 [h12 [h21 h22]]]]]] /(Imatrix_matched _ _ hI) [m1 m2] [r1 r2].
have key : p'.1 = S11 S' *m a0 + S12 S' *m p'.2.
  apply: (can_inj (mulKmx Au)).
  rewrite mulmxDr !mulmxA h11 h12.
  have E : F l *m p.1 = F l *m S11 S *m a0 + F l *m S12 S *m p.2.
    by rewrite r1 mulmxDr !mulmxA.
  have -> : F l *m S11 S *m a0 = F l *m p.1 - F l *m S12 S *m p.2 by rewrite E addrK.
  rewrite m1 m2 /bunch; mxadd.
split=> //.
rewrite h21 h22 r2 m2 {1}key; mxadd.
Qed.

(** ... and backward: amplitudes of the next layer determine those of this one. *)
Lemma step_back l l' S S' a0 p' :
  smat_step l l' S = Ok S' -> p'.1 = S11 S' *m a0 + S12 S' *m p'.2 ->
  exists p, matched omega l l' p p' /\ p.1 = S11 S *m a0 + S12 S *m p.2.
Proof.
move=> /smat_stepP [I_ [hI [Au [h11 [h12 _]]]]] key.
pose b := dlsubmx I_ *m p'.1 + drsubmx I_ *m (F l' *m p'.2).
exists (S11 S *m a0 + S12 S *m b, b); split=> //.
apply/(Imatrix_matched _ _ hI); split=> //=.
have E : bunch l I_ S *m p'.1 = F l *m S11 S *m a0 +
   (F l *m S12 S *m drsubmx I_ - ursubmx I_) *m F l' *m p'.2.
  by rewrite key mulmxDr !mulmxA h11 h12.
have -> : F l *m (S11 S *m a0 + S12 S *m b) = F l *m S11 S *m a0 + F l *m S12 S *m b.
  by rewrite mulmxDr !mulmxA.
have -> : F l *m S11 S *m a0 = bunch l I_ S *m p'.1 -
   (F l *m S12 S *m drsubmx I_ - ursubmx I_) *m F l' *m p'.2 by rewrite E addrK.
rewrite /b /bunch; mxadd.
Qed.

Lemma matched_b l l' I_ p1 p2 p' : build_Imatrix l l' = Ok I_ ->
  matched omega l l' p1 p' -> matched omega l l' p2 p' -> p1.2 = p2.2.
Proof.
move=> hI /(Imatrix_matched _ _ hI) [_ ->] /(Imatrix_matched _ _ hI) [_ ->] //.
Qed.

(** The loop: soundness. *)
Lemma loop_sound S l rest S' a0 b0 p ps :
  smat_loop S l rest = Ok S' -> rel S a0 b0 p -> is_solution omega (l :: rest) (p :: ps) ->
  rel S' a0 b0 (last p ps).
Proof.
elim: rest S l p ps => [|l' rest IH] S l p ps /=.
  by move=> [<-]; case: ps.
move=> h; ubind h S1 h1; move: h => h hr; case: ps => [|p' ps] // [m1 sol].
by apply: IH (step_rel h1 m1 hr) sol.
Qed.

(** The loop: exactly one solution for each pair of incoming amplitudes. *)
Lemma loop_exists S l rest S' a0 bN :
  smat_loop S l rest = Ok S' ->
  exists (p : amp) (ps : seq amp), is_solution omega (l :: rest) (p :: ps) /\
    p.1 = S11 S *m a0 + S12 S *m p.2 /\ (last p ps).2 = bN.
Proof.
elim: rest S l => [|l' rest IH] S l /=.
  by move=> _; exists (S11 S *m a0 + S12 S *m bN, bN), [::].
move=> h; ubind h S1 h1; move: h => h.
have [p' [ps [sol [hp' hl]]]] := IH _ _ h.
have [p [m1 hp]] := step_back h1 hp'.
by exists p, (p' :: ps); split.
Qed.

Lemma loop_unique S l rest S' a0 p ps p1 ps1 :
  smat_loop S l rest = Ok S' ->
  is_solution omega (l :: rest) (p :: ps) -> is_solution omega (l :: rest) (p1 :: ps1) ->
  p.1 = S11 S *m a0 + S12 S *m p.2 -> p1.1 = S11 S *m a0 + S12 S *m p1.2 ->
  (last p ps).2 = (last p1 ps1).2 -> p = p1 /\ ps = ps1.
Proof.
elim: rest S l p ps p1 ps1 => [|l' rest IH] S l p ps p1 ps1 /=.
  move=> _; case: ps => // _; case: ps1 => // _ /= h1 h2 h3.
  by split=> //; rewrite [p]surjective_pairing [p1]surjective_pairing h1 h2 h3.
move=> h; ubind h S1 h1; move: h => h.
case: ps => [|p' ps] //= [m1 sol]; case: ps1 => [|p1' ps1] //= [m2 sol1] hp hp1 hl.
have r1 : rel S a0 (S21 S *m a0 + S22 S *m p.2) p by split.
have r2 : rel S a0 (S21 S *m a0 + S22 S *m p1.2) p1 by split.
have [k1 _] := step_rel h1 m1 r1.
have [k2 _] := step_rel h1 m2 r2.
have [e1 e2] := IH _ _ _ _ _ _ h sol sol1 k1 k2 hl.
rewrite e1 e2; split=> //.
have [I_ [hI _]] := smat_stepP h1.
rewrite e1 in m1.
have hb := matched_b hI m1 m2.
by rewrite [p]surjective_pairing [p1]surjective_pairing hp hp1 hb.
Qed.

Lemma rel_id a0 b0 p : rel (smat_id nh) a0 b0 p <-> p = (a0, b0).
Proof.
rewrite /rel /= !mul1mx !mul0mx addr0 add0r; split=> [[h1 ->]|->] //.
by rewrite -h1 -surjective_pairing.
Qed.

Lemma smatrix_loop (stack : seq slayer) S : smatrix stack = Ok S ->
  exists l l' rest, stack = [:: l, l' & rest] /\ smat_loop (smat_id nh) l (l' :: rest) = Ok S.
Proof. by case: stack => [|l [|l' rest]] // h; exists l, l', rest. Qed.

Lemma is_solution_size (ls : seq slayer) (ps : seq amp) : is_solution omega ls ps -> size ps = size ls.
Proof.
case: ls ps => [|l ls] [|p ps] //=.
by elim: ls ps l p => [|l' ls IH] [|p' ps] l p //= [_ /IH [->]].
Qed.

Lemma head_last_size (ps : seq amp) : ps != [::] -> exists p ps', ps = p :: ps'.
Proof. by case: ps => // p ps' _; exists p, ps'. Qed.

(** * S matrix = boundary problem *)
Lemma smatrix_sound (stack : seq slayer) S a0 bN ps :
  smatrix stack = Ok S -> solves omega stack a0 bN ps ->
  (last (0, 0) ps).1 = S11 S *m a0 + S12 S *m bN /\
    (head (0, 0) ps).2 = S21 S *m a0 + S22 S *m bN.
Proof.
move=> /smatrix_loop [l [l' [rest [-> h]]]] [sol [h1 h2]].
case: ps sol h1 h2 => [|p ps] //= sol h1 h2.
have r0 : rel (smat_id nh) a0 p.2 p by apply/rel_id; rewrite -h1 -surjective_pairing.
have sol' : is_solution omega (l :: l' :: rest) (p :: ps) by [].
have [-> ->] := loop_sound h r0 sol'.
by rewrite h2.
Qed.

Lemma smatrix_exists stack S a0 bN :
  smatrix stack = Ok S -> exists ps, solves omega stack a0 bN ps.
Proof.
move=> /smatrix_loop [l [l' [rest [-> h]]]].
have [p [ps [sol [h1 h2]]]] := loop_exists a0 bN h.
exists (p :: ps); split=> //; split=> //=.
by rewrite h1 /= mul1mx mul0mx addr0.
Qed.

Lemma smatrix_unique stack S a0 bN ps ps' :
  smatrix stack = Ok S -> solves omega stack a0 bN ps -> solves omega stack a0 bN ps' ->
  ps = ps'.
Proof.
move=> /smatrix_loop [l [l' [rest [-> h]]]] [sol [h1 h2]] [sol' [h1' h2']].
case: ps sol h1 h2 => [|p ps] //= sol h1 h2.
case: ps' sol' h1' h2' => [|p' ps'] //= sol' h1' h2'.
have s1 : is_solution omega (l :: l' :: rest) (p :: ps) by [].
have s2 : is_solution omega (l :: l' :: rest) (p' :: ps') by [].
have [|||-> -> //] := loop_unique (a0 := a0) h s1 s2.
- by rewrite /= mul1mx mul0mx addr0.
- by rewrite /= mul1mx mul0mx addr0.
- by rewrite h2 h2'.
Qed.

End Proofs.

From Coq Require Import Reals ZArith Lra.
From mathcomp Require Import all_ssreflect all_algebra.
From mathcomp Require Import complex.
From Verif Require Import RStruct Cplx Base Fourier_Model Sim_Model Sim_Spec SMat_Proofs SMat_Proofs2.

Set Implicit Arguments.
Unset Strict Implicit.
Unset Printing Implicit Defensive.

Import Order.TTheory GRing.Theory Num.Theory.
Local Open Scope ring_scope.
Local Open Scope complex_scope.

Section Proofs.
Variable nh : nat.
Variable omega : R.
Hypothesis omega_neq0 : rc omega != 0.
Notation n2 := (nh + nh)%N.
Notation slayer := (slayer nh).
Notation amp := (amp nh).
Implicit Types (l : slayer) (p : amp) (S P : smat nh) (a b bN : 'cV[C]_n2).
Implicit Types (ls stack : seq slayer) (ps : seq amp).

Notation F l := (diag_mx (phasor (sl_q l) (thick0 l))).
Notation z2 := ((0, 0) : amp).

(** ** Interior amplitudes *)

Lemma last_take (T : Type) (x : T) s k : (k < size s)%N -> last x (take k.+1 s) = nth x s k.
Proof. by move=> h; rewrite (take_nth x) // last_rcons. Qed.

Lemma head_drop (T : Type) (x : T) s k : head x (drop k s) = nth x s k.
Proof. by rewrite -nth0 nth_drop addn0. Qed.

Lemma last_drop (T : Type) (x : T) s k : (k < size s)%N -> last x (drop k s) = last x s.
Proof.
move=> h; rewrite -{2}(cat_take_drop k s) last_cat.
by case E : (drop k s) => [|y t] //; move: h; rewrite -subn_gt0 -size_drop E.
Qed.

Lemma solves_take stack a0 bN ps k : solves omega stack a0 bN ps -> (k < size stack)%N ->
  solves omega (take k.+1 stack) a0 (nth z2 ps k).2 (take k.+1 ps).
Proof.
move=> [sol [h1 h2]] hk; have hsz := is_solution_size sol.
split; first by apply: sol_take sol _.
by rewrite last_take ?hsz //; split=> //; rewrite -h1; case: (ps).
Qed.

Lemma solves_drop stack a0 bN ps k : solves omega stack a0 bN ps -> (k < size stack)%N ->
  solves omega (drop k stack) (nth z2 ps k).1 bN (drop k ps).
Proof.
move=> [sol [h1 h2]] hk; have hsz := is_solution_size sol.
split; first by apply: sol_drop.
by rewrite head_drop last_drop ?hsz.
Qed.

Lemma sol_join stack k ps1 ps2 : (k < size stack)%N ->
  is_solution omega (take k.+1 stack) ps1 -> is_solution omega (drop k stack) ps2 ->
  last z2 ps1 = head z2 ps2 ->
  is_solution omega stack (ps1 ++ behead ps2).
Proof.
move=> hk sol1 sol2 e.
case: stack hk sol1 sol2 => [|l stack] //= hk.
case: ps1 e => [|p1 ps1] //= e sol1.
case E : (drop k (l :: stack)) => [|l2 r] //; case: ps2 e => [|p2 ps2] //= e sol2.
have El : l2 = last l (take k stack).
  have := head_drop l (l :: stack) k; rewrite E /= => ->.
  by rewrite -(last_take _ (s := l :: stack)) //=.
have Er : stack = take k stack ++ r.
  rewrite -{1}(cat_take_drop k stack); congr (_ ++ _).
  by move: E; rewrite (drop_nth l) //= => -[_].
rewrite Er; apply: chain_cat => //.
by rewrite -El e.
Qed.

Lemma solve_int_ok stack S P S0 k a0 ps :
  (k < size stack)%N ->
  smatrix stack = Ok S0 -> smatrix (take k.+1 stack) = Ok S -> smatrix (drop k stack) = Ok P ->
  solves omega stack a0 0 ps ->
  solve_int S P a0 = Ok (nth z2 ps k).
Proof.
move=> hk h0 hS hP hps.
have Qu : 1%:M - S12 S *m S21 P \in unitmx.
  apply: contraT => /singular_vec [x x0 hx].
  have {}hx : S12 S *m (S21 P *m x) = x.
    by move: hx; rewrite mulmxBl mul1mx mulmxA => /eqP; rewrite subr_eq0 => /eqP.
  have [ps1 s1] := smatrix_exists omega_neq0 0 (S21 P *m x) hS.
  have [ps2 s2] := smatrix_exists omega_neq0 x 0 hP.
  have [a1 _] := smatrix_sound omega_neq0 hS s1.
  have [_ b2] := smatrix_sound omega_neq0 hP s2.
  case: s1 => [s1 [s1a s1b]]; case: s2 => [s2 [s2a s2b]].
  have e : last z2 ps1 = head z2 ps2.
    rewrite [LHS]surjective_pairing [RHS]surjective_pairing s1b s2a b2 a1.
    by rewrite !mulmx0 add0r addr0 hx.
  have sj := sol_join hk s1 s2 e.
  case: (smatrix_not_degenerate omega_neq0 h0).
  exists (ps1 ++ behead ps2); split.
    split=> //; split.
    - by case: (ps1) s1 s1a => [|p1 ps1'] //=; case: (take _ _).
    - case: (ps2) e s2 s2b => [|p2 [|p3 ps2']] /=; rewrite ?cats0.
      + by case: (drop _ _).
      + by move=> -> _ ->.
      + by move=> _ _; rewrite last_cat.
  exists (last z2 ps1); split.
    case: (ps1) s1 => [|p1 ps1']; first by case: (take _ _).
    by move=> _; rewrite mem_cat /= mem_last.
  rewrite [last _ _]surjective_pairing a1 mulmx0 add0r hx.
  by apply/negP => /eqP [] /eqP; rewrite (negPf x0).
have hsz := is_solution_size hps.1.
have [a1 _] := smatrix_sound omega_neq0 hS (solves_take hps hk).
have [_ b2] := smatrix_sound omega_neq0 hP (solves_drop hps hk).
rewrite last_take ?hsz // in a1; rewrite head_drop mulmx0 addr0 in b2.
have ea : (nth z2 ps k).1 = invmx (1%:M - S12 S *m S21 P) *m (S11 S *m a0).
  apply: (can_inj (mulKmx Qu)); rewrite mulKVmx // mulmxBl mul1mx {1}a1 b2 mulmxA.
  by rewrite addrK.
rewrite /solve_int solve_unit //= -ea -b2.
by rewrite -surjective_pairing.
Qed.

Lemma get_amplitudes_sound stack S0 k a0 ps p :
  smatrix stack = Ok S0 -> solves omega stack a0 0 ps -> (k < size stack)%N ->
  get_amplitudes stack k a0 0 = Ok p -> p = nth z2 ps k.
Proof.
move=> h0 hps hk; rewrite /get_amplitudes.
have hsz := is_solution_size hps.1.
have [aN b0] := smatrix_sound omega_neq0 h0 hps.
case: eqP => [->|_].
  rewrite h0 /= => -[<-]; rewrite -b0 nth0 -hps.2.1; by rewrite -surjective_pairing.
case: eqP => [->|_].
  by rewrite h0 /= => -[<-]; rewrite -hsz nth_last [last _ _]surjective_pairing hps.2.2 aN.
move=> h; ubind h Sm hS; ubind h P hP.
by move: h; rewrite (solve_int_ok hk h0 hS hP hps) => -[].
Qed.

Lemma get_amplitudes_complete stack S0 k a0 ps :
  smatrix stack = Ok S0 -> solves omega stack a0 0 ps -> (k < size stack)%N ->
  (k = 0%N \/ k = (size stack).-1 \/ is_ok (smatrix (drop k stack))) ->
  get_amplitudes stack k a0 0 = Ok (nth z2 ps k).
Proof.
move=> h0 hps hk hok.
case E : (get_amplitudes stack k a0 0) => [p|e].
  by rewrite (get_amplitudes_sound h0 hps hk E).
move: E; rewrite /get_amplitudes.
case: eqP => [_|k0]; first by rewrite h0.
case: eqP => [_|k1]; first by rewrite h0.
case: hok => [//|[//|]].
case hP : (smatrix (drop k stack)) => [P|//] _.
have k2 : (1 < k.+1)%N by case: (k) k0.
have [S hS] := smatrix_prefix h0 k2.
by rewrite hS /= (solve_int_ok hk h0 hS hP hps).
Qed.

(** ** Fields *)
Variables kx ky : 'rV[C]_nh.

Lemma field_modes l z p p' f : sl_thick l != None -> translate l z p = Ok p' ->
  field_of omega kx ky l p' = Ok f ->
  col_mx (f_hx f) (f_hy f) = mode_H l z p /\
  col_mx (- f_ey f) (f_ex f) = mode_E omega l z p.
Proof.
move=> ht; rewrite /translate; case E: (sl_thick l) ht => [t|] // _ [<-].
rewrite /field_of; case: ifP => // _ /= h; ubind h ez hez; case: h => <- /=.
rewrite vsubmxK opprK vsubmxK mode_HE mode_EE.
have e1 : vmul (phasor (sl_q l) z) p.1 = \col_m fwd l z p m.
  by apply/colP=> i; rewrite !mxE /fwd.
have e2 : vmul (phasor (sl_q l) (t - z)) p.2 = \col_m bwd l z p m.
  by apply/colP=> i; rewrite !mxE /bwd /thick0 E.
rewrite e1 e2; split=> //.
rewrite -mulmxA scale_cols_mul !scalemxAr; congr (_ *m (_ *m _)).
by apply/colP=> i; rewrite !mxE invfM mulrCA.
Qed.

End Proofs.

(** ** Thickness changes *)
Section Thick.
Variable nh : nat.
Notation n2 := (nh + nh)%N.
Notation slayer := (slayer nh).
Implicit Types (l : slayer) (S : smat nh).

Definition with_thick l (t : option R) : slayer :=
  SLayer t (sl_q l) (sl_phi l) (sl_Qeps l) (sl_eps l).

Lemma phasorD m (q : 'rV[C]_m) z z' :
  diag_mx (phasor q (z + z')) = diag_mx (phasor q z) *m diag_mx (phasor q z').
Proof.
apply/matrixP=> i j; rewrite mul_diag_mx !mxE; case: eqP => [->|]; rewrite ?mulr0n ?mulr0 //.
by rewrite !mulr1n -cexpD -mulrDr; congr (cexp (_ * _)); rewrite rmorphD.
Qed.

Notation Fz l z := (diag_mx (phasor (sl_q l) z)).

Lemma smat_step_parts l l' S : smat_step l l' S =
  let! I_ := build_Imatrix l l' in
  let G := Fz l (thick0 l) *m S12 S in
  let G1 := Fz l (thick0 l) *m S11 S in
  let A := ulsubmx I_ - G *m dlsubmx I_ in
  let! s11 := solve A G1 in
  let! s12 := solve A ((G *m drsubmx I_ - ursubmx I_) *m Fz l' (thick0 l')) in
  Ok (SMat s11 s12 (S22 S *m dlsubmx I_ *m s11 + S21 S)
       (S22 S *m dlsubmx I_ *m s12 + S22 S *m drsubmx I_ *m Fz l' (thick0 l'))).
Proof. by []. Qed.

(** The next step only depends on S through these four matrices. *)
Lemma smat_step_ext l1 l2 l' S S' :
  sl_q l1 = sl_q l2 -> sl_phi l1 = sl_phi l2 -> sl_Qeps l1 = sl_Qeps l2 ->
  Fz l1 (thick0 l1) *m S11 S = Fz l2 (thick0 l2) *m S11 S' ->
  Fz l1 (thick0 l1) *m S12 S = Fz l2 (thick0 l2) *m S12 S' ->
  S21 S = S21 S' -> S22 S = S22 S' ->
  smat_step l1 l' S = smat_step l2 l' S'.
Proof.
move=> eq ep eQ h1 h2 h3 h4; rewrite !smat_step_parts.
have -> : build_Imatrix l1 l' = build_Imatrix l2 l'.
  by rewrite /build_Imatrix /build_Mmatrix /q_ok /qinv eq ep eQ.
by rewrite h1 h2 h3 h4.
Qed.

Definition slice l (t : R) := with_thick l (Some t).

Lemma thick0_slice l t : thick0 (slice l t) = t. Proof. by []. Qed.

Lemma Imatrix_slices l t t' : q_ok l -> build_Mmatrix l \in unitmx ->
  build_Imatrix (slice l t) (slice l t') = Ok 1%:M.
Proof.
move=> hq Mu; rewrite /build_Imatrix.
have E x : build_Mmatrix (slice l x) = build_Mmatrix l by [].
have Q x : q_ok (slice l x) = q_ok l by [].
by rewrite !E !Q hq /= solve_unit // mulVmx.
Qed.

Lemma sub1 : (ulsubmx (1%:M : 'M[C]_(n2 + n2)) = 1%:M) /\ (ursubmx (1%:M : 'M[C]_(n2 + n2)) = 0)
  /\ (dlsubmx (1%:M : 'M[C]_(n2 + n2)) = 0) /\ (drsubmx (1%:M : 'M[C]_(n2 + n2)) = 1%:M).
Proof.
rewrite (scalar_mx_block n2 n2 1) block_mxKul block_mxKur block_mxKdl block_mxKdr; by [].
Qed.

Lemma step_slices l t t' S : q_ok l -> build_Mmatrix l \in unitmx ->
  smat_step (slice l t) (slice l t') S =
  Ok (SMat (Fz l t *m S11 S) (Fz l t *m S12 S *m Fz l t') (S21 S) (S22 S *m Fz l t')).
Proof.
move=> hq Mu; rewrite smat_step_parts Imatrix_slices //=.
have [-> [-> [-> ->]]] := sub1.
rewrite ?mulmx0 ?mulmx1 ?subr0 ?mul0mx ?add0r.
by rewrite /solve unitmx1 /= invmx1 !mul1mx ?mul0mx ?addr0 ?add0r.
Qed.

(** Cutting an interior layer in two: pre-step with thickness t+t' then next
    = pre-step with t, step between the slices, next. *)
Lemma split_step l0 l l2 t t' S :
  q_ok l -> build_Mmatrix l \in unitmx ->
  (let! S1 := smat_step l0 (slice l (t + t')) S in smat_step (slice l (t + t')) l2 S1) =
  (let! S1 := smat_step l0 (slice l t) S in
   let! S2 := smat_step (slice l t) (slice l t') S1 in
   smat_step (slice l t') l2 S2).
Proof.
move=> hq Mu.
rewrite (smat_step_parts l0) (smat_step_parts l0 (slice l t)).
have -> : build_Imatrix l0 (slice l (t + t')) = build_Imatrix l0 l by [].
have -> : build_Imatrix l0 (slice l t) = build_Imatrix l0 l by [].
case: (build_Imatrix l0 l) => [I_|e] //=.
rewrite !thick0_slice.
set A := ulsubmx _ - _.
rewrite /solve; case: ifP => // Au /=.
rewrite step_slices //=; apply: smat_step_ext => //=; rewrite -![Rplus t t']/(t + t').
- by rewrite !thick0_slice {1}(addrC t) phasorD !mulmxA.
- by rewrite !thick0_slice {1}(addrC t) !phasorD !mulmxA.
- by rewrite phasorD !(mulmxDl, mulmxDr) !mulmxA.
Qed.

Lemma smat_loop_cat S l r1 r2 :
  smat_loop S l (r1 ++ r2) = let! S' := smat_loop S l r1 in smat_loop S' (last l r1) r2.
Proof.
elim: r1 S l => [|l1 r1 IH] S l //=.
by case: smat_step => [S'|e] //=.
Qed.

(** An interior layer may be cut in two without changing the S matrix. *)
Lemma split_layer l0 pre l t t' l2 post :
  q_ok l -> build_Mmatrix l \in unitmx ->
  smatrix (l0 :: pre ++ slice l (t + t') :: l2 :: post) =
  smatrix (l0 :: pre ++ slice l t :: slice l t' :: l2 :: post).
Proof.
move=> hq Mu.
have E x y r : smatrix (l0 :: pre ++ x :: y :: r) = smat_loop (smat_id nh) l0 (pre ++ x :: y :: r).
  by case: (pre).
rewrite !E !smat_loop_cat; case: (smat_loop _ l0 pre) => [S|e] //.
have := split_step (last l0 pre) l2 t t' S hq Mu.
rewrite /=.
case: (smat_step (last l0 pre) (slice l (t + t')) S) => [S1|e1];
case: (smat_step (last l0 pre) (slice l t) S) => [S1'|e1'] //=.
- case: (smat_step (slice l t) (slice l t') S1') => [S2|e2] /= -> //.
- by move=> ->.
- case: (smat_step (slice l t) (slice l t') S1') => [S2|e2] /= <- //.
Qed.

(** The thickness of the last layer does not change S11 and S21. *)
Lemma last_thickness l0 pre l t t' S S' :
  smatrix (l0 :: rcons pre (with_thick l t)) = Ok S ->
  smatrix (l0 :: rcons pre (with_thick l t')) = Ok S' ->
  S11 S = S11 S' /\ S21 S = S21 S'.
Proof.
have E x : smatrix (l0 :: rcons pre x) = smat_loop (smat_id nh) l0 (rcons pre x).
  by case: (pre).
rewrite !E !smat_loop_rcons; case: (smat_loop _ l0 pre) => [S0|e] //=.
rewrite !smat_step_parts.
have -> : build_Imatrix (last l0 pre) (with_thick l t) = build_Imatrix (last l0 pre) l by [].
have -> : build_Imatrix (last l0 pre) (with_thick l t') = build_Imatrix (last l0 pre) l by [].
case: (build_Imatrix (last l0 pre) l) => [I_|e] //=.
rewrite /solve; case: ifP => // Au /= [<-] [<-] //=.
Qed.

Lemma last_thickness_ok l0 pre l t t' :
  is_ok (smatrix (l0 :: rcons pre (with_thick l t))) =
  is_ok (smatrix (l0 :: rcons pre (with_thick l t'))).
Proof.
have E x : smatrix (l0 :: rcons pre x) = smat_loop (smat_id nh) l0 (rcons pre x).
  by case: (pre).
rewrite !E !smat_loop_rcons; case: (smat_loop _ l0 pre) => [S0|e] //=.
rewrite !smat_step_parts.
have -> : build_Imatrix (last l0 pre) (with_thick l t) = build_Imatrix (last l0 pre) l by [].
have -> : build_Imatrix (last l0 pre) (with_thick l t') = build_Imatrix (last l0 pre) l by [].
case: (build_Imatrix (last l0 pre) l) => [I_|e] //=.
by rewrite /solve; case: ifP.
Qed.
End Thick.

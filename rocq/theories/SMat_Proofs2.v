From Coq Require Import Reals ZArith Lra.
From mathcomp Require Import all_ssreflect all_algebra.
From mathcomp Require Import complex.
From Verif Require Import RStruct Cplx Base Fourier_Model Sim_Model Sim_Spec SMat_Proofs.

Set Implicit Arguments.
Unset Strict Implicit.
Unset Printing Implicit Defensive.

Import Order.TTheory GRing.Theory Num.Theory.
Local Open Scope ring_scope.
Local Open Scope complex_scope.

Section Proofs.
Variable nh : nat.
Variable omega : R.
Hypothesis omega_neq0 : rc omega != 0.
Notation n2 := (nh + nh)%N.
Notation slayer := (slayer nh).
Notation amp := (amp nh).
Implicit Types (l : slayer) (p : amp) (S : smat nh) (a b bN : 'cV[C]_n2).
Implicit Types (ls stack : seq slayer) (ps : seq amp).

Notation F l := (diag_mx (phasor (sl_q l) (thick0 l))).

(** ** Splitting and joining solutions *)

Lemma chain_take l p ls ps k : chain omega l p ls ps ->
  chain omega l p (take k ls) (take k ps).
Proof.
elim: ls ps l p k => [|l' ls IH] [|p' ps] l p [|k] //= [m1 /IH h]; split=> //.
Qed.

Lemma sol_take ls ps k : is_solution omega ls ps -> (0 < k)%N ->
  is_solution omega (take k ls) (take k ps).
Proof. by case: ls ps k => [|l ls] [|p ps] [|k] //= h _; apply: chain_take. Qed.

Lemma sol_drop ls ps k : is_solution omega ls ps -> (k < size ls)%N ->
  is_solution omega (drop k ls) (drop k ps).
Proof.
elim: k ls ps => [|k IH] ls ps; first by rewrite !drop0.
case: ls ps => [|l ls] [|p ps] //=.
case: ls ps => [|l' ls] [|p' ps] //=.
by move=> [m1 sol] h; apply: (IH (l' :: ls) (p' :: ps)).
Qed.

Lemma chain_cat l p ls1 ps1 ls2 ps2 :
  chain omega l p ls1 ps1 -> chain omega (last l ls1) (last p ps1) ls2 ps2 ->
  chain omega l p (ls1 ++ ls2) (ps1 ++ ps2).
Proof.
elim: ls1 ps1 l p => [|l1 ls1 IH] [|p1 ps1] l p //= [m1 h1] h2; split=> //.
exact: IH.
Qed.

Lemma matched_sub l l' p p' q q' :
  matched omega l l' p p' -> matched omega l l' q q' ->
  matched omega l l' (p.1 - q.1, p.2 - q.2) (p'.1 - q'.1, p'.2 - q'.2).
Proof.
move=> /(matchedE omega_neq0) h1 /(matchedE omega_neq0) h2; apply/(matchedE omega_neq0) => /=.
have E m (u u' : 'M[C]_(m,1)) n (v v' : 'M[C]_(n,1)) : col_mx (u - u') (v - v') = col_mx u v - col_mx u' v'.
  by rewrite opp_col_mx add_col_mx.
by rewrite !mulmxBr !E !mulmxBr h1 h2.
Qed.

Lemma matched0 l l' : matched omega l l' (0, 0) (0, 0).
Proof. by apply/(matchedE omega_neq0); rewrite /= !mulmx0 !col_mx0 !mulmx0. Qed.

Lemma sol0 ls : (0 < size ls)%N -> solves omega ls 0 0 (nseq (size ls) (0, 0)).
Proof.
case: ls => // l ls _; split; last by split=> //=; elim: (size ls).
elim: ls l => [|l' ls IH] l //=; split; first exact: matched0.
exact: (IH l').
Qed.

(** ** Failures are degenerate boundary problems *)

Lemma smat_loop_rcons S l rest l' :
  smat_loop S l (rcons rest l') =
  bind (smat_loop S l rest) (fun S' => smat_step (last l rest) l' S').
Proof.
elim: rest S l => [|l1 rest IH] S l /=; first by case: smat_step.
by case: smat_step => [S'|e] //=; rewrite IH.
Qed.

Lemma singular_vec m (A : 'M[C]_m) : A \notin unitmx -> exists2 x : 'cV[C]_m, x != 0 & A *m x = 0.
Proof.
rewrite unitmxE unitfE negbK -det_tr => /det0P [v v0 h].
exists v^T; first by rewrite -trmx0 (inj_eq trmx_inj).
by rewrite -[A]trmxK -trmx_mul h trmx0.
Qed.

Definition layer_ok l : bool := q_ok l && (build_Mmatrix l \in unitmx).

Lemma smat_step_fail l l' S e :
  layer_ok l -> q_ok l' -> smat_step l l' S = Err e ->
  exists I_, build_Imatrix l l' = Ok I_ /\ bunch l I_ S \notin unitmx.
Proof.
move=> /andP [ql Ml] ql'; rewrite /smat_step.
have -> : build_Imatrix l l' = Ok (invmx (build_Mmatrix l) *m build_Mmatrix l').
  by rewrite /build_Imatrix ql ql' /= solve_unit.
set I_ := _ *m _; rewrite /= => H; exists I_; split=> //.
apply/negP => Au; move: H; rewrite -/(bunch l I_ S).
by rewrite (solve_unit _ Au) /= (solve_unit _ Au).
Qed.

Lemma step_fail_degenerate l0 rest l' S :
  smat_loop (smat_id nh) l0 rest = Ok S ->
  layer_ok (last l0 rest) -> q_ok l' -> ~~ is_ok (smat_step (last l0 rest) l' S) ->
  degenerate omega (rcons (l0 :: rest) l').
Proof.
move=> hS ok1 ok2.
case hs : smat_step => [//|e] _.
have [I_ [hI /singular_vec [x x0 hx]]] := smat_step_fail ok1 ok2 hs.
set b := dlsubmx I_ *m x.
have [p [ps [sol [h1 h2]]]] := loop_exists omega_neq0 0 b hS.
have r0 : rel (smat_id nh) 0 p.2 p.
  by apply/rel_id; rewrite [LHS]surjective_pairing; move: h1; rewrite /= mulmx0 mul0mx addr0 => ->.
have [r1 _] := loop_sound omega_neq0 hS r0 sol.
have hm : matched omega (last l0 rest) l' (last p ps) (x, 0).
  apply/(Imatrix_matched omega_neq0 _ _ hI) => /=.
  rewrite !mulmx0 !addr0 h2; split=> //.
  rewrite r1 mulmx0 add0r h2 mulmxA.
  move: hx; rewrite /bunch mulmxBl => /eqP; rewrite subr_eq0 => /eqP ->.
  by rewrite /b !mulmxA.
exists (rcons (p :: ps) (x, 0)); split; last first.
  exists (x, 0); rewrite mem_rcons inE eqxx; split=> //.
  by apply/negP => /eqP [] /eqP; rewrite (negPf x0).
split; last first.
  by rewrite /= last_rcons; split=> //; move: h1; rewrite /= mulmx0 mul0mx addr0.
by rewrite -!cats1 /=; apply: chain_cat.
Qed.

Lemma loop_ok_or_degenerate l0 rest :
  all layer_ok (belast l0 rest) -> q_ok (last l0 rest) ->
  (exists S, smat_loop (smat_id nh) l0 rest = Ok S) \/
  (exists k, (1 < k <= size (l0 :: rest))%N /\ degenerate omega (take k (l0 :: rest))).
Proof.
elim/last_ind: rest => [|rest l' IH]; first by left; exists (smat_id nh).
rewrite belast_rcons last_rcons => /= hall hq.
have hall' : all layer_ok (belast l0 rest) /\ layer_ok (last l0 rest).
  by move: hall; rewrite -[_ && _]/(all layer_ok (l0 :: rest)) lastI all_rcons => /andP [].
case: hall' => hb hl.
case: (IH hb); first by case/andP: hl.
- move=> [S hS]; rewrite smat_loop_rcons hS /=.
  case E : (smat_step _ _ _) => [S'|e]; first by left; exists S'.
  right; exists (size rest).+2; rewrite size_rcons leqnn; split=> //.
  rewrite take_oversize; last by rewrite /= size_rcons.
  rewrite -rcons_cons; apply: step_fail_degenerate hS hl hq _.
  by rewrite E.
- move=> [k [/andP [k1 k2] hd]]; right; exists k; rewrite k1 size_rcons /=.
  split; first by apply: leq_trans k2 _; rewrite /= ltnS leqnSn.
  rewrite -rcons_cons -cats1 take_cat ltn_neqAle k2 andbT.
  case: eqP hd => [->|_ //]; rewrite take_size subnn take0 cats0 //.
Qed.

Lemma smatrix_not_degenerate stack S :
  smatrix stack = Ok S -> ~ degenerate omega stack.
Proof.
move=> hS [ps [hps [p [pin pn0]]]].
have h0 : (0 < size stack)%N by case: (stack) hS.
have E := smatrix_unique omega_neq0 hS hps (sol0 h0).
by move: pin; rewrite E mem_nseq => /andP [_ /eqP pe]; rewrite pe eqxx in pn0.
Qed.

Lemma loop_prefix S l r1 r2 S' : smat_loop S l (r1 ++ r2) = Ok S' ->
  exists S'', smat_loop S l r1 = Ok S''.
Proof.
elim: r1 S l => [|l1 r1 IH] S l /=; first by exists S.
by move=> h; ubind h S1 h1; rewrite h1 /=; apply: IH h.
Qed.

Lemma smatrix_prefix stack S k : smatrix stack = Ok S -> (1 < k)%N ->
  exists S', smatrix (take k stack) = Ok S'.
Proof.
move=> /smatrix_loop [l0 [l1 [rest [-> h]]]].
case: k => [|[|k]] //= _.
by apply: (@loop_prefix _ l0 (l1 :: take k rest) (drop k rest) S); rewrite /= cat_take_drop.
Qed.

(** The stack's S matrix is computable exactly when no prefix of at least two
    layers has a degenerate boundary problem. *)
Lemma smatrix_ok_iff l0 l1 rest :
  all layer_ok (belast l0 (l1 :: rest)) -> q_ok (last l0 (l1 :: rest)) ->
  ((exists S, smatrix [:: l0, l1 & rest] = Ok S) <->
   (forall k, (1 < k <= size [:: l0, l1 & rest])%N ->
      ~ degenerate omega (take k [:: l0, l1 & rest]))).
Proof.
move=> h1 h2; split.
- move=> [S hS] k hk; case/andP: (hk) => hk1 _; have [S' hS'] := smatrix_prefix hS hk1.
  exact: smatrix_not_degenerate hS'.
- move=> h; case: (loop_ok_or_degenerate h1 h2) => // [[k [hk hd]]].
  by case: (h k hk).
Qed.

End Proofs.

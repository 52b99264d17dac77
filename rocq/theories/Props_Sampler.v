(** The adaptive sampler (properties C43 and C44). *)
From Coq Require Import List Reals ZArith Lra Lia Sorting.Sorted.
From Verif Require Import Base Sampler_Model Sampler_Proofs.
Import ListNotations.
Open Scope R_scope.

Section Props.
Variable Y : Type.
Variable mon : Y -> R.
Variable multi : bool.
Variable f : R -> Y.
Variables (max_bend max_x_rel max_df : R).
Notation sampler := (sampler mon multi f max_bend max_x_rel max_df).

(** ** C43 *)
(** Whenever the sampler returns: the abscissae are strictly increasing, contain
    the initial ones and lie in their range, and the k-th value is that of the
    k-th abscissa, for single and multiple outputs. *)
Theorem C43_matching x fuel x' y' :
  StronglySorted Rlt x -> sampler fuel x = Ok (Some (x', y')) ->
  StronglySorted Rlt x' /\ (forall v, In v x -> In v x') /\
  (forall v, In v x' -> exists a b, In a x /\ In b x /\ a <= v <= b) /\
  length y' = length x' /\
  (forall k v, nth_error x' k = Some v -> nth_error y' k = Some (f v)).
Proof.
  intros hs H. destruct (sampler_sound _ _ _ _ _ _ _ hs H) as (-> & lo & hi & (h1 & h2 & _) & I).
  destruct I as (hs' & (_ & _ & hr) & hin & _). repeat split; auto.
  - intros v hv. exists lo, hi. auto.
  - apply map_length.
  - intros k v h. now apply map_nth_error.
Qed.

(** ** C44 *)
(** The loop ends, for every function: some number of turns suffices. *)
Theorem C44_terminates x :
  StronglySorted Rlt x -> x <> [] -> 0 < max_x_rel ->
  exists turns, forall fuel, (turns <= fuel)%nat ->
    exists x' y', sampler fuel x = Ok (Some (x', y')).
Proof. exact (@sampler_total Y mon multi f max_bend max_x_rel max_df x). Qed.

(** Two neighbouring points of the result were neighbours initially or are at
    least half of [max_x_rel] times the range apart. *)
Theorem C44_no_over_refinement x fuel x' y' lo hi a b :
  StronglySorted Rlt x -> sampler fuel x = Ok (Some (x', y')) ->
  In lo x -> In hi x -> (forall v, In v x -> lo <= v <= hi) ->
  adjacent x' a b -> adjacent x a b \/ max_x_rel * (hi - lo) / 2 <= b - a.
Proof.
  intros hs H h1 h2 h3 A.
  destruct (sampler_sound _ _ _ _ _ _ _ hs H) as (_ & lo' & hi' & S & I).
  destruct (@spans_uniq x lo hi lo' hi') as [<- <-]; auto; [repeat split; auto; apply h3; auto|].
  destruct I as (_ & _ & _ & G). now apply G.
Qed.
End Props.
Print Assumptions C43_matching.
Print Assumptions C44_terminates.
Print Assumptions C44_no_over_refinement.

(** A run that refines: [0, 1, 8] with max_x_rel = 1/2 and a constant function. *)
Lemma ltb_t a b : a < b -> Rltb a b = true.
Proof. intros h. unfold Rltb. now destruct (Rlt_dec a b). Qed.
Lemma ltb_f a b : b <= a -> Rltb a b = false.
Proof. intros h. unfold Rltb. destruct (Rlt_dec a b); [lra|auto]. Qed.

Lemma min3 a b c : a <= b -> a <= c -> np_min [a; b; c] = Ok a.
Proof. intros. simpl. now rewrite (Rmin_left a b), (Rmin_left a c) by assumption. Qed.

Lemma refine_big mdx mdy xp x0 xn y :
  xp < x0 -> 3 * (x0 - xp) < xn - x0 -> mdx <= xn - x0 -> 0 <= mdy -> mdy <= 0 ->
  refine 0 mdx mdy xp x0 xn y y y = true.
Proof.
  intros h1 h2 h3 h4 h5. unfold refine, bending.
  destruct (Req_EM_T (xn - xp) 0); [lra|].
  assert (E : Rltb (3 * ((x0 - xp) / (xn - xp))) ((xn - x0) / (xn - xp)) = true).
  { apply ltb_t. unfold Rdiv. rewrite <- Rmult_assoc.
    apply Rmult_lt_compat_r; [apply Rinv_0_lt_compat; lra|lra]. }
  rewrite E, Bool.orb_true_r. cbn [orb andb].
  rewrite (ltb_f (xn - x0)) by lra. cbn [andb negb].
  rewrite Rminus_diag_eq, Rabs_R0 by reflexivity. now rewrite ltb_f by lra.
Qed.

Lemma refine_small mb mdx mdy xp x0 xn yp y0 yn :
  xn - x0 < mdx -> x0 - xp < mdx -> refine mb mdx mdy xp x0 xn yp y0 yn = false.
Proof.
  intros h1 h2. unfold refine. rewrite (ltb_t (xn - x0)), (ltb_t (x0 - xp)) by assumption.
  cbn [andb negb]. now rewrite Bool.andb_false_r.
Qed.

Example C43_case (mb := 0) :
  sampler (fun y => y) false (fun _ => 5) mb (1 / 2) 1 2 [0; 1; 8]
  = Ok (Some ([0; 1; 9 / 2; 8], [5; 5; 5; 5])) /\ adjacent [0; 1; 9 / 2; 8] (9 / 2) 8.
Proof.
  split.
  2:{ unfold adjacent. simpl. repeat split; auto 6; try lra.
      intros c [<-|[<-|[<-|[<-|[]]]]]; lra. }
  unfold sampler. cbn [map loop]. unfold mb.
  assert (E1 : get_new 0 (1 / 2) 1 [0; 1; 8] [5; 5; 5] = Ok [9 / 2]).
  { unfold get_new. rewrite sort_id.
    2:{ repeat constructor; lra. }
    rewrite min3 by lra. cbn [np_max fold_left bind np_min].
    rewrite (Rmax_right 0 1) by lra. rewrite (Rmax_right 1 8) by lra. rewrite (Rmin_left 5 5) by lra. rewrite (Rmin_left 5 5) by lra. rewrite (Rmax_left 5 5) by lra. rewrite (Rmax_left 5 5) by lra.
    cbn [combine windows flat_map]. rewrite refine_big by lra.
    unfold segments.
    destruct (Rlt_dec (1 - 0) (1 / 2 * (8 - 0))); [|lra].
    destruct (Rlt_dec (8 - 1) (1 / 2 * (8 - 0))); [lra|].
    destruct (Rlt_dec (8 - 1) (1 - 0)); [lra|]. cbn [app existsb negb orb map cut np_unique fold_right uins].
    do 2 f_equal. lra. }
  unfold turn at 1. cbn [map]. rewrite E1. cbn [bind app].
  assert (U : np_unique [0; 1; 8; 9 / 2] = [0; 1; 9 / 2; 8]).
  { apply sorted_ext; [apply unique_sorted|repeat constructor; lra|].
    intros v. rewrite unique_in. simpl. tauto. }
  rewrite U. cbn [filter].
  rewrite (proj2 (notin_spec [0; 1; 8] (9 / 2))) by (intros [h|[h|[h|[]]]]; lra).
  assert (N : forall v, In v [0; 1; 8] -> notin [0; 1; 8] v = false).
  { intros v hv. destruct (notin [0; 1; 8] v) eqn:e; auto. now apply notin_spec in e. }
  rewrite !N by (simpl; auto). cbn [map app].
  change ([5; 5; 5; 5]) with (map (fun _ : R => 5) [0; 1; 8; 9 / 2]).
  change [first_index [0; 1; 8; 9 / 2] 0; first_index [0; 1; 8; 9 / 2] 1;
          first_index [0; 1; 8; 9 / 2] (9 / 2); first_index [0; 1; 8; 9 / 2] 8]
    with (map (first_index [0; 1; 8; 9 / 2]) [0; 1; 9 / 2; 8]).
  rewrite take_idx_map by (simpl; tauto). cbn [bind map].
  unfold turn. cbn [map].
  assert (E2 : get_new 0 (1 / 2) 1 [0; 1; 9 / 2; 8] [5; 5; 5; 5] = Ok []).
  { unfold get_new. rewrite sort_id.
    2:{ repeat constructor; lra. }
    cbn [np_max np_min fold_left bind].
    rewrite (Rmin_left 0 1), (Rmin_left 0 (9 / 2)), (Rmin_left 0 8) by lra.
    rewrite (Rmax_right 0 1), (Rmax_right 1 (9 / 2)), (Rmax_right (9 / 2) 8) by lra.
    cbn [combine windows flat_map]. rewrite !refine_small by lra. reflexivity. }
  rewrite E2. reflexivity.
Qed.

(** Proofs about the model of optimize.py and parallel.py. *)
From Coq Require Import List Reals ZArith Lra Lia Permutation.
From Verif Require Import Base Optimize_Model.
Import ListNotations.
Open Scope R_scope.
Set Implicit Arguments.

(** * tanh *)
Lemma cosh_gt0 x : 0 < cosh x.
Proof. unfold cosh. pose proof (exp_pos x). pose proof (exp_pos (- x)). lra. Qed.

Lemma tanh_lt x y : x < y -> tanh x < tanh y.
Proof.
  intros H. unfold tanh.
  pose proof (cosh_gt0 x) as cx. pose proof (cosh_gt0 y) as cy.
  apply Rmult_lt_reg_r with (cosh x * cosh y); [now apply Rmult_lt_0_compat|].
  replace (sinh x / cosh x * (cosh x * cosh y)) with (sinh x * cosh y) by (field; lra).
  replace (sinh y / cosh y * (cosh x * cosh y)) with (sinh y * cosh x) by (field; lra).
  unfold sinh, cosh. rewrite !exp_Ropp.
  pose proof (exp_increasing _ _ H) as E. pose proof (exp_pos x) as a0.
  set (a := exp x) in *. set (b := exp y) in *.
  apply Rminus_gt_0_lt.
  replace ((b - / b) / 2 * ((a + / a) / 2) - (a - / a) / 2 * ((b + / b) / 2))
    with ((b * b - a * a) / (2 * a * b)) by (field; lra).
  apply Rdiv_lt_0_compat; nra.
Qed.

Lemma tanh_zero : tanh 0 = 0.
Proof. unfold tanh, sinh. rewrite Ropp_0. unfold Rdiv. ring. Qed.

Lemma tanh_opp x : tanh (- x) = - tanh x.
Proof.
  unfold tanh, sinh, cosh. rewrite Ropp_involutive.
  pose proof (exp_pos x). pose proof (exp_pos (- x)). field. lra.
Qed.

Lemma tanh_ge0 x : 0 <= x -> 0 <= tanh x.
Proof.
  intros [H|<-]; [|rewrite tanh_zero; lra].
  apply tanh_lt in H. rewrite tanh_zero in H. lra.
Qed.

Lemma tanh_gt0 x : 0 < x -> 0 < tanh x.
Proof. intros H. apply tanh_lt in H. now rewrite tanh_zero in H. Qed.

(** * project *)
Section Project.
Variables (beta t : R).
Hypothesis hb : 0 < beta.
Hypothesis ht : 0 <= t <= 1.

Definition pden := tanh (t * beta) + tanh ((1 - t) * beta).
Definition pval x := (tanh (t * beta) + tanh (beta * (x - t))) / pden.

Lemma pden_pos : 0 < pden.
Proof.
  unfold pden. destruct (Rle_lt_dec t 0) as [H|H].
  - assert (t = 0) by lra. subst t.
    rewrite Rmult_0_l, tanh_zero. rewrite Rplus_0_l. apply tanh_gt0. nra.
  - assert (0 < tanh (t * beta)) by (apply tanh_gt0; nra).
    assert (0 <= tanh ((1 - t) * beta)) by (apply tanh_ge0; nra). lra.
Qed.

Lemma project_ok x : project x beta t = Ok (pval x).
Proof.
  unfold project. fold pden. pose proof pden_pos.
  destruct (Req_EM_T pden 0); [lra|reflexivity].
Qed.

Lemma pval_0 : pval 0 = 0.
Proof.
  unfold pval. replace (beta * (0 - t)) with (- (t * beta)) by ring.
  rewrite tanh_opp. unfold Rdiv. ring.
Qed.

Lemma pval_1 : pval 1 = 1.
Proof.
  unfold pval. replace (beta * (1 - t)) with ((1 - t) * beta) by ring. fold pden.
  pose proof pden_pos. field. lra.
Qed.

Lemma pval_lt x y : x < y -> pval x < pval y.
Proof.
  intros H. unfold pval. pose proof pden_pos.
  apply Rmult_lt_compat_r; [now apply Rinv_0_lt_compat|].
  apply Rplus_lt_compat_l, tanh_lt. nra.
Qed.

Lemma pval_range x : 0 <= x <= 1 -> 0 <= pval x <= 1.
Proof.
  intros [h0 h1]. split.
  - destruct h0 as [h|<-]; [apply pval_lt in h; rewrite pval_0 in h|rewrite pval_0]; lra.
  - destruct h1 as [h| ->]; [apply pval_lt in h; rewrite pval_1 in h|rewrite pval_1]; lra.
Qed.
End Project.

(** * multi_project *)
Definition Rsum (l : list R) : R := fold_right Rplus 0 l.

Lemma rsum_ok l acc : rsum (map (@Ok R) l) acc = Ok (acc + Rsum l).
Proof.
  revert acc. induction l as [|a l IH]; intros acc; simpl.
  - f_equal. lra.
  - rewrite IH. f_equal. lra.
Qed.

Lemma Rsum_lt (T : Type) (f g : T -> R) l :
  l <> [] -> (forall a, In a l -> f a < g a) -> Rsum (map f l) < Rsum (map g l).
Proof.
  induction l as [|a l IH]; [easy|]. intros _ H. simpl.
  pose proof (H a (or_introl eq_refl)).
  destruct l as [|b l]; [simpl; lra|].
  enough (Rsum (map f (b :: l)) < Rsum (map g (b :: l))) by lra.
  apply IH; [easy|]. intros c hc. apply H. now right.
Qed.

Lemma Rsum_const (T : Type) (f : T -> R) c l :
  (forall a, In a l -> f a = c) -> Rsum (map f l) = INR (length l) * c.
Proof.
  induction l as [|a l IH]; intros H; [simpl; lra|].
  change (length (a :: l)) with (S (length l)). rewrite S_INR. simpl.
  rewrite IH by (intros; apply H; now right). rewrite H by now left. lra.
Qed.

Lemma inner_linspace n :
  inner (linspace01 (S (S n))) = map (fun k => INR (S k) / INR (S n)) (seq 0 n).
Proof.
  unfold inner, linspace01. change (seq 0 (S (S n))) with (0%nat :: seq 1 (S n)).
  cbn [map tl]. rewrite seq_S, map_app. cbn [map].
  rewrite removelast_last. rewrite <- seq_shift, map_map.
  apply map_ext. intros k. now replace (S (S n) - 1)%nat with (S n) by lia.
Qed.

Lemma thr_range n t : In t (inner (linspace01 (S (S n)))) -> 0 <= t <= 1.
Proof.
  rewrite inner_linspace, in_map_iff. intros [k [<- hk]]. apply in_seq in hk.
  pose proof (lt_0_INR (S n) ltac:(lia)).
  pose proof (pos_INR (S k)). assert (INR (S k) <= INR (S n)) by (apply le_INR; lia).
  split; [apply Rmult_le_pos; [lra|left; now apply Rinv_0_lt_compat]|].
  apply Rmult_le_reg_r with (INR (S n)); [lra|]. unfold Rdiv. rewrite Rmult_assoc, Rinv_l; lra.
Qed.

Lemma thr_length n : length (inner (linspace01 (S (S n)))) = n.
Proof. now rewrite inner_linspace, map_length, seq_length. Qed.

Definition mpval beta n x :=
  Rsum (map (fun t => pval beta t x) (inner (linspace01 (S n)))) /
  INR (length (inner (linspace01 (S n)))).

Lemma multi_project_ok beta n x : 0 < beta -> (2 <= n)%nat ->
  multi_project x beta n = Ok (mpval beta n x).
Proof.
  intros hb hn. destruct n as [|n]; [lia|]. unfold multi_project.
  replace (S n + 1)%nat with (S (S n)) by lia.
  assert (E : map (project x beta) (inner (linspace01 (S (S n)))) =
    map (@Ok R) (map (fun t => pval beta t x) (inner (linspace01 (S (S n)))))).
  { rewrite map_map. apply map_ext_in. intros t ht. apply project_ok; auto.
    now apply thr_range with n. }
  rewrite E, rsum_ok, Rplus_0_l. cbn [bind].
  rewrite thr_length. destruct n; [lia|]. cbn [Nat.eqb].
  unfold mpval. now rewrite thr_length.
Qed.

Lemma mp_npos n : (2 <= n)%nat -> 0 < INR (length (inner (linspace01 (S n)))).
Proof. intros h. destruct n as [|n]; [lia|]. rewrite thr_length. apply lt_0_INR. lia. Qed.

Lemma mp_ne n : (2 <= n)%nat -> inner (linspace01 (S n)) <> [].
Proof.
  intros h E. pose proof (mp_npos h) as H. rewrite E in H. simpl in H. lra.
Qed.

Lemma mpval_0 beta n : 0 < beta -> (2 <= n)%nat -> mpval beta n 0 = 0.
Proof.
  intros hb hn. unfold mpval. rewrite (Rsum_const _ (c := 0)).
  - rewrite Rmult_0_r. unfold Rdiv. ring.
  - intros a _. apply pval_0.
Qed.

Lemma mpval_1 beta n : 0 < beta -> (2 <= n)%nat -> mpval beta n 1 = 1.
Proof.
  intros hb hn. unfold mpval. rewrite (Rsum_const _ (c := 1)).
  - pose proof (mp_npos hn). field. lra.
  - intros a ha. apply pval_1; auto. destruct n as [|n]; [lia|]. now apply thr_range with n.
Qed.

Lemma mpval_lt beta n x y : 0 < beta -> (2 <= n)%nat -> x < y -> mpval beta n x < mpval beta n y.
Proof.
  intros hb hn h. unfold mpval. apply Rmult_lt_compat_r.
  - apply Rinv_0_lt_compat. now apply mp_npos.
  - apply Rsum_lt; [now apply mp_ne|]. intros t ht. apply pval_lt; auto.
    destruct n as [|n]; [lia|]. now apply thr_range with n.
Qed.

Lemma mpval_range beta n x : 0 < beta -> (2 <= n)%nat -> 0 <= x <= 1 -> 0 <= mpval beta n x <= 1.
Proof.
  intros hb hn [h0 h1]. split.
  - destruct h0 as [h|<-]; [apply (mpval_lt hb hn) in h; rewrite mpval_0 in h|rewrite mpval_0]; auto; lra.
  - destruct h1 as [h| ->]; [apply (mpval_lt hb hn) in h; rewrite mpval_1 in h|rewrite mpval_1]; auto; lra.
Qed.

(** * simp *)
Lemma pypow_0 p : 0 < p -> pypow 0 p = 0.
Proof. intros h. unfold pypow. destruct (Req_EM_T 0 0); [|easy]. destruct (Req_EM_T p 0); lra. Qed.

Lemma pypow_1 p : pypow 1 p = 1.
Proof.
  unfold pypow. destruct (Req_EM_T 1 0); [lra|]. unfold Rpower. now rewrite ln_1, Rmult_0_r, exp_0.
Qed.

Lemma pypow_lt x y p : 0 < p -> 0 <= x -> x < y -> pypow x p < pypow y p.
Proof.
  intros hp hx h. unfold pypow. destruct (Req_EM_T y 0); [lra|].
  destruct (Req_EM_T x 0).
  - destruct (Req_EM_T p 0); [lra|]. apply exp_pos.
  - apply exp_increasing, Rmult_lt_compat_l; [lra|]. apply ln_increasing; lra.
Qed.

Lemma pypow_nat x p n : 0 <= x -> 0 < p -> pypow x (INR n * p) = pypow x p ^ n.
Proof.
  intros hx hp. unfold pypow. destruct (Req_EM_T x 0) as [E|E].
  - destruct (Req_EM_T p 0); [lra|]. destruct n as [|n].
    + simpl. destruct (Req_EM_T (0 * p) 0); [easy|lra].
    + destruct (Req_EM_T (INR (S n) * p) 0) as [F|F].
      * apply Rmult_integral in F. destruct F as [F|F]; [|lra].
        pose proof (lt_0_INR (S n) ltac:(lia)). lra.
      * simpl. ring.
  - rewrite Rmult_comm, <- Rpower_mult. apply Rpower_pow. apply exp_pos.
Qed.

(** * Stopping *)
Section Stop.
Context {X : Type}.
Variable f : X -> R.

(** The attributes after a run that raised. *)
Lemma stop_run_raised (v : R) evals s s' :
  stop_run f (Some v) s evals = (s', true) ->
  exists pre x post, evals = pre ++ x :: post /\ f x < v /\
    (forall z, In z pre -> v <= f z) /\
    sf_f s' = Some (f x) /\
    sf_x s' = match pre with [] => sf_x s | _ => Some (last pre x) end.
Proof.
  revert s. induction evals as [|a t IH]; intros s H; [discriminate|].
  simpl in H. unfold stop_call in H.
  destruct (Rlt_dec (f a) v) as [h|h].
  - injection H as <-. exists [], a, t. repeat split; auto. easy.
  - destruct (IH _ H) as (pre & x & post & -> & hx & hp & h1 & h2).
    exists (a :: pre), x, post. repeat split; auto.
    + intros z [<-|hz]; [lra|auto].
    + rewrite h2. simpl. destruct pre as [|b pre]; [reflexivity|].
      f_equal.
Qed.

Lemma level_stopped v evals fin s :
  stop_run f (Some v) stop_init evals = (s, true) ->
  exists pre x post, evals = pre ++ x :: post /\ f x < v /\ (forall z, In z pre -> v <= f z) /\
    level_result f (Some v) evals fin =
      match pre with [] => Err AttributeError | _ => Ok (last pre x, f x) end.
Proof.
  intros H. destruct (stop_run_raised _ _ _ H) as (pre & x & post & E & hx & hp & h1 & h2).
  exists pre, x, post. repeat split; auto. unfold level_result. rewrite H, h1, h2.
  now destruct pre.
Qed.

Lemma stop_run_none evals s : snd (stop_run f None s evals) = false.
Proof. revert s. induction evals as [|a t IH]; intros s; simpl; auto. Qed.

Lemma last_in (l : list X) d : l <> [] -> In (last l d) l.
Proof.
  induction l as [|a l IH]; [easy|]. intros _. destruct l as [|b l]; [now left|].
  right. apply IH. easy.
Qed.

(** A stopped level raises, or returns a value that is not the value at the
    returned point. *)
Lemma stop_mismatch v evals fin s :
  stop_run f (Some v) stop_init evals = (s, true) ->
  level_result f (Some v) evals fin = Err AttributeError \/
  exists x y, level_result f (Some v) evals fin = Ok (x, y) /\ y < v /\ v <= f x.
Proof.
  intros H. destruct (@level_stopped v evals fin s H) as (pre & x & post & -> & hx & hp & E).
  rewrite E. destruct pre as [|a pre]; [now left|]. right.
  exists (last (a :: pre) x), (f x). repeat split; auto.
  apply hp. now apply last_in.
Qed.
End Stop.

(** * parloop *)
Section Par.
Context {X Y A K : Type}.
Variable func : X -> list A -> K -> Y.

Lemma put_length T (l : list (option T)) k v : length (put l k v) = length l.
Proof. revert k. induction l; intros [|k]; simpl; auto. Qed.

Lemma put_nth T (l : list (option T)) k v j :
  nth_error (put l k v) j =
  if (j =? k)%nat then (if (j <? length l)%nat then Some (Some v) else None) else nth_error l j.
Proof.
  revert k j. induction l as [|a l IH]; intros [|k] [|j]; simpl; auto.
  - now destruct (j =? k)%nat.
  - rewrite IH. reflexivity.
Qed.

Definition par_step (xs : list X) (others : list A) (kw : K) :=
  fun slots k => match nth_error xs k with
               | Some x => put slots k (func x others kw)
               | None => slots
               end.

Lemma fold_len xs o kw sch slots :
  length (fold_left (par_step xs o kw) sch slots) = length slots.
Proof.
  revert slots. induction sch as [|k t IH]; intros slots; simpl; auto.
  rewrite IH. unfold par_step. destruct (nth_error xs k); auto. apply put_length.
Qed.

Lemma fold_nth xs o kw sch slots j x :
  length slots = length xs -> nth_error xs j = Some x ->
  nth_error (fold_left (par_step xs o kw) sch slots) j =
  if existsb (Nat.eqb j) sch then Some (Some (func x o kw)) else nth_error slots j.
Proof.
  revert slots. induction sch as [|k t IH]; intros slots hl hx; simpl; auto.
  assert (hj : (j < length xs)%nat) by (apply nth_error_Some; congruence).
  rewrite IH; auto.
  - unfold par_step. destruct (existsb (Nat.eqb j) t) eqn:E; [now rewrite Bool.orb_true_r|].
    rewrite Bool.orb_false_r.
    destruct (Nat.eqb_spec j k) as [->|hjk].
    + rewrite hx, put_nth, Nat.eqb_refl, hl.
      now destruct (Nat.ltb_spec k (length xs)); [|lia].
    + destruct (nth_error xs k); auto. rewrite put_nth.
      destruct (Nat.eqb_spec j k); [easy|reflexivity].
  - unfold par_step. destruct (nth_error xs k); auto. now rewrite put_length.
Qed.

Lemma collect_some T (l : list T) : collect (map Some l) = Some l.
Proof. induction l as [|a l IH]; simpl; auto. now rewrite IH. Qed.

Lemma nth_error_ext T (l l' : list T) : (forall j, nth_error l j = nth_error l' j) -> l = l'.
Proof.
  revert l'. induction l as [|a l IH]; intros [|b l'] H; auto.
  - now specialize (H 0%nat).
  - now specialize (H 0%nat).
  - f_equal; [specialize (H 0%nat); now injection H|]. apply IH. intros j. exact (H (S j)).
Qed.

Lemma parloop_map xs o kw sch :
  (forall k, (k < length xs)%nat -> In k sch) ->
  parloop func (Some xs) o kw sch = Ok (Some (map (fun x => func x o kw) xs)).
Proof.
  intros H. unfold parloop. f_equal. rewrite <- collect_some, map_map. f_equal.
  apply nth_error_ext. intros j. unfold run_schedule.
  change (nth_error (fold_left (par_step xs o kw) sch (repeat None (length xs))) j =
    nth_error (map (fun x => Some (func x o kw)) xs) j).
  destruct (nth_error xs j) as [x|] eqn:E.
  - rewrite (@fold_nth xs o kw sch _ j x); auto using repeat_length.
    rewrite (map_nth_error _ _ _ E).
    replace (existsb (Nat.eqb j) sch) with true; auto. symmetry.
    apply existsb_exists. exists j. split; [|apply Nat.eqb_refl].
    apply H. apply nth_error_Some. congruence.
  - apply nth_error_None in E.
    transitivity (@None (option Y)); [|symmetry]; apply nth_error_None.
    + rewrite fold_len, repeat_length. exact E.
    + now rewrite map_length.
Qed.
End Par.

Lemma stop_raises X (f : X -> R) s evals x v :
  In x evals -> f x < v -> exists s', stop_run f (Some v) s evals = (s', true).
Proof.
  revert s. induction evals as [|a t IH]; intros s hx hv; [easy|].
  simpl. unfold stop_call. destruct (Rlt_dec (f a) v) as [h|h]; [eauto|].
  destruct hx as [<-|hx]; [lra|]. now apply IH.
Qed.

Lemma stop_quiet X (f : X -> R) s evals v :
  (forall x, In x evals -> v <= f x) -> snd (stop_run f (Some v) s evals) = false.
Proof.
  revert s. induction evals as [|a t IH]; intros s h; auto.
  simpl. unfold stop_call. destruct (Rlt_dec (f a) v) as [h'|h'].
  - specialize (h a (or_introl eq_refl)). lra.
  - apply IH. intros x hx. apply h. now right.
Qed.

(** * Levels *)
Section Levels.
Variables X A : Type.
Variable level : R -> A.
Variable objective : X -> list A -> R.
Variable opt : X -> list A -> list X * (X * R).
Variable rest : list A.

Fixpoint start (lo : Z) (x0 : X) (k : nat) : X :=
  match k with
  | O => x0
  | S k => fst (snd (opt (start lo x0 k) (level (powerRZ 2 (lo + Z.of_nat k)) :: rest)))
  end.

Lemma start_shift lo x0 k :
  start lo x0 (S k) = start (lo + 1) (fst (snd (opt x0 (level (powerRZ 2 lo) :: rest)))) k.
Proof.
  induction k as [|k IH].
  - simpl. now rewrite Z.add_0_r.
  - change (start lo x0 (S (S k))) with
      (fst (snd (opt (start lo x0 (S k)) (level (powerRZ 2 (lo + Z.of_nat (S k))) :: rest)))).
    rewrite IH. cbn [start]. now replace (lo + Z.of_nat (S k))%Z with (lo + 1 + Z.of_nat k)%Z by lia.
Qed.

Lemma levels_run a n lo x0 last :
  levels level objective opt (Some (a :: rest)) None
    (map (fun k => (lo + Z.of_nat k)%Z) (seq 0 (S n))) x0 last =
  Ok (snd (opt (start lo x0 n) (level (powerRZ 2 (lo + Z.of_nat n)) :: rest))).
Proof.
  revert lo x0 last. induction n as [|n IH]; intros lo x0 lst.
  - simpl. unfold level_result.
    rewrite (surjective_pairing (stop_run _ _ _ _)), stop_run_none. reflexivity.
  - change (seq 0 (S (S n))) with (0%nat :: seq 1 (S n)). rewrite <- seq_shift.
    cbn [map levels set_first bind]. rewrite map_map.
    unfold level_result.
    rewrite (surjective_pairing (stop_run _ _ _ _)), stop_run_none. cbn [bind].
    rewrite (map_ext _ (fun k => (lo + 1 + Z.of_nat k)%Z)) by (intros; lia).
    rewrite IH, start_shift. rewrite Z.add_0_r.
    now replace (lo + Z.of_nat (S n))%Z with (lo + 1 + Z.of_nat n)%Z by lia.
Qed.

Lemma levels_chain a lo hi x0 :
  (lo < hi)%Z ->
  exists start : nat -> X, start O = x0 /\
    (forall k, start (S k) =
       fst (snd (opt (start k) (level (powerRZ 2 (lo + Z.of_nat k)) :: rest)))) /\
    minimize level objective opt (Some (a :: rest)) None lo hi x0 =
      Ok (snd (opt (start (Z.to_nat (hi - lo) - 1)%nat) (level (powerRZ 2 (hi - 1)) :: rest))).
Proof.
  intros h. exists (start lo x0). split; [reflexivity|]. split; [reflexivity|].
  unfold minimize, zrange.
  destruct (Z.to_nat (hi - lo)) as [|n] eqn:E; [lia|].
  rewrite levels_run. replace (S n - 1)%nat with n by lia.
  now replace (lo + Z.of_nat n)%Z with (hi - 1)%Z by lia.
Qed.
End Levels.

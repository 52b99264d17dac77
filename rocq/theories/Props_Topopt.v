(** C96: what [TopologyOptimizer] shows of a run, and which optimizer it uses. *)
From Coq Require Import ZArith Reals String Bool Lra Lia List.
From Verif Require Import Base Optimize_Model Optimize_Proofs Topopt_Model Topopt_Spec Topopt_Proofs.
Import ListNotations.
Local Open Scope R_scope.

Section C96.
Variables X A : Type.
Variable level : R -> A.
Variable objective : X -> list A -> R.
Variable opt : X -> list A -> list X * (X * R).
Variable opt_nl : option R -> X -> list A -> list X * (X * R).

Local Notation run := (minimize_obj level objective opt opt_nl).

(** The calls for the points [ps] evaluated with the arguments [a]. *)
Local Notation calls_of a ps := (map (fun x => (x, objective x a%list, a%list)) ps).

(** Every evaluation increments [current_iteration] and is reported once to the
    callback, in order, with its value and its arguments; also the evaluation
    that reaches the stop value, which is the last one of its level.  Level [k]
    is reported with the first argument [2**(lo+k)]; a run that returns has
    reported all its levels; a run that raises has reported what it evaluated. *)
Theorem C96_callback n cb a rest stopval lo hi x0 st st' r :
  run (Chosen "scipy" n) cb (Some (a :: rest)) stopval lo hi x0 st = (st', r) ->
  exists bs : list (list A * list X),
    let calls := concat (map (fun b => calls_of (fst b) (snd b)) bs) in
    to_iter st' = (to_iter st + List.length calls)%nat /\
    to_calls st' = to_calls st ++ (if cb then calls else []) /\
    (List.length bs <= Z.to_nat (hi - lo))%nat /\
    ((exists v, r = Ok v) -> List.length bs = Z.to_nat (hi - lo)) /\
    (forall k b, nth_error bs k = Some b ->
      fst b = level (powerRZ 2 (lo + Z.of_nat k)) :: rest /\
      exists x, (k = O -> x = x0) /\
        seen (fun y => match stopval with None => False | Some v => objective y (fst b) < v end)
          (fst (opt x (fst b))) (snd b)).
Proof.
  intros h. unfold minimize_obj in h.
  destruct (scipy_run X A level objective opt opt_nl n cb (Some (a :: rest)) stopval
              (zrange lo hi) x0 None) as [bs hb].
  destruct (hb st) as (e & hl & hok & hk). rewrite e in h. injection h as <- <-.
  assert (L : List.length (zrange lo hi) = Z.to_nat (hi - lo))
    by (unfold zrange; now rewrite map_length, seq_length).
  rewrite L in *.
  exists bs. cbv zeta. unfold after, batch; cbn [to_iter to_calls].
  split; [reflexivity|]. split; [destruct cb; now rewrite ?app_nil_r|].
  split; [exact hl|]. split; [intros [v hv]; exact (hok v hv)|].
  intros k b hkb. destruct (hk k b hkb) as (i & x & hi' & hx & hs & hseen).
  destruct (zrange_nth _ _ _ _ hi') as [-> _]. assert (hs' := f_equal (fun r => match r with Ok v => v | Err _ => [] end) hs).
  cbn in hs'. split; [now symmetry|]. exists x. split; [exact hx|exact hseen].
Qed.

(** The same with nlopt, which is given the stop value and is never interrupted. *)
Theorem C96_nlopt_callback cb a rest stopval lo hi x0 st st' r :
  run (Chosen "nlopt" true) cb (Some (a :: rest)) stopval lo hi x0 st = (st', r) ->
  exists bs : list (list A * list X),
    let calls := concat (map (fun b => calls_of (fst b) (snd b)) bs) in
    to_iter st' = (to_iter st + List.length calls)%nat /\
    to_calls st' = to_calls st ++ (if cb then calls else []) /\
    ((exists v, r = Ok v) -> List.length bs = Z.to_nat (hi - lo)) /\
    (forall k b, nth_error bs k = Some b ->
      fst b = level (powerRZ 2 (lo + Z.of_nat k)) :: rest /\
      exists x, (k = O -> x = x0) /\ snd b = fst (opt_nl stopval x (fst b))).
Proof.
  intros h. unfold minimize_obj in h.
  destruct (nlopt_run X A level objective opt opt_nl "nlopt" cb (Some (a :: rest)) stopval
              (zrange lo hi) ltac:(discriminate) x0 None) as (bs & r0 & hb).
  destruct (hb st) as (e & _ & hok & hk). rewrite e in h. injection h as <- <-.
  assert (L : List.length (zrange lo hi) = Z.to_nat (hi - lo))
    by (unfold zrange; now rewrite map_length, seq_length).
  rewrite L in *.
  exists bs. cbv zeta. unfold after, batch; cbn [to_iter to_calls].
  split; [reflexivity|]. split; [destruct cb; now rewrite ?app_nil_r|].
  split; [intros [v hv]; exact (hok v hv)|].
  intros k b hkb. destruct (hk k b hkb) as (i & x & hi' & hx & hs & hseen).
  destruct (zrange_nth _ _ _ _ hi') as [-> _]. assert (hs' := f_equal (fun r => match r with Ok v => v | Err _ => [] end) hs).
  cbn in hs'. split; [now symmetry|]. exists x. split; [exact hx|exact hseen].
Qed.

(** The answer depends neither on the callback nor on the counter: it is that of
    the plain loop (C48, C58). *)
Theorem C96_answer n cb args stopval lo hi x0 st :
  snd (run (Chosen "scipy" n) cb args stopval lo hi x0 st) =
  minimize level objective opt args stopval lo hi x0.
Proof.
  unfold minimize_obj, minimize.
  destruct (scipy_run X A level objective opt opt_nl n cb args stopval
              (zrange lo hi) x0 None) as [bs hb].
  destruct (hb st) as (e & _). now rewrite e.
Qed.

(** With nlopt the levels are threaded in the same way and, whatever the stop
    value, the pair returned is nlopt's own answer at the last level. *)
Theorem C96_nlopt_levels cb a rest stopval lo hi x0 st :
  (lo < hi)%Z ->
  exists start : nat -> X, start O = x0 /\
    (forall k, start (S k) =
       fst (snd (opt_nl stopval (start k) (level (powerRZ 2 (lo + Z.of_nat k)) :: rest)))) /\
    snd (run (Chosen "nlopt" true) cb (Some (a :: rest)) stopval lo hi x0 st) =
      Ok (snd (opt_nl stopval (start (Z.to_nat (hi - lo) - 1)%nat)
                 (level (powerRZ 2 (hi - 1)) :: rest))).
Proof.
  intros h. destruct (@levels_chain X A level objective (opt_nl stopval) rest a lo hi x0 h)
    as (s & h0 & h1 & h2).
  exists s. split; auto. split; auto. rewrite <- h2. unfold minimize_obj, minimize.
  destruct (nlopt_run X A level objective opt opt_nl "nlopt" cb (Some (a :: rest)) stopval
              (zrange lo hi) ltac:(discriminate) x0 None) as (bs & r0 & hb).
  destruct (hb st) as (e & -> & _). now rewrite e.
Qed.

(** Calling minimize() again gives the same answer and the same calls, and the
    counter goes on. *)
Theorem C96_again c cb args stopval lo hi x0 st st1 r1 st2 r2 :
  run c cb args stopval lo hi x0 st = (st1, r1) ->
  run c cb args stopval lo hi x0 st1 = (st2, r2) ->
  r2 = r1 /\
  (to_iter st <= to_iter st1)%nat /\
  (to_iter st2 - to_iter st1 = to_iter st1 - to_iter st)%nat /\
  exists l, to_calls st1 = to_calls st ++ l /\ to_calls st2 = to_calls st1 ++ l.
Proof.
  assert (F : forall bs r,
    (forall s, run c cb args stopval lo hi x0 s = (after X A objective cb bs s, r)) ->
    run c cb args stopval lo hi x0 st = (st1, r1) ->
    run c cb args stopval lo hi x0 st1 = (st2, r2) ->
    r2 = r1 /\ (to_iter st <= to_iter st1)%nat /\
    (to_iter st2 - to_iter st1 = to_iter st1 - to_iter st)%nat /\
    exists l, to_calls st1 = to_calls st ++ l /\ to_calls st2 = to_calls st1 ++ l).
  { intros bs r H h1 h2. rewrite H in h1, h2. injection h1 as <- <-. injection h2 as <- <-.
    split; [reflexivity|]. unfold after; cbn [to_iter to_calls]. split; [lia|]. split; [lia|].
    exists (if cb then concat (map (batch X A objective) bs) else []).
    destruct cb; now rewrite ?app_nil_r. }
  destruct c as [m n]. destruct (String.eqb m "scipy") eqn:Em.
  - apply String.eqb_eq in Em. subst m.
    destruct (scipy_run X A level objective opt opt_nl n cb args stopval (zrange lo hi) x0 None)
      as [bs hb].
    apply (F bs (levels level objective opt args stopval (zrange lo hi) x0 None)).
    intros s. now destruct (hb s).
  - destruct n.
    + apply String.eqb_neq in Em.
      destruct (nlopt_run X A level objective opt opt_nl m cb args stopval (zrange lo hi) Em x0 None)
        as (bs & r & hb).
      apply (F bs r). intros s. now destruct (hb s).
    + apply (F [] (snd (run (Chosen m false) cb args stopval lo hi x0 st))).
      intros s. rewrite after_nil. unfold minimize_obj.
      destruct (zrange lo hi) as [|i t]; [reflexivity|].
      cbn [levels_obj ch_method ch_nlopt]. rewrite Em.
      now destruct (set_first args (level (powerRZ 2 i))).
Qed.

(** Where nlopt is not installed, "nlopt" is "scipy"; where it is, it is used. *)
Theorem C96_fallback i :
  construct "nlopt" false = construct "scipy" i /\
  construct "scipy" i = Ok (Chosen "scipy" false) /\
  construct "nlopt" true = Ok (Chosen "nlopt" true).
Proof. repeat split. Qed.

(** An unknown method is not refused: the constructor accepts any string and the
    first level fails for want of [self.nlopt], even where nlopt is installed. *)
Theorem C96_method_refuted m i cb a rest stopval lo hi x0 st :
  m <> "scipy"%string -> m <> "nlopt"%string -> (lo < hi)%Z ->
  exists c, construct m i = Ok c /\
    run c cb (Some (a :: rest)) stopval lo hi x0 st = (st, Err AttributeError).
Proof.
  intros h1 h2 h. apply String.eqb_neq in h1, h2. exists (Chosen m false).
  unfold construct. rewrite h2. split; [reflexivity|].
  unfold minimize_obj, zrange. destruct (Z.to_nat (hi - lo)) as [|k] eqn:E; [lia|].
  cbn [seq map levels_obj set_first ch_method ch_nlopt]. now rewrite h1.
Qed.
End C96.
Print Assumptions C96_callback.
Print Assumptions C96_nlopt_callback.
Print Assumptions C96_answer.
Print Assumptions C96_nlopt_levels.
Print Assumptions C96_again.
Print Assumptions C96_fallback.
Print Assumptions C96_method_refuted.

(** f(x) = x*x with stop value 1: evaluations at 3, 2, 1/2, then the stop; the
    callback has seen the three points, the last one included. *)
Example C96_case :
  minimize_obj (fun z => z) (fun x (_ : list R) => x * x)
    (fun _ _ => ([3; 2; 1 / 2; 0], (0, 0))) (fun _ _ _ => ([], (0, 0)))
    (Chosen "scipy" false) true (Some [5]) (Some 1) 0 1 3 (Topopt 7 []) =
  (Topopt 10 [(3, 3 * 3, [1]); (2, 2 * 2, [1]); (1 / 2, 1 / 2 * (1 / 2), [1])],
   Ok (2, 1 / 2 * (1 / 2))).
Proof.
  unfold minimize_obj. change (zrange 0 1) with [0%Z].
  cbn [levels_obj set_first ch_method fst snd stop_evals].
  change (String.eqb "scipy" "scipy") with true. cbv iota.
  change (powerRZ 2 0) with 1.
  unfold stop_evaluate, evaluate.
  destruct (Rlt_dec (3 * 3) 1); [lra|]. destruct (Rlt_dec (2 * 2) 1); [lra|].
  destruct (Rlt_dec (1 / 2 * (1 / 2)) 1); [|lra]. reflexivity.
Qed.

(** Two levels with nlopt, without a callback: the counter counts both. *)
Example C96_nlopt_case :
  minimize_obj (fun z => z) (fun x (_ : list R) => x)
    (fun _ _ => ([], (0, 0))) (fun _ x a => ([x; x], (x + hd 0 a, x)))
    (Chosen "nlopt" true) false (Some [5]) (Some 1) 0 2 3 (Topopt 0 []) =
  (Topopt 4 [], Ok (3 + 1 + powerRZ 2 1, 3 + 1)).
Proof. reflexivity. Qed.

(** "L-BFGS-B" is what scipy is asked for, but not a method of this class. *)
Example C96_method_case :
  exists c, construct "L-BFGS-B" true = Ok c /\
  minimize_obj (fun z => z) (fun x (_ : list R) => x)
    (fun _ _ => ([], (0, 0))) (fun _ x a => ([x; x], (x + hd 0 a, x)))
    c true (Some [5]) None 0 8 3 (Topopt 0 []) = (Topopt 0 [], Err AttributeError).
Proof. apply C96_method_refuted; [discriminate|discriminate|lia]. Qed.

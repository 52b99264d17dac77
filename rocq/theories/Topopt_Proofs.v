(** Lemmas on [TopologyOptimizer]. *)
From Coq Require Import ZArith Reals String Bool Lra Lia List.
From Verif Require Import Base Optimize_Model Optimize_Proofs Topopt_Model Topopt_Spec.
Import ListNotations.
Local Open Scope R_scope.

Section P.
Variables X A : Type.
Variable level : R -> A.
Variable objective : X -> list A -> R.
Variable opt : X -> list A -> list X * (X * R).
Variable opt_nl : option R -> X -> list A -> list X * (X * R).

Definition belowp (stopval : option R) (a : list A) (x : X) : Prop :=
  match stopval with None => False | Some v => objective x a < v end.

(** The calls of one batch. *)
Definition batch (b : list A * list X) : list (X * R * list A) :=
  map (fun x => (x, objective x (fst b), fst b)) (snd b).

(** The state after the evaluations of some batches. *)
Definition after (cb : bool) (bs : list (list A * list X)) (st : @topopt X A) : topopt :=
  Topopt (to_iter st + List.length (concat (map batch bs)))
         (if cb then to_calls st ++ concat (map batch bs) else to_calls st).

Lemma after_nil cb st : after cb [] st = st.
Proof. destruct st, cb; unfold after; simpl; rewrite ?app_nil_r; f_equal; lia. Qed.

Lemma after_cons cb b bs st : after cb bs (after cb [b] st) = after cb (b :: bs) st.
Proof.
  unfold after; simpl; rewrite app_nil_r. destruct cb; cbn [to_iter to_calls]; f_equal;
  rewrite ?app_length, ?app_assoc; try reflexivity; lia.
Qed.

Lemma after_point cb a x p st :
  after cb [(a, p)] (snd (evaluate objective cb a st x)) = after cb [(a, x :: p)] st.
Proof.
  unfold after, evaluate; simpl. rewrite !app_nil_r.
  destruct cb; cbn [to_iter to_calls]; rewrite <- ?app_assoc; rewrite Nat.add_succ_r;
  reflexivity.
Qed.

Lemma stop_evals_run cb a stopval l : forall s st,
  exists p, seen (belowp stopval a) l p /\
    stop_evals objective cb a stopval s st l =
    (fst (stop_run (fun x => objective x a) stopval s l),
     snd (stop_run (fun x => objective x a) stopval s l), after cb [(a, p)] st).
Proof.
  induction l as [|x t IH]; intros s st.
  - exists []. split; [constructor|]. simpl. f_equal. unfold after; simpl.
    destruct st, cb; simpl; rewrite ?app_nil_r; f_equal; lia.
  - cbn [stop_evals stop_run]. unfold stop_evaluate, stop_call, evaluate at 1.
    destruct stopval as [v|].
    + destruct (Rlt_dec (objective x a) v) as [h|h].
      * exists [x]. split; [now constructor|]. simpl. f_equal.
        rewrite <- after_point. unfold after; simpl.
        destruct cb; simpl; rewrite ?app_nil_r; f_equal; lia.
      * destruct (IH (StopState (Some x) (Some (objective x a)))
                    (snd (evaluate objective cb a st x))) as [p [hp e]].
        exists (x :: p). split; [now constructor|].
        unfold evaluate in e at 1. cbn [snd] in e. rewrite e. now rewrite after_point.
    + destruct (IH (StopState (Some x) (Some (objective x a)))
                  (snd (evaluate objective cb a st x))) as [p [hp e]].
      exists (x :: p). split; [constructor; simpl; auto|].
      unfold evaluate in e at 1. cbn [snd] in e. rewrite e. now rewrite after_point.
Qed.

Lemma evals_run cb a l : forall st,
  fold_left (fun st x => snd (evaluate objective cb a st x)) l st = after cb [(a, l)] st.
Proof.
  induction l as [|x t IH]; intros st.
  - unfold after; simpl. destruct st, cb; simpl; rewrite ?app_nil_r; f_equal; lia.
  - cbn [fold_left]. now rewrite IH, after_point.
Qed.

(** The points seen do not depend on the state. *)
Lemma seen_fun (below : X -> Prop) l : forall p q, seen below l p -> seen below l q -> p = q.
Proof.
  induction l; intros p q h1 h2; inversion h1; inversion h2; subst; try tauto.
  f_equal. auto.
Qed.

(** A run with scipy: its answer is that of the plain model, its effect a list of
    batches, one per level. *)
Lemma scipy_run n cb args stopval ls : forall x0 last,
  exists bs, forall st,
  levels_obj level objective opt opt_nl (Chosen "scipy" n) cb args stopval ls x0 last st =
    (after cb bs st, levels level objective opt args stopval ls x0 last) /\
  (List.length bs <= List.length ls)%nat /\
  (forall r, levels level objective opt args stopval ls x0 last = Ok r ->
     List.length bs = List.length ls) /\
  (forall k b, nth_error bs k = Some b ->
    exists iopt x, nth_error ls k = Some iopt /\ (k = O -> x = x0) /\
      set_first args (level (powerRZ 2 iopt)) = Ok (fst b) /\
      seen (belowp stopval (fst b)) (fst (opt x (fst b))) (snd b)).
Proof.
  induction ls as [|i t IH]; intros x0 last.
  - exists []. intros st. rewrite after_nil. repeat split; auto.
    intros [|k] b; discriminate.
  - cbn [levels_obj levels ch_method]. change (String.eqb "scipy" "scipy") with true.
    destruct (set_first args (level (powerRZ 2 i))) as [a|e] eqn:Ea.
    2:{ exists []. intros st. rewrite after_nil. cbn [bind]. repeat split; auto; try (simpl; lia).
        - discriminate.
        - intros [|k] b; discriminate. }
    cbn [bind]. set (tr := opt x0 a).
    destruct (stop_evals_run cb a stopval (fst tr) stop_init (Topopt 0 [])) as [p [hp _]].
    assert (E : forall st, stop_evals objective cb a stopval stop_init st (fst tr) =
      (fst (stop_run (fun x => objective x a) stopval stop_init (fst tr)),
       snd (stop_run (fun x => objective x a) stopval stop_init (fst tr)), after cb [(a, p)] st)).
    { intros st. destruct (stop_evals_run cb a stopval (fst tr) stop_init st) as [q [hq e]].
      rewrite e. now rewrite (seen_fun _ _ _ _ hq hp). }
    destruct (stop_run (fun x => objective x a) stopval stop_init (fst tr)) as [s raised] eqn:Es.
    cbn [fst snd] in E.
    assert (Hr : level_result (fun x => objective x a) stopval (fst tr) (snd tr) =
      (if raised then
                let! x := of_option AttributeError (sf_x s) in
                let! f := of_option AttributeError (sf_f s) in Ok (x, f)
              else Ok (snd tr))).
    { unfold level_result. rewrite Es. now destruct raised. }
    destruct (level_result (fun x => objective x a) stopval (fst tr) (snd tr)) as [r|e].
    + destruct (IH (fst r) (Some r)) as [bs hbs]. exists ((a, p) :: bs). intros st.
      destruct (hbs (after cb [(a, p)] st)) as (e & hl & hok & hb).
      rewrite E, <- Hr. cbn [bind].
      rewrite after_cons in e. split; [exact e|]. split; [simpl; lia|]. split.
      * intros r' h. simpl. f_equal. eauto.
      * intros [|k] b h.
        -- injection h as <-. exists i, x0. repeat split; auto.
        -- destruct (hb k b h) as (iopt & x & h1 & _ & h2 & h3).
           exists iopt, x. repeat split; auto. discriminate.
    + exists [(a, p)]. intros st. rewrite E, <- Hr. cbn [bind].
      split; [reflexivity|]. split; [simpl; lia|]. split; [discriminate|].
      intros [|k] b h.
      * injection h as <-. exists i, x0. repeat split; auto.
      * destruct k; discriminate.
Qed.

(** A run with nlopt. *)
Lemma nlopt_run m cb args stopval ls : m <> "scipy"%string -> forall x0 last,
  exists bs r, forall st,
  levels_obj level objective opt opt_nl (Chosen m true) cb args stopval ls x0 last st =
    (after cb bs st, r) /\
  r = levels level objective (opt_nl stopval) args None ls x0 last /\
  (forall r', r = Ok r' -> List.length bs = List.length ls) /\
  (forall k b, nth_error bs k = Some b ->
    exists iopt x, nth_error ls k = Some iopt /\ (k = O -> x = x0) /\
      set_first args (level (powerRZ 2 iopt)) = Ok (fst b) /\
      snd b = fst (opt_nl stopval x (fst b))).
Proof.
  intros hm. apply String.eqb_neq in hm.
  induction ls as [|i t IH]; intros x0 last.
  - exists [], (of_option UnboundLocalError last). intros st. rewrite after_nil.
    repeat split; auto. intros [|k] b; discriminate.
  - cbn [levels_obj levels ch_method ch_nlopt]. rewrite hm.
    destruct (set_first args (level (powerRZ 2 i))) as [a|e] eqn:Ea.
    2:{ exists [], (Err e). intros st. rewrite after_nil. cbn [bind]. repeat split; auto.
        - discriminate.
        - intros [|k] b; discriminate. }
    cbn [bind]. unfold level_result.
    rewrite (surjective_pairing (stop_run _ _ _ _)), stop_run_none. cbn [bind].
    destruct (IH (fst (snd (opt_nl stopval x0 a))) (Some (snd (opt_nl stopval x0 a))))
      as (bs & r & hbs).
    exists ((a, fst (opt_nl stopval x0 a)) :: bs), r. intros st.
    destruct (hbs (after cb [(a, fst (opt_nl stopval x0 a))] st)) as (e & hr & hok & hb).
    rewrite evals_run. rewrite after_cons in e. split; [exact e|]. split; [exact hr|]. split.
    * intros r' h. simpl. f_equal. eauto.
    * intros [|k] b h.
      -- injection h as <-. exists i, x0. repeat split; auto.
      -- destruct (hb k b h) as (iopt & x & h1 & _ & h2 & h3).
         exists iopt, x. repeat split; auto. discriminate.
Qed.

Lemma zrange_nth lo hi k i : nth_error (zrange lo hi) k = Some i ->
  i = (lo + Z.of_nat k)%Z /\ (i < hi)%Z.
Proof.
  unfold zrange. intros h. assert (hk : (k < Z.to_nat (hi - lo))%nat).
  { assert (H : nth_error (map (fun k => (lo + Z.of_nat k)%Z) (seq 0 (Z.to_nat (hi - lo)))) k <> None)
      by congruence.
    apply nth_error_Some in H. now rewrite map_length, seq_length in H. }
  assert (H := map_nth_error (fun k => (lo + Z.of_nat k)%Z) k (seq 0 (Z.to_nat (hi - lo)))
               (d := k)).
  rewrite H in h; [injection h as <-; lia|].
  rewrite (nth_error_nth' _ O) by now rewrite seq_length.
  now rewrite seq_nth.
Qed.
End P.

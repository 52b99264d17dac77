(** Optimisation helpers and parallel loops (properties C45 to C48 and C58). *)
From Coq Require Import List Reals ZArith Lra Lia.
From mathcomp Require complex.
From Verif Require Import Base Optimize_Model Optimize_Proofs.
From Verif Require Cplx Multisimp.
Import ListNotations.
Open Scope R_scope.

(** ** C45 *)
(** Whatever the order in which the tasks complete (and even if some are run
    several times), the results are those of the sequential map. *)
Theorem C45_parloop (X Y A K : Type) (func : X -> list A -> K -> Y) xs others kw schedule :
  (forall k, (k < length xs)%nat -> In k schedule) ->
  parloop func (Some xs) others kw schedule = Ok (Some (map (fun x => func x others kw) xs)).
Proof. exact (@parloop_map X Y A K func xs others kw schedule). Qed.
Print Assumptions C45_parloop.

Example C45_case :
  parloop (fun x o (k : nat) => (x * 10 + length o + k)%nat) (Some [1; 2; 3]%nat) [7]%nat 5%nat [2; 0; 1]%nat
  = Ok (Some [16; 26; 36]%nat) /\
  parloop (fun x o (k : nat) => (x * 10 + length o + k)%nat) (Some [1; 2; 3]%nat) [7]%nat 5%nat [2; 0]%nat
  = Ok None.
Proof. split; reflexivity. Qed.

(** ** C46 *)
(** A map of densities: defined everywhere, fixing 0 and 1, strictly increasing,
    and so mapping the unit interval to itself. *)
Definition density_map (g : R -> res R) :=
  exists h : R -> R, (forall x, g x = Ok (h x)) /\ h 0 = 0 /\ h 1 = 1 /\
    (forall x y, x < y -> h x < h y) /\ (forall x, 0 <= x <= 1 -> 0 <= h x <= 1).

Theorem C46_project beta thres :
  0 < beta -> 0 <= thres <= 1 -> density_map (fun x => project x beta thres).
Proof.
  intros hb ht. exists (pval beta thres). repeat split.
  - intros x. now apply project_ok.
  - apply pval_0.
  - now apply pval_1.
  - intros x y h. now apply pval_lt.
  - now apply pval_range.
  - now apply pval_range.
Qed.
Print Assumptions C46_project.

Theorem C46_multi_project beta n :
  0 < beta -> (2 <= n)%nat -> density_map (fun x => multi_project x beta n).
Proof.
  intros hb hn. exists (mpval beta n). repeat split.
  - intros x. now apply multi_project_ok.
  - now apply mpval_0.
  - now apply mpval_1.
  - intros x y h. now apply mpval_lt.
  - now apply mpval_range.
  - now apply mpval_range.
Qed.
Print Assumptions C46_multi_project.

(** The threshold 1/2 is symmetric; [Nthres = 1] gives no value at all. *)
Lemma project_half beta x : 0 < beta ->
  exists a b, project (1 / 2 + x) beta (1 / 2) = Ok a /\ project (1 / 2 - x) beta (1 / 2) = Ok b /\ a + b = 1.
Proof.
  intros hb. assert (ht : 0 <= 1 / 2 <= 1) by lra.
  exists (pval beta (1 / 2) (1 / 2 + x)), (pval beta (1 / 2) (1 / 2 - x)).
  repeat split; [now apply project_ok..|].
  pose proof (pden_pos hb ht) as hp.
  unfold pval. replace (beta * (1 / 2 - x - 1 / 2)) with (- (beta * (1 / 2 + x - 1 / 2))) by ring.
  rewrite tanh_opp. unfold pden in *.
  replace ((1 - 1 / 2) * beta) with (1 / 2 * beta) in * by field.
  field. lra.
Qed.

Example C46_case : project (1 / 2) 2 (1 / 2) = Ok (1 / 2) /\ multi_project (1 / 2) 2 2 = Ok (1 / 2) /\
  multi_project (1 / 2) 2 1 = Err NaN.
Proof.
  assert (E : project (1 / 2) 2 (1 / 2) = Ok (1 / 2)).
  { destruct (@project_half 2 0) as (a & b & ha & hb & hab); [lra|].
    replace (1 / 2 + 0) with (1 / 2) in ha by ring. replace (1 / 2 - 0) with (1 / 2) in hb by ring.
    rewrite ha in hb. injection hb as <-. rewrite ha. f_equal. lra. }
  split; [exact E|]. split.
  - unfold multi_project. change (2 + 1)%nat with (S (S 1)). rewrite inner_linspace.
    cbn [seq map rsum length Nat.eqb bind]. change (INR 1) with 1. change (INR 2) with 2.
    rewrite E. cbn [bind]. f_equal. lra.
  - unfold multi_project. change (1 + 1)%nat with (S (S 0)). rewrite inner_linspace. reflexivity.
Qed.

(** ** C47 *)
Theorem C47_simp a b p :
  0 < p -> simp 0 a b p = a /\ simp 1 a b p = b /\
  (a < b -> forall x y, 0 <= x -> x < y -> simp x a b p < simp y a b p).
Proof.
  intros hp. unfold simp. repeat split.
  - rewrite pypow_0; auto. ring.
  - rewrite pypow_1. ring.
  - intros hab x y hx h. pose proof (pypow_lt hp hx h). nra.
Qed.
Print Assumptions C47_simp.

(** Complex permittivities. *)
Theorem C47_simp_complex (a b : Multisimp.CC) p :
  0 < p -> Multisimp.csimp 0 a b p = a /\ Multisimp.csimp 1 a b p = b.
Proof. intros hp. split; [exact (Multisimp.csimp_0 a b hp)|exact (Multisimp.csimp_1 a b p)]. Qed.
Print Assumptions C47_simp_complex.

(** The [k]-th of [n] equally spaced densities gives the [k]-th permittivity. *)
Theorem C47_multi_simp (eps : list Multisimp.CC) p k d :
  0 < p -> (k < length eps)%nat ->
  Multisimp.multi_simp (if Nat.eqb (length eps) 1 then 0 else INR k / INR (length eps - 1)) eps p
  = Ok (nth k eps d).
Proof. exact (@Multisimp.multi_simp_plain eps p k d). Qed.
Print Assumptions C47_multi_simp.

Example C47_case :
  simp (1 / 2) 1 3 2 = 3 / 2 /\
  forall a b c : Multisimp.CC, Multisimp.multi_simp (1 / 2) [a; b; c] 3 = Ok b.
Proof.
  split.
  - unfold simp. replace 2 with (INR 2 * 1) at 2 by (simpl; ring).
    rewrite pypow_nat by lra. unfold pypow. destruct (Req_EM_T (1 / 2) 0); [lra|].
    rewrite Rpower_1 by lra. simpl. field.
  - intros a b c. pose proof (@C47_multi_simp [a; b; c] 3 1 a) as H.
    cbn [length Nat.eqb Nat.sub INR nth] in H. apply H; [lra|lia].
Qed.

(** ** C48 *)
Section Stop.
Variables X A : Type.
Variable level : R -> A.
Variable objective : X -> list A -> R.
Variable opt : X -> list A -> list X * (X * R).

(** Every time an evaluation falls below the stop value, the level fails with an
    AttributeError (when it is the first one), or returns a pair whose value is
    below the stop value while the objective at the returned point is not. *)
Theorem C48_stop_refuted a rest v k x0 :
  let args := level (powerRZ 2 k) :: rest in
  (exists x, In x (fst (opt x0 args)) /\ objective x args < v) ->
  minimize level objective opt (Some (a :: rest)) (Some v) k (k + 1) x0 = Err AttributeError \/
  exists xopt fopt,
    minimize level objective opt (Some (a :: rest)) (Some v) k (k + 1) x0 = Ok (xopt, fopt) /\
    fopt < v /\ v <= objective xopt args /\ fopt <> objective xopt args.
Proof.
  intros args [x [hx hv]].
  assert (E : minimize level objective opt (Some (a :: rest)) (Some v) k (k + 1) x0 =
    level_result (fun x => objective x args) (Some v) (fst (opt x0 args)) (snd (opt x0 args))).
  { unfold minimize, zrange. replace (k + 1 - k)%Z with 1%Z by lia.
    change (Z.to_nat 1) with 1%nat. cbn [seq map levels set_first bind].
    replace (k + Z.of_nat 0)%Z with k by lia. fold args.
    now destruct (level_result _ _ _ _). }
  rewrite E.
  destruct (stop_raises (fun x => objective x args) stop_init _ _ hx hv) as [s hs].
  destruct (stop_mismatch _ _ _ (snd (opt x0 args)) hs) as [h|(xo & y & h & h1 & h2)]; [now left|].
  right. exists xo, y. repeat split; auto. lra.
Qed.

(** What does hold: the value returned after a stop is below the stop value and
    is the objective at the last evaluated point; without a stop the optimizer's
    own answer is returned. *)
Theorem C48_value_partial a rest v k x0 :
  let args := level (powerRZ 2 k) :: rest in
  let tr := opt x0 args in
  (forall xopt fopt,
    minimize level objective opt (Some (a :: rest)) (Some v) k (k + 1) x0 = Ok (xopt, fopt) ->
    (exists x, In x (fst tr) /\ objective x args < v) ->
    fopt < v /\ exists x, In x (fst tr) /\ fopt = objective x args) /\
  ((forall x, In x (fst tr) -> v <= objective x args) ->
    minimize level objective opt (Some (a :: rest)) (Some v) k (k + 1) x0 = Ok (snd tr)).
Proof.
  intros args tr.
  assert (E : minimize level objective opt (Some (a :: rest)) (Some v) k (k + 1) x0 =
    level_result (fun x => objective x args) (Some v) (fst tr) (snd tr)).
  { unfold minimize, zrange. replace (k + 1 - k)%Z with 1%Z by lia.
    change (Z.to_nat 1) with 1%nat. cbn [seq map levels set_first bind].
    replace (k + Z.of_nat 0)%Z with k by lia. fold args. fold tr.
    now destruct (level_result _ _ _ _). }
  rewrite E. split.
  - intros xo y h [x [hx hv]].
    destruct (stop_raises (fun x => objective x args) stop_init _ _ hx hv) as [s hs].
    destruct (level_stopped _ _ _ (snd tr) hs) as (pre & z & post & e & hz & _ & r).
    rewrite r in h. destruct pre; [discriminate|]. injection h as _ <-.
    split; auto. exists z. split; auto. rewrite e. apply in_or_app. right. now left.
  - intros h. unfold level_result. now rewrite (surjective_pairing (stop_run _ _ _ _)), stop_quiet.
Qed.

(** ** C58 *)
(** Without a stop value: level [k] is started from the answer of level [k-1]
    with the first argument replaced by [2**k], and the answer is that of the
    last level. *)
Theorem C58_levels a rest lo hi x0 :
  (lo < hi)%Z ->
  exists start : nat -> X, start O = x0 /\
    (forall k, start (S k) =
       fst (snd (opt (start k) (level (powerRZ 2 (lo + Z.of_nat k)) :: rest)))) /\
    minimize level objective opt (Some (a :: rest)) None lo hi x0 =
      Ok (snd (opt (start (Z.to_nat (hi - lo) - 1)%nat) (level (powerRZ 2 (hi - 1)) :: rest))).
Proof. exact (@levels_chain X A level objective opt rest a lo hi x0). Qed.

(** With the default [args=None] every non-empty range of levels fails. *)
Theorem C58_default_args_refuted stopval lo hi x0 :
  (lo < hi)%Z -> minimize level objective opt None stopval lo hi x0 = Err TypeError.
Proof.
  intros h. unfold minimize, zrange. destruct (Z.to_nat (hi - lo)) eqn:E; [lia|]. reflexivity.
Qed.
End Stop.
Print Assumptions C48_stop_refuted.
Print Assumptions C48_value_partial.
Print Assumptions C58_levels.
Print Assumptions C58_default_args_refuted.

(** Concrete case: f(x) = x*x, stop value 1, evaluations at 3, 2, 1/2: the pair
    (2, 1/4) is returned. *)
Example C48_case :
  minimize (fun z => z) (fun x (_ : list R) => x * x) (fun _ _ => ([3; 2; 1 / 2; 0], (0, 0)))
    (Some [5]) (Some 1) 0 1 3 = Ok (2, 1 / 4) /\
  minimize (fun z => z) (fun x (_ : list R) => x * x) (fun _ _ => ([1 / 2; 0], (0, 0)))
    (Some [5]) (Some 1) 0 1 3 = Err AttributeError.
Proof.
  split; unfold minimize; change (zrange 0 1) with [0%Z];
  cbn [levels set_first bind]; unfold level_result; cbn [fst snd stop_run]; unfold stop_call.
  - destruct (Rlt_dec (3 * 3) 1); [lra|]. destruct (Rlt_dec (2 * 2) 1); [lra|].
    destruct (Rlt_dec (1 / 2 * (1 / 2)) 1); [|lra].
    cbn [bind of_option sf_x sf_f].
    replace (1 / 4) with (1 / 2 * (1 / 2)) by field. reflexivity.
  - destruct (Rlt_dec (1 / 2 * (1 / 2)) 1); [|lra]. reflexivity.
Qed.

(** Levels 1/2, 1, 2, 4. *)
Example C58_case :
  minimize (fun z => z) (fun (x : R) (_ : list R) => 0) (fun x a => ([], (x + 10 * hd 0 a, x)))
    (Some [100; 7]) None (-1) 3 5 = Ok (80, 40).
Proof.
  unfold minimize. change (zrange (-1) 3) with [-1; 0; 1; 2]%Z.
  cbn [levels set_first bind level_result stop_run fst snd of_option hd].
  do 2 f_equal; simpl; field.
Qed.

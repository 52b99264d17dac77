(** The object [TopologyOptimizer] with its counter, its callback and its two
    optimizers (optimize.py:80-223). *)
From Coq Require Import List ZArith Reals String Bool.
From Verif Require Import Base Optimize_Model.
Import ListNotations.
Local Open Scope R_scope.

(** optimize.py:81-117 [TopologyOptimizer.__init__], the choice of the method:
    [installed] tells whether [import nlopt] succeeds.  The result is
    [self.method] and whether the attribute [self.nlopt] exists.  The other
    arguments are stored unchanged and are parameters below.  Not modelled:
    [len(x0)] and [grad(fun)], which may raise. *)
Record chosen := Chosen { ch_method : string; ch_nlopt : bool }.

Definition construct (method : string) (installed : bool) : res chosen :=
  if String.eqb method "nlopt"
  then if installed then Ok (Chosen method true) else Ok (Chosen "scipy" false)
  else Ok (Chosen method false).

Section Topopt.
Context {X A : Type}.
Variable level : R -> A.
Variable objective : X -> list A -> R.

(** [self.current_iteration], and the calls received by the callback: the point,
    the value and the arguments. *)
Record topopt := Topopt { to_iter : nat; to_calls : list (X * R * list A) }.

(** optimize.py:145-153 [fun_scipy] and 180-197 [fun_nlopt]: one evaluation.
    [cb] tells whether [callback] is given; it is a pure observer here.  The
    conversions of [x] and the printing are left out; the gradient is part of
    the optimizer's trace. *)
Definition evaluate (cb : bool) (a : list A) (st : topopt) (x : X) : R * topopt :=
  let y := objective x a in
  (y, Topopt (S (to_iter st))
        (if cb then to_calls st ++ [(x, y, a)] else to_calls st)).

(** optimize.py:72-77 [StopFun.fun] on [fun_scipy]. *)
Definition stop_evaluate (cb : bool) (a : list A) (stopval : option R)
  (s : @stopfun X) (st : topopt) (x : X) : stopfun * bool * topopt :=
  let '(f, st1) := evaluate cb a st x in
  let s1 := StopState (sf_x s) (Some f) in
  let below := match stopval with
               | None => false
               | Some v => if Rlt_dec f v then true else false end in
  if below then (s1, true, st1) else (StopState (Some x) (Some f), false, st1).

Fixpoint stop_evals (cb : bool) (a : list A) (stopval : option R)
  (s : @stopfun X) (st : topopt) (evals : list X) : stopfun * bool * topopt :=
  match evals with
  | [] => (s, false, st)
  | x :: t => let '(s1, raised, st1) := stop_evaluate cb a stopval s st x in
              if raised then (s1, true, st1) else stop_evals cb a stopval s1 st1 t
  end.

(** [scipy.optimize.minimize] and [nlopt.opt] with their options: from the
    starting point and the arguments, the points evaluated and the final answer.
    The stop value is handed to nlopt (optimize.py:213-214). *)
Variable opt : X -> list A -> list X * (X * R).
Variable opt_nl : option R -> X -> list A -> list X * (X * R).

(** optimize.py:134-223, the loop over the thresholds.  The state is returned
    with the exception, too: the counter and the callback keep what happened. *)
Fixpoint levels_obj (c : chosen) (cb : bool) (args : option (list A)) (stopval : option R)
  (ls : list Z) (x0 : X) (last : option (X * R)) (st : topopt) : topopt * res (X * R) :=
  match ls with
  | [] => (st, of_option UnboundLocalError last)
  | iopt :: t =>
      match set_first args (level (powerRZ 2 iopt)) with
      | Err e => (st, Err e)
      | Ok a =>
          if String.eqb (ch_method c) "scipy" then
            let tr := opt x0 a in
            let '(s, raised, st1) := stop_evals cb a stopval stop_init st (fst tr) in
            let r :=
              if raised then
                let! x := of_option AttributeError (sf_x s) in
                let! f := of_option AttributeError (sf_f s) in
                Ok (x, f)
              else Ok (snd tr) in
            match r with
            | Err e => (st1, Err e)
            | Ok r => levels_obj c cb args stopval t (fst r) (Some r) st1
            end
          else if ch_nlopt c then
            let tr := opt_nl stopval x0 a in
            let st1 := fold_left (fun st x => snd (evaluate cb a st x)) (fst tr) st in
            levels_obj c cb args stopval t (fst (snd tr)) (Some (snd tr)) st1
          else (st, Err AttributeError)                     (* self.nlopt *)
      end
  end.

Definition minimize_obj (c : chosen) (cb : bool) (args : option (list A)) (stopval : option R)
  (lo hi : Z) (x0 : X) (st : topopt) : topopt * res (X * R) :=
  levels_obj c cb args stopval (zrange lo hi) x0 None st.
End Topopt.

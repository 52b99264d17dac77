(** Model of nannos/optimize.py: material interpolation, threshold projection,
    the stop-value wrapper and the driver loop of the topology optimizer, and of
    nannos/parallel.py.  Floats are reals. *)
From Coq Require Import List Reals ZArith.
From Verif Require Import Base.
Import ListNotations.
Open Scope R_scope.
Set Implicit Arguments.

(** Python's [x ** p] for a float [x >= 0]; [0 ** 0] is 1 and [0 ** p] is 0 for
    [p > 0].  (Negative bases are not used by the theorems.) *)
Definition pypow (x p : R) : R :=
  if Req_EM_T x 0 then (if Req_EM_T p 0 then 1 else 0) else Rpower x p.

(** optimize.py:21-22 [simp], for real permittivities. *)
Definition simp (x eps_min eps_max p : R) : R :=
  (eps_max - eps_min) * pypow x p + eps_min.

(** optimize.py:25-33 [project].  numpy's [tanh] is the hyperbolic tangent.
    The division is by a positive number under the hypotheses of the theorems;
    a zero denominator gives nan. *)
Definition project (x beta thres : R) : res R :=
  let den := tanh (thres * beta) + tanh ((1 - thres) * beta) in
  if Req_EM_T den 0 then Err NaN
  else Ok ((tanh (thres * beta) + tanh (beta * (x - thres))) / den).

(** [linspace(0, 1, n)]: [k / (n-1)] for [k < n]; the single point 0 when n = 1. *)
Definition linspace01 (n : nat) : list R :=
  map (fun k => if (n =? 1)%nat then 0 else INR k / INR (n - 1)) (seq 0 n).

(** [l[1:-1]]. *)
Definition inner {A} (l : list A) : list A := removelast (tl l).

(** Python's [sum] of a generator. *)
Fixpoint rsum (l : list (res R)) (acc : R) : res R :=
  match l with
  | [] => Ok acc
  | x :: t => let! v := x in rsum t (acc + v)
  end.

(** optimize.py:36-39 [multi_project].  With [Nthres <= 1] the list of
    thresholds is empty and [0 / 0] raises (ZeroDivisionError, here [NaN]:
    no value). *)
Definition multi_project (x beta : R) (Nthres : nat) : res R :=
  let thresholds := inner (linspace01 (Nthres + 1)) in
  let! out := rsum (map (project x beta) thresholds) 0 in
  if (length thresholds =? 0)%nat then Err NaN
  else Ok (out / INR (length thresholds)).

(** optimize.py:60-77 [StopFun]: the attributes [x] (unset before the first
    completed evaluation) and [f].  [fun x] stores [f], raises when it is below
    [stopval] and only then stores [x]. *)
Section Stop.
Context {X : Type}.
Record stopfun := StopState { sf_x : option X; sf_f : option R }.
Definition stop_init : stopfun := StopState None None.

Definition stop_call (fun_in : X -> R) (stopval : option R) (s : stopfun) (x : X)
  : stopfun * bool :=
  let f := fun_in x in
  let s1 := StopState (sf_x s) (Some f) in
  let below := match stopval with
               | None => false
               | Some v => if Rlt_dec f v then true else false end in
  if below then (s1, true) else (StopState (Some x) (Some f), false).

(** The call of [scipy.optimize.minimize]: the optimizer evaluates the objective
    at points of its choosing, [evals] in that order, and would finally return
    [final].  Any optimizer run is such a trace: an evaluation that raises ends it. *)
Fixpoint stop_run (fun_in : X -> R) (stopval : option R) (s : stopfun) (evals : list X)
  : stopfun * bool :=
  match evals with
  | [] => (s, false)
  | x :: t => let '(s1, raised) := stop_call fun_in stopval s x in
              if raised then (s1, true) else stop_run fun_in stopval s1 t
  end.

Definition level_result (fun_in : X -> R) (stopval : option R) (evals : list X) (final : X * R)
  : res (X * R) :=
  match stop_run fun_in stopval stop_init evals with
  | (_, false) => Ok final                                  (* xopt = opt.x; fopt = opt.fun *)
  | (s, true) =>                                            (* except StopFunError *)
      let! x := of_option AttributeError (sf_x s) in
      let! f := of_option AttributeError (sf_f s) in
      Ok (x, f)
  end.

(** optimize.py:117-223 [TopologyOptimizer.minimize] with method "scipy".
    [opt] is the optimizer: from the starting point and the arguments of the
    objective it produces the trace of evaluations and its final answer.
    [args] is [None] by default (optimize.py:90); [list(None)] is a TypeError and
    [args[0] = ...] on an empty list an IndexError.  An empty range of
    thresholds leaves [xopt] unbound.  The first argument is replaced by the
    projection level 2**iopt, an int for [iopt >= 0] and a float below: a real
    number here, which [level] injects in the type of the arguments. *)
Context {A : Type}.
Variable level : R -> A.
Definition set_first (args : option (list A)) (v : A) : res (list A) :=
  match args with
  | None => Err TypeError
  | Some [] => Err IndexError
  | Some (_ :: t) => Ok (v :: t)
  end.

Variable objective : X -> list A -> R.
Variable opt : X -> list A -> list X * (X * R).

Fixpoint levels (args : option (list A)) (stopval : option R) (ls : list Z)
  (x0 : X) (last : option (X * R)) : res (X * R) :=
  match ls with
  | [] => of_option UnboundLocalError last
  | iopt :: t =>
      let! a := set_first args (level (powerRZ 2 iopt)) in
      let tr := opt x0 a in
      let! r := level_result (fun x => objective x a) stopval (fst tr) (snd tr) in
      levels args stopval t (fst r) (Some r)
  end.

(** [range(a, b)]. *)
Definition zrange (a b : Z) : list Z :=
  map (fun k => (a + Z.of_nat k)%Z) (seq 0 (Z.to_nat (b - a))).

Definition minimize (args : option (list A)) (stopval : option R) (lo hi : Z) (x0 : X)
  : res (X * R) :=
  levels args stopval (zrange lo hi) x0 None.
End Stop.

(** parallel.py:15-31 [parloop].  [joblib.Parallel] dispatches one task per
    element of the first positional argument and returns the results by task
    number.  A schedule is the order in which the tasks complete: each completed
    task stores its result in its slot.  A task that raises makes the call
    raise; here the function is total.  [args] are the positional arguments:
    the first is the sequence, the others and the keyword arguments [kw] are
    passed to every call. *)
Section Parloop.
Context {X Y A K : Type}.
Variable func : X -> list A -> K -> Y.

Fixpoint put {T} (l : list (option T)) (k : nat) (v : T) : list (option T) :=
  match l, k with
  | [], _ => []
  | _ :: t, O => Some v :: t
  | h :: t, S k' => h :: put t k' v
  end.

Definition run_schedule (xs : list X) (others : list A) (kw : K) (schedule : list nat)
  : list (option Y) :=
  fold_left (fun slots k =>
               match nth_error xs k with
               | Some x => put slots k (func x others kw)
               | None => slots
               end) schedule (repeat None (length xs)).

Fixpoint collect {T} (l : list (option T)) : option (list T) :=
  match l with
  | [] => Some []
  | None :: _ => None
  | Some v :: t => match collect t with Some r => Some (v :: r) | None => None end
  end.

(** [None] when a task never completes.  [my_func] without positional argument
    raises IndexError at [args[0]]. *)
Definition parloop (seqarg : option (list X)) (others : list A) (kw : K) (schedule : list nat)
  : res (option (list Y)) :=
  match seqarg with
  | None => Err IndexError
  | Some xs => Ok (collect (run_schedule xs others kw schedule))
  end.
End Parloop.

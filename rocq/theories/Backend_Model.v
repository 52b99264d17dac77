(** Model of the package state in nannos/__init__.py and nannos/log.py: the
    numerical backend, the device, the precision and the log level, which are
    module globals changed by calls that reload the package. *)
From Coq Require Import Bool List String.
From Verif Require Import Base.
Import ListNotations.
Set Implicit Arguments.

Inductive backend := Numpy | Scipy | Autograd | Jax | Torch.
Definition backend_eqb (a b : backend) : bool :=
  match a, b with
  | Numpy, Numpy | Scipy, Scipy | Autograd, Autograd | Jax, Jax | Torch, Torch => true
  | _, _ => false
  end.

(** The array module bound to [nannos.backend] (backends numpy and scipy both
    use numpy). *)
Inductive array_module := MNumpy | MAutograd | MJax | MTorch.

Inductive level := DEBUG | INFO | WARNING | ERROR | CRITICAL.

(** What is installed and the environment, constant during a run. *)
Record world := World {
  has_torch : bool; has_jax : bool; has_cuda : bool;
  env_backend : option string;     (* NANNOS_BACKEND *)
  env_gpu : option string }.       (* NANNOS_GPU *)

(** The globals of the package.  A boolean [v_X] tells whether the name [_X] is
    in [globals()].  [g_module], [g_grad]: the array module and whether [grad]
    is a real gradient; [s_module], [s_grad]: the copies held by the submodules
    (they do [from . import backend as bk]).  [g_32]: FLOAT is float32. *)
Record globals := Globals {
  v_scipy : bool; v_autograd : bool; v_jax : bool; v_torch : bool; v_numpy : bool;
  v_use32 : bool; v_gpu : bool; v_cpu : bool; v_force_backend : bool; v_force_gpu : bool;
  g_module : array_module; g_grad : bool;
  g_BACKEND : backend; g_DEVICE_cuda : bool; g_32 : bool;
  s_module : array_module; s_grad : bool; s_32 : bool;
  log_level : level; log_handlers : nat }.

(** __init__.py:213-223 *)
Definition get_backend (g : globals) : backend :=
  if v_scipy g then Scipy else if v_autograd g then Autograd
  else if v_jax g then Jax else if v_torch g then Torch else Numpy.

(** __init__.py:311-312: true for "cuda" *)
Definition get_device (g : globals) : bool := v_gpu g.

(** ** Setters *)
Definition set_flags (g : globals) (sc au ja to nu : bool) : globals :=
  Globals sc au ja to nu (v_use32 g) (v_gpu g) (v_cpu g) (v_force_backend g) (v_force_gpu g)
    (g_module g) (g_grad g) (g_BACKEND g) (g_DEVICE_cuda g) (g_32 g) (s_module g) (s_grad g) (s_32 g)
    (log_level g) (log_handlers g).
Definition set_module (g : globals) (m : array_module) (gr : bool) : globals :=
  Globals (v_scipy g) (v_autograd g) (v_jax g) (v_torch g) (v_numpy g)
    (v_use32 g) (v_gpu g) (v_cpu g) (v_force_backend g) (v_force_gpu g)
    m gr (g_BACKEND g) (g_DEVICE_cuda g) (g_32 g) (s_module g) (s_grad g) (s_32 g)
    (log_level g) (log_handlers g).
Definition force_backend (g : globals) : globals :=
  Globals (v_scipy g) (v_autograd g) (v_jax g) (v_torch g) (v_numpy g)
    (v_use32 g) (v_gpu g) (v_cpu g) true (v_force_gpu g)
    (g_module g) (g_grad g) (g_BACKEND g) (g_DEVICE_cuda g) (g_32 g) (s_module g) (s_grad g) (s_32 g)
    (log_level g) (log_handlers g).
Definition set_device (g : globals) (gpu cpu force cuda : bool) : globals :=
  Globals (v_scipy g) (v_autograd g) (v_jax g) (v_torch g) (v_numpy g)
    (v_use32 g) gpu cpu (v_force_backend g) force
    (g_module g) (g_grad g) (g_BACKEND g) cuda (g_32 g) (s_module g) (s_grad g) (s_32 g)
    (log_level g) (log_handlers g).
Definition set_32 (g : globals) (b : bool) : globals :=
  Globals (v_scipy g) (v_autograd g) (v_jax g) (v_torch g) (v_numpy g)
    b (v_gpu g) (v_cpu g) (v_force_backend g) (v_force_gpu g)
    (g_module g) (g_grad g) (g_BACKEND g) (g_DEVICE_cuda g) (g_32 g) (s_module g) (s_grad g) (s_32 g)
    (log_level g) (log_handlers g).
(** __init__.py:332-334 *)
Definition set_constants (g : globals) : globals :=
  Globals (v_scipy g) (v_autograd g) (v_jax g) (v_torch g) (v_numpy g)
    (v_use32 g) (v_gpu g) (v_cpu g) (v_force_backend g) (v_force_gpu g)
    (g_module g) (g_grad g) (get_backend g) (get_device g) (v_use32 g) (s_module g) (s_grad g) (s_32 g)
    (log_level g) (log_handlers g).

(** ** log.py *)
(** log.py:50 removes the handlers of the list it is iterating over: of n
    handlers every second one is removed, n/2 remain; log.py:51 adds one. *)
Definition install_level (g : globals) (l : level) : globals :=
  Globals (v_scipy g) (v_autograd g) (v_jax g) (v_torch g) (v_numpy g)
    (v_use32 g) (v_gpu g) (v_cpu g) (v_force_backend g) (v_force_gpu g)
    (g_module g) (g_grad g) (g_BACKEND g) (g_DEVICE_cuda g) (g_32 g) (s_module g) (s_grad g) (s_32 g)
    l (Nat.div2 (log_handlers g) + 1).

Definition level_of (s : string) : option level :=
  if (s =? "DEBUG")%string then Some DEBUG else if (s =? "INFO")%string then Some INFO
  else if (s =? "WARNING")%string then Some WARNING else if (s =? "ERROR")%string then Some ERROR
  else if (s =? "CRITICAL")%string then Some CRITICAL else None.

(** log.py:25-51: [LEVELS[level]] is a KeyError for other names. *)
Definition set_log_level (g : globals) (s : string) : globals * res unit :=
  match level_of s with
  | None => (g, Err KeyError)
  | Some l => (install_level g l, Ok tt)
  end.

(** Execution of the submodules: they copy the backend, the gradient and the
    types, and log.py:54 calls [set_log_level("WARNING")]. *)
Definition exec_submodules (g0 : globals) : globals :=
  let g := install_level g0 WARNING in
  Globals (v_scipy g) (v_autograd g) (v_jax g) (v_torch g) (v_numpy g)
    (v_use32 g) (v_gpu g) (v_cpu g) (v_force_backend g) (v_force_gpu g)
    (g_module g) (g_grad g) (g_BACKEND g) (g_DEVICE_cuda g) (g_32 g) (g_module g) (g_grad g) (g_32 g)
    (log_level g) (log_handlers g).

Section Package.
Variable w : world.

Definition backend_of (s : string) : option backend :=
  if (s =? "autograd")%string then Some Autograd else if (s =? "scipy")%string then Some Scipy
  else if (s =? "jax")%string then Some Jax else if (s =? "torch")%string then Some Torch
  else if (s =? "numpy")%string then Some Numpy else None.

(** __init__.py:36,80-84 [x in available_backends] *)
Definition available (b : backend) : bool :=
  match b with Torch => has_torch w | Jax => has_jax w | _ => true end.

(** [rp] is what [_reload_package] does in the context of the call. *)
Section Calls.
Variable rp : globals -> globals.

(** __init__.py:141-197 *)
Definition set_backend (name : string) (g0 : globals) : globals * res unit :=
  let g := force_backend g0 in
  match backend_of name with
  | None => (g, Err ValueError)
  | Some b =>
      if backend_eqb b (get_backend g) then (g, Ok tt)
      else
        let g1 := match b with
          | Autograd => set_flags g false true false false (v_numpy g)
          | Scipy => set_flags g true false false false (v_numpy g)
          | Jax => set_flags g false false true false (v_numpy g)
          | Torch => set_flags g false false false true (v_numpy g)
          | Numpy => set_flags g false false false false true
          end in
        (rp g1, Ok tt)
  end.

(** __init__.py:87-121 *)
Definition use_gpu (b : bool) (g : globals) : globals :=
  let cannot := set_device g false true true (g_DEVICE_cuda g) in
  let g1 :=
    if b then
      match g_BACKEND g with
      | Torch => if negb (has_torch w) then cannot
                 else if negb (has_cuda w) then cannot
                 else set_device g true false true true
      | Jax => if negb (has_jax w) then cannot else set_device g true false true true
      | _ => cannot
      end
    else set_device g false true true false in
  rp g1.

(** __init__.py:315-321 *)
Definition use_32_bit (yes : bool) (g : globals) : globals := rp (set_32 g yes).

(** The module body, __init__.py:230-350 (what precedes only defines functions
    and constants).  A missing library falls back to numpy by calling
    [set_backend("numpy")] in the middle of the execution. *)
Definition body (g : globals) : globals :=
  let g1 :=
    match get_backend g with
    | Scipy => set_module g MNumpy false
    | Autograd => set_module g MAutograd true
    | Jax => if has_jax w then set_module g MJax false else fst (set_backend "numpy" g)
    | Torch => if has_torch w then set_module g MTorch true else fst (set_backend "numpy" g)
    | Numpy => set_module g MNumpy false
    end in
  let g2 := set_constants g1 in
  let g3 :=
    match env_backend w with
    | Some s =>
        match backend_of s with
        | Some b => if (available b && negb (backend_eqb (g_BACKEND g2) b) && negb (v_force_backend g2))%bool
                    then fst (set_backend s g2) else g2
        | None => g2
        end
    | None => g2
    end in
  match env_gpu w with
  | Some _ => if v_force_gpu g3 then g3 else use_gpu true g3
  | None => g3
  end.
End Calls.

(** __init__.py:200-210 called from outside: reload the package, then every
    module of it, the package first.  A module that is being reloaded is not
    reloaded again (importlib.reload returns at once), so that a nested
    [_reload_package] only executes the submodules. *)
Definition reload_package (g : globals) : globals :=
  exec_submodules (body exec_submodules (body exec_submodules g)).

(** The first import: no name is defined yet (the values of the constants are
    irrelevant), the logger has no handler; a call of [set_backend] or [use_gpu]
    from the body does reload. *)
Definition blank : globals :=
  Globals false false false false false false false false false false
    MNumpy false Numpy false false MNumpy false false WARNING 0.
Definition import : globals :=
  exec_submodules (body reload_package (install_level blank WARNING)).

(** The calls of a user. *)
Inductive call :=
| SetBackend (name : string) | UseGpu (b : bool) | Use32 (b : bool) | SetLogLevel (name : string).

Definition do_call (g : globals) (c : call) : globals * res unit :=
  match c with
  | SetBackend s => set_backend reload_package s g
  | UseGpu b => (use_gpu reload_package b g, Ok tt)
  | Use32 b => (use_32_bit reload_package b g, Ok tt)
  | SetLogLevel s => set_log_level g s
  end.

Definition run (g : globals) (cs : list call) : globals :=
  fold_left (fun g c => fst (do_call g c)) cs g.
End Package.

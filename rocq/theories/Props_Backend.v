(** Theorems about the package state: backend, device, precision, log. *)
From Coq Require Import Bool List String.
From Verif Require Import Base Backend_Model Backend_Proofs.
Import ListNotations.
Set Implicit Arguments.
Local Open Scope string_scope.

(** C49: after the import and any sequence of calls, the backend in force is the
    last valid one requested (numpy if its library is missing; initially the one
    named by NANNOS_BACKEND), [get_backend()] and BACKEND agree, and the package
    and its submodules use that backend's arrays; unknown names raise
    [ValueError], valid names do not raise. *)
Theorem C49_backend :
  forall (w : world) (cs : list call),
    let g := run w (import w) cs in
    get_backend g = wanted w cs /\ g_BACKEND g = wanted w cs /\
    g_module g = lib_of (wanted w cs) /\ s_module g = lib_of (wanted w cs).
Proof.
intros w cs. cbn zeta.
destruct (import_inv w) as (I & Hb & _).
destruct (run_inv cs I) as (J & K & _). rewrite Hb in K. fold (wanted w cs) in K.
pose proof (only_get (i_only J)) as G. rewrite K in G.
repeat split; [exact G|exact K|rewrite (i_module J), K; reflexivity
  |rewrite (i_smodule J), (i_module J), K; reflexivity].
Qed.
Theorem C49_unknown :
  forall (w : world) (cs : list call) (name : string),
    let g := run w (import w) cs in
    snd (set_backend (reload_package w) name g) =
      (match backend_of name with Some _ => Ok tt | None => Err ValueError end) /\
    (backend_of name = None ->
     let g' := fst (set_backend (reload_package w) name g) in
     get_backend g' = get_backend g /\ g_BACKEND g' = g_BACKEND g /\
     s_module g' = s_module g /\ get_device g' = get_device g /\ log_level g' = log_level g).
Proof.
intros w cs name. cbn zeta.
destruct (import_inv w) as (I & _). destruct (run_inv cs I) as (J & _).
destruct (set_backend_inv name J) as (_ & _ & _ & _ & E & _).
split; [exact E|]. intros Hn. unfold set_backend. rewrite Hn. cbn [fst]. repeat split.
Qed.
Print Assumptions C49_backend.
Print Assumptions C49_unknown.

(** torch and jax missing: requests fall back to numpy; environment asking for
    autograd. *)
Example C49_case :
  let w := World false false false (Some "autograd") None in
  map (fun cs => get_backend (run w (import w) cs))
    [[]; [SetBackend "scipy"]; [SetBackend "scipy"; SetBackend "torch"];
     [SetBackend "scipy"; SetBackend "tensorflow"]; [Use32 true; UseGpu true]]
  = [Autograd; Scipy; Numpy; Scipy; Autograd].
Proof. reflexivity. Qed.

(** C50, proved parts: the precision persists; there is exactly one log handler;
    [use_gpu] selects the GPU exactly when it can be used at that moment; the log
    level set by the user is kept by calls that do not change the backend. *)
Theorem C50_settings_partial :
  forall (w : world) (cs : list call),
    let g := run w (import w) cs in
    g_32 g = bits cs /\ s_32 g = bits cs /\ log_handlers g = 1 /\
    (forall b, get_device (run w (import w) (cs ++ [UseGpu b])) = (b && can_gpu w (get_backend g))%bool) /\
    (forall b, get_device (run w (import w) (cs ++ [Use32 b])) = get_device g) /\
    (forall s l, level_of s = Some l ->
       log_level (run w (import w) (cs ++ [SetLogLevel s])) = l /\
       forall name, backend_of name = Some (get_backend g) \/ backend_of name = None ->
         log_level (run w (import w) (cs ++ [SetLogLevel s; SetBackend name])) = l).
Proof.
intros w cs. cbn zeta.
destruct (import_inv w) as (I & _ & Hu & _).
destruct (run_inv cs I) as (J & _ & K). rewrite Hu in K. fold (bits cs) in K.
split; [rewrite (i_32 J); exact K|split; [rewrite (i_s32 J), (i_32 J); exact K|split; [exact (i_handlers J)|]]].
unfold run in *.
split; [|split].
- intros b. rewrite fold_left_app. cbn [fold_left do_call fst].
  destruct (use_gpu_inv b J) as (_ & _ & _ & D & _). rewrite D, (only_get (i_only J)). reflexivity.
- intros b. rewrite fold_left_app. cbn [fold_left do_call fst].
  destruct (use_32_inv b J) as (_ & _ & _ & D & _). exact D.
- intros s l Hl. rewrite fold_left_app.
  destruct (log_inv s J) as (J' & B' & _ & _ & L). rewrite Hl in L.
  split; [exact L|].
  intros name Hn. rewrite fold_left_app. cbn [fold_left do_call fst].
  destruct (set_backend_inv name J') as (_ & _ & _ & _ & _ & E & _).
  rewrite E; [exact L|]. rewrite B'. rewrite (only_get (i_only J)) in Hn. tauto.
Qed.
Print Assumptions C50_settings_partial.

(** C50 is false of the code for the device: after [use_gpu(True)] with torch,
    [set_backend("numpy")] leaves the device at "cuda". *)
Theorem C50_device_refuted :
  exists (w : world) (cs : list call),
    let g := run w (import w) cs in
    get_backend g = Numpy /\ get_device g = true /\ g_DEVICE_cuda g = true.
Proof.
exists (World true false true None None), [SetBackend "torch"; UseGpu true; SetBackend "numpy"].
repeat split.
Qed.
Print Assumptions C50_device_refuted.

(** C50 is false of the code for the log level: any effective change of the
    backend, the device or the precision sets it back to WARNING. *)
Theorem C50_log_refuted :
  forall (w : world) (cs : list call) (s : string) (l : level), level_of s = Some l ->
    let g := run w (import w) (cs ++ [SetLogLevel s]) in
    log_level g = l /\
    (forall b, log_level (run w g [UseGpu b]) = WARNING) /\
    (forall b, log_level (run w g [Use32 b]) = WARNING) /\
    (forall name b, backend_of name = Some b -> b <> get_backend g ->
       log_level (run w g [SetBackend name]) = WARNING).
Proof.
intros w cs s l Hl. cbn zeta.
destruct (import_inv w) as (I & _).
destruct (run_inv cs I) as (J & _).
destruct (log_inv s J) as (J' & _ & _ & _ & L). rewrite Hl in L.
assert (E : run w (import w) (cs ++ [SetLogLevel s]) = fst (set_log_level (run w (import w) cs) s)).
{ unfold run. rewrite fold_left_app. reflexivity. }
rewrite E. split; [exact L|].
split; [|split].
- intros b. exact (proj2 (proj2 (proj2 (proj2 (use_gpu_inv b J'))))).
- intros b. exact (proj2 (proj2 (proj2 (proj2 (use_32_inv b J'))))).
- intros name b Hb Hne.
  destruct (set_backend_inv name J') as (_ & _ & _ & _ & _ & _ & W).
  rewrite (only_get (i_only J')) in Hne. exact (W b Hb Hne).
Qed.
Print Assumptions C50_log_refuted.

Example C50_case :
  let w := World true false true None None in
  let g := run w (import w) [Use32 true; SetLogLevel "DEBUG"; SetBackend "torch"] in
  (g_32 g, log_level g, log_handlers g, get_device g) = (true, WARNING, 1, false).
Proof. reflexivity. Qed.

(** C61: NANNOS_BACKEND is honoured at import (C49); the GPU is requested at
    import exactly when NANNOS_GPU is defined, even as "0" or "": the claim that
    a false value does not ask for the GPU is refuted. *)
Theorem C61_environment :
  forall w : world,
    get_backend (import w) = wanted_at_import w /\
    get_device (import w) =
      ((match env_gpu w with Some _ => true | None => false end) && can_gpu w (get_backend (import w)))%bool.
Proof.
intros w. destruct (import_inv w) as (I & Hb & _ & _ & D).
rewrite (only_get (i_only I)). split; [exact Hb|exact D].
Qed.
Theorem C61_gpu_zero_refuted :
  exists w : world, env_gpu w = Some "0" /\ get_device (import w) = true.
Proof. exists (World true false true (Some "torch") (Some "0")). split; reflexivity. Qed.
Print Assumptions C61_environment.
Print Assumptions C61_gpu_zero_refuted.

(** C62: gradients are offered (by the package and to its submodules) exactly
    with the autograd and torch backends. *)
Theorem C62_gradients :
  forall (w : world) (cs : list call),
    let g := run w (import w) cs in
    g_grad g = grad_of (wanted w cs) /\ s_grad g = grad_of (wanted w cs).
Proof.
intros w cs. cbn zeta.
destruct (import_inv w) as (I & Hb & _).
destruct (run_inv cs I) as (J & K & _). rewrite Hb in K. fold (wanted w cs) in K.
split; [rewrite (i_grad J), K; reflexivity|rewrite (i_sgrad J), (i_grad J), K; reflexivity].
Qed.
Print Assumptions C62_gradients.
Example C62_case :
  let w := World false true false None None in
  map (fun s => s_grad (run w (import w) [SetBackend s])) ["numpy"; "scipy"; "autograd"; "jax"; "torch"]
  = [false; false; true; false; false].
Proof. reflexivity. Qed.

(** Invariants of the package state (Backend_Model.v). *)
From Coq Require Import Bool List String Lia.
From Verif Require Import Base Backend_Model.
Import ListNotations.
Set Implicit Arguments.

(** ** Specification: what a user expects to be in force. *)
(** The library used by a backend, and whether gradients are available. *)
Definition lib_of (b : backend) : array_module :=
  match b with Numpy | Scipy => MNumpy | Autograd => MAutograd | Jax => MJax | Torch => MTorch end.
Definition grad_of (b : backend) : bool :=
  match b with Autograd | Torch => true | _ => false end.

Section Spec.
Variable w : world.
(** numpy replaces a backend that is not installed. *)
Definition eff (b : backend) : backend := if available w b then b else Numpy.
Definition wanted_at_import : backend :=
  match env_backend w with
  | Some s => match backend_of s with Some b => eff b | None => Numpy end
  | None => Numpy
  end.
Definition wanted_step (b : backend) (c : call) : backend :=
  match c with
  | SetBackend s => match backend_of s with Some b' => eff b' | None => b end
  | _ => b
  end.
Definition wanted (cs : list call) : backend := fold_left wanted_step cs wanted_at_import.
Definition bits_step (b : bool) (c : call) : bool := match c with Use32 x => x | _ => b end.
Definition bits (cs : list call) : bool := fold_left bits_step cs false.
End Spec.

(** ** Invariants *)
Definition only (b : backend) (g : globals) : Prop :=
  match b with
  | Scipy => v_scipy g = true /\ v_autograd g = false /\ v_jax g = false /\ v_torch g = false
  | Autograd => v_scipy g = false /\ v_autograd g = true /\ v_jax g = false /\ v_torch g = false
  | Jax => v_scipy g = false /\ v_autograd g = false /\ v_jax g = true /\ v_torch g = false
  | Torch => v_scipy g = false /\ v_autograd g = false /\ v_jax g = false /\ v_torch g = true
  | Numpy => v_scipy g = false /\ v_autograd g = false /\ v_jax g = false /\ v_torch g = false
  end.

Lemma only_get b g : only b g -> get_backend g = b.
Proof. unfold only, get_backend. destruct b; intros (E1 & E2 & E3 & E4); rewrite ?E1, ?E2, ?E3, ?E4; reflexivity. Qed.

Arguments only_get {b g} _.

Lemma backend_eqb_eq a b : backend_eqb a b = true <-> a = b.
Proof. destruct a, b; cbn; split; congruence. Qed.
Lemma backend_eqb_refl a : backend_eqb a a = true.
Proof. destruct a; reflexivity. Qed.

Section P.
Variable w : world.

Definition env_quiet (b : backend) : Prop :=
  forall s b', env_backend w = Some s -> backend_of s = Some b' -> available w b' = true -> b' = b.
Definition quiet (b : backend) (g : globals) : Prop := v_force_backend g = true \/ env_quiet b.
Definition gpu_quiet (g : globals) : Prop := env_gpu w = None \/ v_force_gpu g = true.

Record inv (g : globals) : Prop := Inv {
  i_only : only (g_BACKEND g) g;
  i_avail : available w (g_BACKEND g) = true;
  i_module : g_module g = lib_of (g_BACKEND g);
  i_grad : g_grad g = grad_of (g_BACKEND g);
  i_smodule : s_module g = g_module g;
  i_sgrad : s_grad g = g_grad g;
  i_s32 : s_32 g = g_32 g;
  i_32 : g_32 g = v_use32 g;
  i_device : g_DEVICE_cuda g = v_gpu g;
  i_quiet : quiet (g_BACKEND g) g;
  i_gpu : gpu_quiet g;
  i_handlers : log_handlers g = 1 }.

(** What one execution of the body does when the backend is available. *)
Record after (b : backend) (g g' : globals) : Prop := After {
  a_only : only b g';
  a_BACKEND : g_BACKEND g' = b;
  a_module : g_module g' = lib_of b;
  a_grad : g_grad g' = grad_of b;
  a_32 : g_32 g' = v_use32 g;
  a_use32 : v_use32 g' = v_use32 g;
  a_force : v_force_backend g' = v_force_backend g;
  a_gpu : gpu_quiet g';
  a_same : gpu_quiet g -> v_gpu g' = v_gpu g /\ g_DEVICE_cuda g' = v_gpu g;
  a_handlers : log_handlers g = 1 -> log_handlers g' = 1 }.

Definition plain (b : backend) (g : globals) : globals :=
  set_constants (set_module g (lib_of b) (grad_of b)).

Lemma body_quiet rp b g :
  only b g -> available w b = true -> quiet b g -> 
  body w rp g = match env_gpu w with
                | Some _ => if v_force_gpu g then plain b g else use_gpu w rp true (plain b g)
                | None => plain b g
                end.
Proof.
intros Ho Ha Hq. unfold body. rewrite (only_get Ho).
assert (E : match b with
    | Scipy => set_module g MNumpy false
    | Autograd => set_module g MAutograd true
    | Jax => if has_jax w then set_module g MJax false else fst (set_backend rp "numpy" g)
    | Torch => if has_torch w then set_module g MTorch true else fst (set_backend rp "numpy" g)
    | Numpy => set_module g MNumpy false
    end = set_module g (lib_of b) (grad_of b)).
{ destruct b; cbn in Ha; try rewrite Ha; reflexivity. }
rewrite E. fold (plain b g).
assert (Hb : g_BACKEND (plain b g) = b).
{ change (get_backend g = b). exact (only_get Ho). }
assert (E2 : match env_backend w with
   | Some s => match backend_of s with
      | Some b' => if (available w b' && negb (backend_eqb (g_BACKEND (plain b g)) b') && negb (v_force_backend (plain b g)))%bool
                   then fst (set_backend rp s (plain b g)) else plain b g
      | None => plain b g end
   | None => plain b g end = plain b g).
{ destruct (env_backend w) as [s|] eqn:Es; [|reflexivity].
  destruct (backend_of s) as [b'|] eqn:Eb; [|reflexivity].
  destruct (available w b') eqn:Ea; [|reflexivity].
  rewrite Hb. destruct Hq as [Hf|Hq].
  - change (v_force_backend (plain b g)) with (v_force_backend g). rewrite Hf, andb_false_r. reflexivity.
  - rewrite (Hq _ _ Es Eb Ea), backend_eqb_refl. reflexivity. }
rewrite E2. reflexivity.
Qed.

Arguments body_quiet rp {b g} _ _ _.

Lemma body_after b g :
  only b g -> available w b = true -> quiet b g -> after b g (body w exec_submodules g).
Proof.
intros Ho Ha Hq. rewrite (body_quiet _ Ho Ha Hq).
assert (Hg : get_backend g = b) by (exact (only_get Ho)).
assert (Hp : gpu_quiet g -> after b g (plain b g)).
{ intros Hgq. constructor; try reflexivity; try exact Ho; try exact Hgq; try exact Hg.
  - intros _; split; reflexivity.
  - intros H; exact H. }
destruct (env_gpu w) as [s|] eqn:Es.
- destruct (v_force_gpu g) eqn:Ef.
  + apply Hp. right; exact Ef.
  + assert (Hn : ~ gpu_quiet g) by (intros [H|H]; congruence).
    assert (Hu : exists gpu cpu cuda, use_gpu w exec_submodules true (plain b g)
                 = exec_submodules (set_device (plain b g) gpu cpu true cuda)).
    { unfold use_gpu. change (g_BACKEND (plain b g)) with (get_backend g). rewrite Hg.
      destruct b; cbn [negb]; try (do 3 eexists; reflexivity).
      - destruct (has_jax w); cbn [negb]; do 3 eexists; reflexivity.
      - destruct (has_torch w), (has_cuda w); cbn [negb]; do 3 eexists; reflexivity. }
    destruct Hu as (gpu & cpu & cuda & ->).
    constructor; try reflexivity; try exact Ho; try exact Hg.
    * right; reflexivity.
    * intros H; contradiction.
    * intros H; cbn. rewrite H. reflexivity.
- apply Hp. left; exact Es.
Qed.

Arguments body_after {b g} _ _ _.

(** The fallback: a backend that is not installed, selected by [set_backend]. *)
Lemma body_fallback b g :
  only b g -> available w b = false -> v_force_backend g = true ->
  let g' := body w exec_submodules g in
  only Numpy g' /\ v_force_backend g' = true /\ v_use32 g' = v_use32 g /\
  gpu_quiet g' /\ (gpu_quiet g -> v_gpu g' = v_gpu g) /\
  (log_handlers g = 1 -> log_handlers g' = 1).
Proof.
intros Ho Ha Hf. cbn zeta.
assert (Hs : exists gn, gn = exec_submodules (set_flags (force_backend g) false false false false true)
  /\ match get_backend g with
    | Scipy => set_module g MNumpy false
    | Autograd => set_module g MAutograd true
    | Jax => if has_jax w then set_module g MJax false else fst (set_backend exec_submodules "numpy" g)
    | Torch => if has_torch w then set_module g MTorch true else fst (set_backend exec_submodules "numpy" g)
    | Numpy => set_module g MNumpy false
    end = gn).
{ eexists; split; [reflexivity|]. rewrite (only_get Ho).
  assert (E : get_backend (force_backend g) = b) by (exact (only_get Ho)).
  destruct b; cbn in Ha; try discriminate; rewrite Ha; unfold set_backend; rewrite E; reflexivity. }
destruct Hs as (gn & Egn & E).
unfold body. rewrite E. clear E.
assert (Fn : v_force_backend (set_constants gn) = true) by (rewrite Egn; reflexivity).
assert (E2 : match env_backend w with
   | Some s => match backend_of s with
      | Some b' => if (available w b' && negb (backend_eqb (g_BACKEND (set_constants gn)) b') && negb (v_force_backend (set_constants gn)))%bool
                   then fst (set_backend exec_submodules s (set_constants gn)) else set_constants gn
      | None => set_constants gn end
   | None => set_constants gn end = set_constants gn).
{ destruct (env_backend w) as [s|]; [|reflexivity].
  destruct (backend_of s) as [b'|]; [|reflexivity].
  rewrite Fn, andb_false_r. reflexivity. }
rewrite E2. clear E2.
assert (HN : g_BACKEND (set_constants gn) = Numpy) by (rewrite Egn; reflexivity).
destruct (env_gpu w) as [s|] eqn:Es.
- destruct (v_force_gpu (set_constants gn)) eqn:Efg.
  + subst gn. repeat split; try reflexivity.
    * right; exact Efg.
    * intros H; cbn. rewrite H. reflexivity.
  + unfold use_gpu. rewrite HN. subst gn. cbn in Efg. repeat split; try reflexivity.
    * right; reflexivity.
    * intros [H|H]; congruence.
    * intros H; cbn. rewrite H. reflexivity.
- subst gn. repeat split; try reflexivity.
  + left; exact Es.
  + intros H; cbn. rewrite H. reflexivity.
Qed.

Arguments body_fallback {b g} _ _ _.

(** A reload from a state where the flags select [b]. *)
Lemma reload_inv b g :
  only b g -> (available w b = true /\ quiet b g \/ v_force_backend g = true) -> log_handlers g <= 1 ->
  let g' := reload_package w g in
  inv g' /\ g_BACKEND g' = eff w b /\ v_use32 g' = v_use32 g /\ log_level g' = WARNING /\
  v_force_backend g' = v_force_backend g /\ (gpu_quiet g -> v_gpu g' = v_gpu g).
Proof.
intros Ho Hcase Hh. cbn zeta. unfold reload_package.
set (g1 := body w exec_submodules g).
assert (H1 : only (eff w b) g1 /\ available w (eff w b) = true /\ quiet (eff w b) g1 /\
  v_force_backend g1 = v_force_backend g /\ v_use32 g1 = v_use32 g /\
  gpu_quiet g1 /\ (gpu_quiet g -> v_gpu g1 = v_gpu g)).
{ unfold eff. destruct (available w b) eqn:Ea.
  - assert (Hq : quiet b g) by (destruct Hcase as [[_ H]|H]; [exact H|left; exact H]).
    destruct (body_after Ho Ea Hq) as [A1 A2 A3 A4 A5 A6 A7 A8 A9 A10]. fold g1 in A1, A2, A6, A7, A8, A9.
    split; [exact A1|split; [exact Ea|split; [|split; [exact A7|split; [exact A6|split; [exact A8|]]]]]].
    + destruct Hq as [H|H]; [left; congruence|right; exact H].
    + intros H; exact (proj1 (A9 H)).
  - assert (Hf : v_force_backend g = true) by (destruct Hcase as [[H _]|H]; [discriminate|exact H]).
    destruct (body_fallback Ho Ea Hf) as (A1 & A2 & A3 & A4 & A5 & _). fold g1 in A1, A2, A3, A4, A5.
    split; [exact A1|split; [reflexivity|split; [left; exact A2|split; [congruence|auto]]]]. }
destruct H1 as (O1 & Av & Q1 & F1 & U1 & G1 & S1).
destruct (body_after O1 Av Q1) as [A1 A2 A3 A4 A5 A6 A7 A8 A9 A10].
set (g2 := body w exec_submodules g1) in *.
destruct (A9 G1) as [V2 D2].
assert (Hin : log_handlers (exec_submodules g2) = 1).
{ assert (Hb : forall x y, log_handlers y <= 1 -> (x = y \/ log_handlers x = 1) -> log_handlers x <= 1).
  { intros x y Hy [-> | ->]; lia. }
  cbn. enough (log_handlers g2 <= 1) as H by (destruct (log_handlers g2) as [|[|n]]; [reflexivity|reflexivity|lia]).
  assert (Hbody : forall x, log_handlers x <= 1 -> log_handlers (body w exec_submodules x) <= 1).
  { clear. intros x Hx.
    assert (He : forall y, log_handlers y <= 1 -> log_handlers (exec_submodules y) <= 1).
    { intros y Hy; cbn. destruct (log_handlers y) as [|[|n]]; cbn; lia. }
    assert (Hsb : forall s y, log_handlers y <= 1 -> log_handlers (fst (set_backend exec_submodules s y)) <= 1).
    { intros s y Hy. unfold set_backend. destruct (backend_of s) as [b|]; [|exact Hy].
      destruct (backend_eqb b (get_backend (force_backend y))); [exact Hy|].
      destruct b; apply He; exact Hy. }
    assert (Hug : forall y, log_handlers y <= 1 -> log_handlers (use_gpu w exec_submodules true y) <= 1).
    { intros y Hy. unfold use_gpu. apply He.
      destruct (g_BACKEND y), (has_jax w), (has_torch w), (has_cuda w); exact Hy. }
    unfold body. cbv zeta.
    match goal with |- context [set_constants ?z] => set (x1 := z) end.
    assert (H1 : log_handlers (set_constants x1) <= 1).
    { change (log_handlers x1 <= 1). unfold x1.
      destruct (get_backend x); try exact Hx.
      - destruct (has_jax w); [exact Hx|apply Hsb, Hx].
      - destruct (has_torch w); [exact Hx|apply Hsb, Hx]. }
    match goal with |- context [v_force_gpu ?z] => set (x2 := z) end.
    assert (H2 : log_handlers x2 <= 1).
    { unfold x2. destruct (env_backend w); [|exact H1]. destruct (backend_of s); [|exact H1].
      destruct (_ && _)%bool; [apply Hsb|]; exact H1. }
    destruct (env_gpu w); [|exact H2]. destruct (v_force_gpu x2); [exact H2|apply Hug, H2]. }
  apply Hbody, Hbody, Hh. }
assert (Q2 : quiet (eff w b) g2).
{ destruct Q1 as [H|H]; [left; congruence|right; exact H]. }
split; [|split; [exact A2|split; [change (v_use32 g2 = v_use32 g); congruence|split; [reflexivity|split]]]].
- constructor; try reflexivity; try (change (g_BACKEND (exec_submodules g2)) with (g_BACKEND g2); rewrite A2);
    try assumption.
  + change (g_32 g2 = v_use32 g2). congruence.
  + change (g_DEVICE_cuda g2 = v_gpu g2). congruence.
- change (v_force_backend g2 = v_force_backend g). congruence.
- intros H. change (v_gpu g2 = v_gpu g). rewrite V2. apply S1, H.
Qed.

Arguments reload_inv {b g} _ _ _.

(** ** The user's calls *)
Lemma only_flags b g :
  only b (match b with
          | Autograd => set_flags g false true false false (v_numpy g)
          | Scipy => set_flags g true false false false (v_numpy g)
          | Jax => set_flags g false false true false (v_numpy g)
          | Torch => set_flags g false false false true (v_numpy g)
          | Numpy => set_flags g false false false false true
          end).
Proof. destruct b; cbn; auto. Qed.

Lemma eff_avail b : available w b = true -> eff w b = b.
Proof. unfold eff; intros ->; reflexivity. Qed.

Lemma set_backend_inv s g : inv g ->
  let g' := fst (set_backend (reload_package w) s g) in
  inv g' /\ g_BACKEND g' = wanted_step w (g_BACKEND g) (SetBackend s) /\ v_use32 g' = v_use32 g /\
  v_gpu g' = v_gpu g /\
  snd (set_backend (reload_package w) s g) = match backend_of s with Some _ => Ok tt | None => Err ValueError end /\
  (backend_of s = None \/ backend_of s = Some (g_BACKEND g) -> log_level g' = log_level g) /\
  (forall b, backend_of s = Some b -> b <> g_BACKEND g -> log_level g' = WARNING).
Proof.
intros I. cbn zeta. unfold set_backend, wanted_step.
assert (If : inv (force_backend g)).
{ destruct I. constructor; try assumption. left; reflexivity. }
assert (Eg : get_backend (force_backend g) = g_BACKEND g) by (exact (only_get (i_only I))).
destruct (backend_of s) as [b|] eqn:Es.
2:{ cbn [fst snd]. split; [exact If|]. repeat split; discriminate. }
rewrite Eg. destruct (backend_eqb b (g_BACKEND g)) eqn:Eb; cbn [fst snd].
- apply backend_eqb_eq in Eb. subst b.
  split; [exact If|split; [cbn; rewrite (eff_avail _ (i_avail I)); reflexivity|]].
  repeat split. intros b Hb Hn. congruence.
- assert (Hne : b <> g_BACKEND g) by (intros ->; rewrite backend_eqb_refl in Eb; discriminate).
  set (g1 := match b with Autograd => _ | _ => _ end).
  assert (Ho : only b g1) by (exact (only_flags b (force_backend g))).
  assert (Hf : v_force_backend g1 = true) by (unfold g1; destruct b; reflexivity).
  assert (Hh : log_handlers g1 <= 1) by (unfold g1; pose proof (i_handlers I); destruct b; cbn; lia).
  assert (Hg : gpu_quiet g1) by (unfold g1; pose proof (i_gpu I) as Hq; destruct b; exact Hq).
  destruct (reload_inv Ho (or_intror Hf) Hh) as (R1 & R2 & R3 & R4 & R5 & R6).
  split; [exact R1|split; [exact R2|split; [rewrite R3; unfold g1; destruct b; reflexivity|split;
    [rewrite (R6 Hg); unfold g1; destruct b; reflexivity|split; [reflexivity|split]]]]].
  + intros [H|H]; congruence.
  + intros b' _ _. exact R4.
Qed.

(** The device a call of [use_gpu] selects. *)
Definition can_gpu (b : backend) : bool :=
  match b with Torch => (has_torch w && has_cuda w)%bool | Jax => has_jax w | _ => false end.

Lemma use_gpu_inv x g : inv g ->
  let g' := use_gpu w (reload_package w) x g in
  inv g' /\ g_BACKEND g' = g_BACKEND g /\ v_use32 g' = v_use32 g /\
  get_device g' = (x && can_gpu (g_BACKEND g))%bool /\ log_level g' = WARNING.
Proof.
intros I. cbn zeta. unfold use_gpu.
set (g1 := if x then _ else _).
assert (E : exists cpu cuda, g1 = set_device g (x && can_gpu (g_BACKEND g))%bool cpu true cuda).
{ unfold g1, can_gpu. destruct x; cbn [andb]; [|do 2 eexists; reflexivity].
  destruct (g_BACKEND g); try (do 2 eexists; reflexivity).
  - destruct (has_jax w); do 2 eexists; reflexivity.
  - destruct (has_torch w), (has_cuda w); do 2 eexists; reflexivity. }
destruct E as (cpu & cuda & E). rewrite E.
assert (Hq : gpu_quiet (set_device g (x && can_gpu (g_BACKEND g))%bool cpu true cuda)) by (right; reflexivity).
assert (Ho : only (g_BACKEND g) (set_device g (x && can_gpu (g_BACKEND g))%bool cpu true cuda)) by (exact (i_only I)).
assert (Hh : log_handlers (set_device g (x && can_gpu (g_BACKEND g))%bool cpu true cuda) <= 1).
{ pose proof (i_handlers I). cbn; lia. }
destruct (reload_inv Ho (or_introl (conj (i_avail I) (i_quiet I))) Hh) as (R1 & R2 & R3 & R4 & R5 & R6).
split; [exact R1|split; [rewrite R2; apply eff_avail, (i_avail I)|split; [exact R3|split; [|exact R4]]]].
exact (R6 Hq).
Qed.

Lemma use_32_inv x g : inv g ->
  let g' := use_32_bit (reload_package w) x g in
  inv g' /\ g_BACKEND g' = g_BACKEND g /\ v_use32 g' = x /\ get_device g' = get_device g /\ log_level g' = WARNING.
Proof.
intros I. cbn zeta. unfold use_32_bit.
assert (Hh : log_handlers (set_32 g x) <= 1) by (pose proof (i_handlers I); cbn; lia).
assert (Ho : only (g_BACKEND g) (set_32 g x)) by (exact (i_only I)).
destruct (reload_inv Ho (or_introl (conj (i_avail I) (i_quiet I))) Hh) as (R1 & R2 & R3 & R4 & R5 & R6).
split; [exact R1|split; [rewrite R2; apply eff_avail, (i_avail I)|split; [exact R3|split; [|exact R4]]]].
exact (R6 (i_gpu I)).
Qed.

Lemma log_inv s g : inv g ->
  let g' := fst (set_log_level g s) in
  inv g' /\ g_BACKEND g' = g_BACKEND g /\ v_use32 g' = v_use32 g /\ get_device g' = get_device g /\
  log_level g' = match level_of s with Some l => l | None => log_level g end.
Proof.
intros I. cbn zeta. unfold set_log_level. destruct (level_of s) as [l|]; cbn [fst].
- split; [|repeat split].
  destruct I. constructor; try assumption. cbn. rewrite i_handlers0. reflexivity.
- split; [exact I|repeat split].
Qed.

Lemma call_inv g c : inv g ->
  let g' := fst (do_call w g c) in
  inv g' /\ g_BACKEND g' = wanted_step w (g_BACKEND g) c /\ v_use32 g' = bits_step (v_use32 g) c.
Proof.
intros I. destruct c as [s|b|b|s]; cbn [do_call fst].
- destruct (set_backend_inv s I) as (H1 & H2 & H3 & _). auto.
- destruct (use_gpu_inv b I) as (H1 & H2 & H3 & _). auto.
- destruct (use_32_inv b I) as (H1 & H2 & H3 & _). auto.
- destruct (log_inv s I) as (H1 & H2 & H3 & _). auto.
Qed.

Lemma run_inv cs g : inv g ->
  let g' := run w g cs in
  inv g' /\ g_BACKEND g' = fold_left (wanted_step w) cs (g_BACKEND g) /\
  v_use32 g' = fold_left bits_step cs (v_use32 g).
Proof.
revert g. induction cs as [|c cs IH]; intros g I; [auto|].
destruct (call_inv c I) as (H1 & H2 & H3).
destruct (IH _ H1) as (K1 & K2 & K3). cbn [run fold_left] in *.
split; [exact K1|]. rewrite <- H2, <- H3. auto.
Qed.

(** ** The first import *)
Lemma only_blank : only Numpy (install_level blank WARNING).
Proof. repeat split. Qed.

Lemma inv_exec g : inv g -> inv (exec_submodules g).
Proof. intros []. constructor; try assumption; try reflexivity. cbn. rewrite i_handlers0. reflexivity. Qed.

(** A state that satisfies everything the submodules do not fix. *)
Record preinv (g : globals) : Prop := PreInv {
  p_only : only (g_BACKEND g) g;
  p_avail : available w (g_BACKEND g) = true;
  p_module : g_module g = lib_of (g_BACKEND g);
  p_grad : g_grad g = grad_of (g_BACKEND g);
  p_32 : g_32 g = v_use32 g;
  p_device : g_DEVICE_cuda g = v_gpu g;
  p_quiet : quiet (g_BACKEND g) g;
  p_gpu : gpu_quiet g;
  p_handlers : log_handlers g <= 1 }.

Lemma preinv_exec g : preinv g -> inv (exec_submodules g).
Proof.
intros []. constructor; try assumption; try reflexivity. cbn.
destruct (log_handlers g) as [|[|n]]; [reflexivity|reflexivity|lia].
Qed.
Lemma inv_preinv g : inv g -> preinv g.
Proof. intros []. constructor; try assumption. rewrite i_handlers0. constructor. Qed.

Lemma import_inv :
  let g := import w in
  inv g /\ g_BACKEND g = wanted_at_import w /\ v_use32 g = false /\ log_level g = WARNING /\
  get_device g = (match env_gpu w with Some _ => true | None => false end && can_gpu (g_BACKEND g))%bool.
Proof.
cbn zeta. unfold import. set (g0 := install_level blank WARNING).
assert (O0 : only Numpy g0) by apply only_blank.
enough (H : let g := body w (reload_package w) g0 in
   preinv g /\ g_BACKEND g = wanted_at_import w /\ v_use32 g = false /\
   v_gpu g = (match env_gpu w with Some _ => true | None => false end && can_gpu (g_BACKEND g))%bool).
{ cbn zeta in H. destruct H as (H1 & H2 & H3 & H4). split; [apply preinv_exec, H1|].
  split; [exact H2|split; [exact H3|split; [reflexivity|exact H4]]]. }
cbn zeta.
(* the end of the body, from a state where only the GPU variable is pending *)
assert (Hend : forall b g3, preinv (set_device g3 (v_gpu g3) (v_cpu g3) true (g_DEVICE_cuda g3)) ->
   g_BACKEND g3 = b -> v_use32 g3 = false -> v_gpu g3 = false -> v_force_gpu g3 = false ->
   let g := match env_gpu w with
     | Some _ => if v_force_gpu g3 then g3 else use_gpu w (reload_package w) true g3
     | None => g3 end in
   preinv g /\ g_BACKEND g = b /\ v_use32 g = false /\
   v_gpu g = (match env_gpu w with Some _ => true | None => false end && can_gpu b)%bool).
{ intros b g3 P Hb Hu Hgpu Hfg. cbn zeta. destruct (env_gpu w) as [s|] eqn:Es.
  - rewrite Hfg. unfold use_gpu.
    set (g4 := match g_BACKEND g3 with Torch => _ | _ => _ end).
    assert (E : exists cpu cuda, g4 = set_device g3 (can_gpu b) cpu true cuda).
    { unfold g4, can_gpu. rewrite Hb. destruct b; try (do 2 eexists; reflexivity).
      - destruct (has_jax w); do 2 eexists; reflexivity.
      - destruct (has_torch w), (has_cuda w); do 2 eexists; reflexivity. }
    destruct E as (cpu & cuda & ->).
    assert (Ho : only b (set_device g3 (can_gpu b) cpu true cuda)).
    { pose proof (p_only P) as H. cbn [g_BACKEND set_device] in H. rewrite Hb in H. exact H. }
    assert (Ha : available w b = true) by (rewrite <- Hb; exact (p_avail P)).
    assert (Hq : quiet b (set_device g3 (can_gpu b) cpu true cuda)).
    { pose proof (p_quiet P) as H. cbn [g_BACKEND set_device] in H. rewrite Hb in H. exact H. }
    destruct (reload_inv Ho (or_introl (conj Ha Hq)) (p_handlers P)) as (R1 & R2 & R3 & _ & _ & R6).
    split; [apply inv_preinv, R1|split; [rewrite R2; apply eff_avail, Ha|split; [rewrite R3; exact Hu|]]].
    rewrite R6; [reflexivity|right; reflexivity].
  - split; [|split; [exact Hb|split; [exact Hu|exact Hgpu]]].
    destruct P. constructor; try assumption. left; exact Es. }
unfold body. cbv zeta.
change (get_backend g0) with Numpy. cbn [fst].
set (g2 := set_constants (set_module g0 MNumpy false)).
assert (P2 : env_quiet Numpy -> preinv (set_device g2 (v_gpu g2) (v_cpu g2) true (g_DEVICE_cuda g2))).
{ intros Hq. constructor; try reflexivity; try (right; exact Hq); try (right; reflexivity); try (repeat split; fail); cbn; try lia. }
destruct (env_backend w) as [s|] eqn:Es.
2:{ assert (Hw : wanted_at_import w = Numpy) by (unfold wanted_at_import; rewrite Es; reflexivity).
  rewrite Hw.
  destruct (Hend Numpy g2 (P2 ltac:(intros s b H; congruence)) eq_refl eq_refl eq_refl eq_refl) as (A & B & C & D).
  split; [exact A|split; [exact B|split; [exact C|]]].
  etransitivity; [exact D|f_equal; f_equal; symmetry; exact B]. }
destruct (backend_of s) as [b|] eqn:Eb.
2:{ assert (Hw : wanted_at_import w = Numpy) by (unfold wanted_at_import; rewrite Es, Eb; reflexivity).
  rewrite Hw.
  destruct (Hend Numpy g2 (P2 ltac:(intros s' b H; congruence)) eq_refl eq_refl eq_refl eq_refl) as (A & B & C & D).
  split; [exact A|split; [exact B|split; [exact C|]]].
  etransitivity; [exact D|f_equal; f_equal; symmetry; exact B]. }
assert (Hw : wanted_at_import w = eff w b) by (unfold wanted_at_import; rewrite Es, Eb; reflexivity).
rewrite Hw.
change (g_BACKEND g2) with Numpy. change (v_force_backend g2) with false. cbn [negb]. rewrite andb_true_r.
destruct (available w b) eqn:Ea; cbn [andb].
2:{ unfold eff; rewrite Ea.
  destruct (Hend Numpy g2 (P2 ltac:(intros s' b' H H' H''; congruence)) eq_refl eq_refl eq_refl eq_refl) as (A & B & C & D).
  split; [exact A|split; [exact B|split; [exact C|]]].
  etransitivity; [exact D|f_equal; f_equal; symmetry; exact B]. }
rewrite (eff_avail _ Ea).
destruct (backend_eqb Numpy b) eqn:En; cbn [negb].
{ apply backend_eqb_eq in En. subst b.
  destruct (Hend Numpy g2 (P2 ltac:(intros s' b' H H' H''; congruence)) eq_refl eq_refl eq_refl eq_refl) as (A & B & C & D).
  split; [exact A|split; [exact B|split; [exact C|]]].
  etransitivity; [exact D|f_equal; f_equal; symmetry; exact B]. }
(* the environment variable selects the backend: a reload *)
unfold set_backend. rewrite Eb.
change (get_backend (force_backend g2)) with Numpy.
assert (En' : backend_eqb b Numpy = false) by (destruct b; try reflexivity; discriminate).
rewrite En'. cbn [fst].
set (g3 := match b with Autograd => _ | _ => _ end).
assert (Ho : only b g3) by (exact (only_flags b (force_backend g2))).
assert (Hf : v_force_backend g3 = true) by (unfold g3; destruct b; reflexivity).
assert (Hh : log_handlers g3 <= 1) by (unfold g3; destruct b; cbn; lia).
assert (F3 : v_force_gpu g3 = false /\ v_gpu g3 = false /\ v_use32 g3 = false) by (unfold g3; destruct b; repeat split).
destruct F3 as (F3 & G3 & U3).
assert (Hq3 : quiet b g3) by (left; exact Hf).
destruct (reload_inv Ho (or_intror Hf) Hh) as (R1 & R2 & R3 & R4 & R5 & R6).
rewrite (eff_avail _ Ea) in R2.
(* the device chosen during the reload *)
assert (Hdev : v_gpu (reload_package w g3) = (match env_gpu w with Some _ => true | None => false end && can_gpu b)%bool
   /\ (env_gpu w <> None -> v_force_gpu (reload_package w g3) = true)).
{ split.
  2:{ intros Hn. destruct (i_gpu R1) as [H|H]; [congruence|exact H]. }
  destruct (env_gpu w) as [sg|] eqn:Eg; [|rewrite R6; [exact G3|left; exact Eg]].
  unfold reload_package. rewrite (body_quiet _ Ho Ea Hq3), Eg, F3. unfold use_gpu.
  change (g_BACKEND (plain b g3)) with (get_backend g3). rewrite (only_get Ho).
  set (g4 := match b with Torch => _ | _ => _ end).
  assert (E : exists cpu cuda, g4 = set_device (plain b g3) (can_gpu b) cpu true cuda).
  { unfold g4, can_gpu. destruct b; try (do 2 eexists; reflexivity).
    - destruct (has_jax w); do 2 eexists; reflexivity.
    - destruct (has_torch w), (has_cuda w); do 2 eexists; reflexivity. }
  destruct E as (cpu & cuda & ->).
  set (g5 := exec_submodules (set_device (plain b g3) (can_gpu b) cpu true cuda)).
  assert (O5 : only b g5) by (exact Ho).
  assert (Q5 : quiet b g5) by (left; exact Hf).
  destruct (a_same (body_after O5 Ea Q5)) as [H _]; [right; reflexivity|].
  cbn [v_gpu exec_submodules]. change (v_gpu (body w exec_submodules g5) = can_gpu b). rewrite H. reflexivity. }
destruct Hdev as (D1 & D2).
destruct (env_gpu w) as [sg|] eqn:Eg.
- rewrite D2 by discriminate. split; [apply inv_preinv, R1|split; [exact R2|split; [congruence|]]].
  rewrite D1, R2. reflexivity.
- split; [apply inv_preinv, R1|split; [exact R2|split; [congruence|]]]. rewrite D1. reflexivity.
Qed.

End P.

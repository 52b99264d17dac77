(** State model of Simulation and Layer objects: what the methods cache on them.

    Layer objects live on a heap (they are shared by reference between
    simulations and by Layer.copy); a Simulation holds references to layers, the
    flag is_solved, the attribute S and the dictionary _intermediate_S.

    The numerical functions are section variables here; State_Instance plugs in
    those of Sim_Model.  Every method returns the new state with the result, so
    that what was stored before an exception stays stored. *)
From Coq Require Import List ZArith Bool Arith.
From Verif Require Import Base Init_Model.
Import ListNotations.
Set Implicit Arguments.

Section State.
(** [P]: what Simulation.__init__ computes and no method changes (omega, kx, ky,
    harmonics, formulation, a0, bN, incident_flux; simulation.py:44-157).
    [T]: thickness; [E]: permittivity (mu = 1); [Pat]: the attributes matrix,
    Kmu, eps_hat, eps_hat_inv, mu_hat, mu_hat_inv, Keps, Peps that build_matrix
    sets together (simulation.py:692-700); [Q]: Qeps; [G]: eigenvalues and
    eigenvectors; [M]: a scattering matrix. *)
Variables (P T E Pat Q G M Amp Eff Zt Fld Str Cx : Type).

(** What the numerical code reads of a layer. *)
Record view := View { v_thick : T; v_eps : E; v_pat : option Pat; v_Q : option Q; v_G : option G }.

Variable unif : E -> bool.                         (* layers.py:245 is_uniform *)
Variable build_u : P -> E -> res Q.                (* build_matrix, uniform (606-629,702) *)
Variable build_p : P -> E -> res (Pat * Q).        (* build_matrix, patterned (630-703) *)
Variable modes_u : P -> E -> res G.                (* layers.py:119-174 *)
Variable modes_p : Pat -> res G.                   (* layers.py:176-213, not a copy *)
Variable S0 : P -> M.                              (* simulation.py:240-243 *)
Variable step : P -> view -> view -> M -> res M.   (* simulation.py:257-277 *)
Variable amp0 : P -> M -> Amp.                     (* 763-768 with 737-738 *)
Variable ampN : P -> M -> Amp.                     (* 763-768 with 740-741 *)
Variable ampI : P -> M -> M -> res Amp.            (* 757-760 *)
Variable eff : P -> view -> view -> M -> res Eff.  (* 472-481 *)
Variable fld : P -> view -> Zt -> Amp -> res Fld.  (* 308-328 *)
Variable str : P -> view -> Fld -> res Str.        (* 521-557 *)
Variable cx : P -> view -> view -> Fld -> Fld -> res Cx.   (* 495-516 *)
Variable z0 : Zt.                                  (* the default z=0 *)

(** ** Layer objects (layers.py:48-74; copies: layers.py:215-231) *)
Record lobj := LObj {
  o_thick : T; o_eps : E;
  o_copy_of : option nat;           (* iscopy / original *)
  o_pat : option Pat; o_Q : option Q; o_G : option G }.

Definition heap := nat -> lobj.
Definition upd (h : heap) (a : nat) (o : lobj) : heap :=
  fun b => if Nat.eqb b a then o else h b.

(** The normalised view: the numerical code never reads the patterned attributes
    of a uniform layer. *)
Definition look (h : heap) (a : nat) : view :=
  let o := h a in
  View (o_thick o) (o_eps o) (if unif (o_eps o) then None else o_pat o) (o_Q o) (o_G o).

Definition set_built (o : lobj) (p : option Pat) (q : option Q) : lobj :=
  LObj (o_thick o) (o_eps o) (o_copy_of o) p q (o_G o).
Definition set_modes (o : lobj) (g : G) : lobj :=
  LObj (o_thick o) (o_eps o) (o_copy_of o) (o_pat o) (o_Q o) (Some g).

(** simulation.py:588-708 [build_matrix] of the layer at [a].  [self.get_layer]
    of a layer object looks its name up and finds the object itself, names being
    distinct (C14). *)
Definition build (p : P) (h : heap) (a : nat) : heap * res unit :=
  let o := h a in
  match o_copy_of o with
  | Some b =>                                            (* 592-602 *)
      match o_pat (h b) with
      | None => (h, Err AttributeError)
      | Some m =>
          match o_Q (h b) with
          | None => (upd h a (set_built o (Some m) (o_Q o)), Err AttributeError)
          | Some q => (upd h a (set_built o (Some m) (Some q)), Ok tt)
          end
      end
  | None =>
      if unif (o_eps o) then
        match build_u p (o_eps o) with
        | Err e => (h, Err e)
        | Ok q => (upd h a (set_built o (o_pat o) (Some q)), Ok tt)
        end
      else
        match build_p p (o_eps o) with
        | Err e => (h, Err e)
        | Ok (m, q) => (upd h a (set_built o (Some m) (Some q)), Ok tt)
        end
  end.

(** simulation.py:188-191 with layers.py:119-213 *)
Definition modes (p : P) (h : heap) (a : nat) : heap * res unit :=
  let o := h a in
  if unif (o_eps o) then
    match modes_u p (o_eps o) with
    | Err e => (h, Err e)
    | Ok g => (upd h a (set_modes o g), Ok tt)
    end
  else
    match o_pat o with
    | None => (h, Err AttributeError)
    | Some m =>
        match o_copy_of o with
        | Some b =>                                      (* layers.py:191-195 *)
            match o_G (h b) with
            | None => (h, Err AttributeError)
            | Some g => (upd h a (set_modes o g), Ok tt)
            end
        | None =>
            match modes_p m with
            | Err e => (h, Err e)
            | Ok g => (upd h a (set_modes o g), Ok tt)
            end
        end
    end.

Definition solve_one (p : P) (h : heap) (a : nat) : heap * res unit :=
  match build p h a with
  | (h1, Err e) => (h1, Err e)
  | (h1, Ok _) => modes p h1 a
  end.

Fixpoint solve_all (p : P) (h : heap) (ls : list nat) : heap * res unit :=
  match ls with
  | [] => (h, Ok tt)
  | a :: t =>
      match solve_one p h a with
      | (h1, Err e) => (h1, Err e)
      | (h1, Ok _) => solve_all p h1 t
      end
  end.

(** ** Simulation objects *)
Record sim := Sim {
  s_layers : list nat; s_par : P;
  s_solved : bool;                   (* is_solved, set in __init__ and solve *)
  s_S : option M;                    (* the attribute S *)
  s_cache : Z -> Z -> option M }.    (* _intermediate_S, key "a,i" *)

Definition empty_cache : Z -> Z -> option M := fun _ _ => None.
Definition cache_set (c : Z -> Z -> option M) (a i : Z) (m : M) : Z -> Z -> option M :=
  fun a' i' => if (Z.eqb a' a && Z.eqb i' i)%bool then Some m else c a' i'.

(** A Simulation just after __init__ (simulation.py:84,157). *)
Definition new_sim (p : P) (ls : list nat) : sim := Sim ls p false None empty_cache.

(** The state a method works on: the heap and its own Simulation object. *)
Definition st := (heap * sim)%type.
Definition act (A : Type) := st -> st * res A.
Definition ret A (a : A) : act A := fun s => (s, Ok a).
Definition fail A (e : exn) : act A := fun s => (s, Err e).
Definition lift A (r : res A) : act A := fun s => (s, r).
Definition seqa A B (m : act A) (f : A -> act B) : act B := fun s =>
  match m s with
  | (s', Ok a) => f a s'
  | (s', Err e) => (s', Err e)
  end.
Notation "'do' x '<-' m 'in' b" := (seqa m (fun x => b))
  (at level 200, x pattern, m at level 100, b at level 200).

Definition par : act P := fun s => (s, Ok (s_par (snd s))).
Definition layer_at (i : Z) : act nat := fun s => (s, pynth (s_layers (snd s)) i).
Definition see (a : nat) : act view := fun s => (s, Ok (look (fst s) a)).

(** simulation.py:179-207 [solve] *)
Definition solve : act unit := fun s =>
  let (h, m) := s in
  match solve_all (s_par m) h (s_layers m) with
  | (h1, Err e) => ((h1, m), Err e)
  | (h1, Ok _) => ((h1, Sim (s_layers m) (s_par m) true (s_S m) (s_cache m)), Ok tt)
  end.

Definition ensure_solved : act unit := fun s =>
  if s_solved (snd s) then (s, Ok tt) else solve s.

Definition store (a i : Z) (x : M) : act unit := fun s =>
  let (h, m) := s in
  ((h, Sim (s_layers m) (s_par m) (s_solved m) (s_S m) (cache_set (s_cache m) a i x)), Ok tt).

(** simulation.py:256-278: the loop over the interfaces [i] of the range starting
    at [a]; each partial product is stored, also when a later turn raises. *)
Fixpoint s_loop (a : Z) (x : M) (is : list Z) : act M :=
  match is with
  | [] => ret x
  | i :: t =>
      do l <- layer_at i in
      do l' <- layer_at (i + 1) in
      do v <- see l in
      do v' <- see l' in
      do p <- par in
      do y <- lift (step p v v' x) in
      do _ <- store a i y in
      s_loop a y t
  end.

(** Python's range(a, b) *)
Definition zrange (a b : Z) : list Z := map (fun k => (a + Z.of_nat k)%Z) (seq 0 (Z.to_nat (b - a))).

(** simulation.py:219-284.  An empty range makes [stack[0]] raise (caught by
    [except Exception]), the loop does nothing and [S] is unbound. *)
Definition get_S_range (a b : Z) : act M := fun s =>
  match zrange a b with
  | [] => fail M UnboundLocalError s
  | (_ :: _) as is =>
      match s_cache (snd s) a (b - 1) with
      | Some x => (s, Ok x)
      | None => (do p <- par in s_loop a (S0 p) is) s
      end
  end.

Definition set_S (x : M) : act unit := fun s =>
  let (h, m) := s in ((h, Sim (s_layers m) (s_par m) (s_solved m) (Some x) (s_cache m)), Ok tt).

Definition n_layers : act Z := fun s => (s, Ok (Z.of_nat (length (s_layers (snd s))))).

Definition get_S (ix : option (Z * Z)) : act M :=
  do _ <- ensure_solved in
  match ix with
  | Some (a, b) => get_S_range a b
  | None =>
      do n <- n_layers in
      do x <- get_S_range 0 (n - 1) in
      do _ <- set_S x in
      ret x
  end.

(** [if not hasattr(self, "S"): self.get_S_matrix()] then [self.S] *)
Definition the_S : act M := fun s =>
  match s_S (snd s) with
  | Some x => (s, Ok x)
  | None => get_S None s
  end.

(** layers.py:295-300: an integer id indexes the list and is returned as it is. *)
Definition layer_int (i : Z) : act nat := layer_at i.

(** simulation.py:731-761, translate=False *)
Definition amplitudes (i : Z) : act Amp :=
  do _ <- layer_int i in
  do n <- n_layers in
  do p <- par in
  if (i =? 0)%Z then do x <- the_S in ret (amp0 p x)
  else if ((i =? n - 1) || (i =? -1))%bool%Z then do x <- the_S in ret (ampN p x)
  else
    do x <- get_S (Some (0%Z, i)) in
    do y <- get_S (Some (i, n - 1)%Z) in
    lift (ampI p x y).

(** simulation.py:300-333, one value of z *)
Definition field (i : Z) (z : Zt) : act Fld :=
  do a <- layer_int i in
  do _ <- ensure_solved in
  do w <- amplitudes i in
  do v <- see a in
  do p <- par in
  lift (fld p v z w).

(** simulation.py:441-481, complex=False (the two get_z_poynting_flux calls
    begin with [if not self.is_solved: self.solve()], 287) *)
Definition efficiencies : act Eff :=
  do _ <- the_S in
  do x <- the_S in
  do a <- layer_at 0 in
  do _ <- ensure_solved in
  do b <- layer_at (-1) in
  do v <- see a in
  do v' <- see b in
  do p <- par in
  lift (eff p v v' x).

(** simulation.py:464-468,494-516, complex=True; [iN] and [i0] are the positions
    of the layers named "Substrate" and "Superstrate" *)
Definition complex_orders (iN i0 : nat) : act Cx :=
  do _ <- the_S in
  do t <- field (Z.of_nat iN) z0 in
  do b <- field (Z.of_nat i0) z0 in
  do a <- layer_at 0 in
  do a' <- layer_at (-1) in
  do v <- see a in
  do v' <- see a' in
  do p <- par in
  lift (cx p v v' t b).

(** simulation.py:518-557 *)
Definition stress (i : Z) (z : Zt) : act Str :=
  do a <- layer_int i in
  do f <- field i z in
  do v <- see a in
  do p <- par in
  lift (str p v f).

(** ** Queries and answers *)
Inductive query :=
| QSolve | QS (ix : option (Z * Z)) | QAmp (i : Z) | QField (i : Z) (z : Zt)
| QEff | QComplex (iN i0 : nat) | QStress (i : Z) (z : Zt).
Inductive answer :=
| ADone | AS (x : M) | AAmp (x : Amp) | AField (x : Fld) | AEff (x : Eff) | ACx (x : Cx)
| AStr (x : Str).

Definition amap A B (f : A -> B) (m : act A) : act B := do x <- m in ret (f x).

Definition ask (q : query) : act answer :=
  match q with
  | QSolve => amap (fun _ => ADone) solve
  | QS ix => amap AS (get_S ix)
  | QAmp i => amap AAmp (amplitudes i)
  | QField i z => amap AField (field i z)
  | QEff => amap AEff efficiencies
  | QComplex iN i0 => amap ACx (complex_orders iN i0)
  | QStress i z => amap AStr (stress i z)
  end.

(** simulation.py:209-217 [reset]; any other argument does nothing. *)
Inductive reset_arg := RAll | RS | RSolve | ROther.
Definition reset_S (m : sim) := Sim (s_layers m) (s_par m) (s_solved m) None empty_cache.
Definition reset_solve (m : sim) := Sim (s_layers m) (s_par m) false (s_S m) (s_cache m).
Definition reset (r : reset_arg) (m : sim) : sim :=
  match r with
  | RAll => reset_solve (reset_S m)
  | RS => reset_S m
  | RSolve => reset_solve m
  | ROther => m
  end.

(** ** The whole program: a heap of layers and any number of simulations *)
Record world := World { w_heap : heap; w_sims : nat -> sim }.

Definition upd_sim (f : nat -> sim) (k : nat) (m : sim) : nat -> sim :=
  fun j => if Nat.eqb j k then m else f j.

Inductive op :=
| OAsk (k : nat) (q : query)
| OReset (k : nat) (r : reset_arg)
| OThick (a : nat) (t : T)               (* layer.thickness = t *)
| OEps (a : nat) (e : E)                 (* layer.epsilon = e *)
| OLayerReset (a : nat)                  (* layers.py:109-117 layer.reset() *)
| OCopy (a c : nat)                      (* c = a.copy(), layers.py:215-231 *)
| ONew (k : nat) (p : P) (ls : list nat) (* k = Simulation(...) *).

(** layers.py:109-117: deletes the eigenvalues, the eigenvectors and matrix *)
Definition layer_reset (o : lobj) : lobj :=
  LObj (o_thick o) (o_eps o) (o_copy_of o) None (o_Q o) None.

Definition exec (o : op) (w : world) : world * option (res answer) :=
  let h := w_heap w in
  match o with
  | OAsk k q =>
      match ask q (h, w_sims w k) with
      | ((h1, m1), r) => (World h1 (upd_sim (w_sims w) k m1), Some r)
      end
  | OReset k r => (World h (upd_sim (w_sims w) k (reset r (w_sims w k))), None)
  | OThick a t =>
      let o := h a in
      (World (upd h a (LObj t (o_eps o) (o_copy_of o) (o_pat o) (o_Q o) (o_G o))) (w_sims w), None)
  | OEps a e =>
      let o := h a in
      (World (upd h a (LObj (o_thick o) e (o_copy_of o) (o_pat o) (o_Q o) (o_G o))) (w_sims w), None)
  | OLayerReset a => (World (upd h a (layer_reset (h a))) (w_sims w), None)
  | OCopy a c =>
      let o := h a in
      (World (upd h c (LObj (o_thick o) (o_eps o) (Some a) (o_pat o) (o_Q o) (o_G o))) (w_sims w), None)
  | ONew k p ls => (World h (upd_sim (w_sims w) k (new_sim p ls)), None)
  end.

Fixpoint run (os : list op) (w : world) : world * list (option (res answer)) :=
  match os with
  | [] => (w, [])
  | o :: t => let (w1, r) := exec o w in let (w2, rs) := run t w1 in (w2, r :: rs)
  end.

End State.

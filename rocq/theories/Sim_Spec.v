(** Specification vocabulary for the scattering problem, independent of the
    S-matrix recursion: modal fields, continuity, solutions of a stack. *)
From Coq Require Import Reals ZArith.
From mathcomp Require Import all_ssreflect all_algebra.
From mathcomp Require Import complex.
From Verif Require Import RStruct Cplx Base Fourier_Model Sim_Model.

Set Implicit Arguments.
Unset Strict Implicit.
Unset Printing Implicit Defensive.

Import Order.TTheory GRing.Theory Num.Theory.
Local Open Scope ring_scope.
Local Open Scope complex_scope.

Section Spec.
Variable nh : nat.
Variable omega : R.
Notation n2 := (nh + nh)%N.
Notation slayer := (slayer nh).
Notation amp := (amp nh).

(** Coefficients at height z of the forward wave (phase origin z = 0) and of the
    backward wave (phase origin z = thickness) of mode m. *)
Definition fwd (l : slayer) (z : R) (p : amp) (m : 'I_n2) : C :=
  p.1 m ord0 * cexp ('i * sl_q l ord0 m * rc z).
Definition bwd (l : slayer) (z : R) (p : amp) (m : 'I_n2) : C :=
  p.2 m ord0 * cexp ('i * sl_q l ord0 m * rc (thick0 l - z)).

(** Tangential magnetic field (hx,hy) at height z: a superposition of modes. *)
Definition mode_H (l : slayer) (z : R) (p : amp) : 'cV[C]_n2 :=
  \sum_m (fwd l z p m + bwd l z p m) *: col m (sl_phi l).

(** Tangential electric field (-ey,ex) at height z. *)
Definition mode_E (l : slayer) (z : R) (p : amp) : 'cV[C]_n2 :=
  \sum_m ((fwd l z p m - bwd l z p m) / (rc omega * sl_q l ord0 m))
          *: (sl_Qeps l *m col m (sl_phi l)).

(** Tangential fields match at the interface between consecutive layers. *)
Definition matched (l l' : slayer) (p p' : amp) : Prop :=
  mode_H l (thick0 l) p = mode_H l' 0 p' /\
  mode_E l (thick0 l) p = mode_E l' 0 p'.

(** One amplitude pair per layer, matched at every interface. *)
Fixpoint chain (l : slayer) (p : amp) (ls : seq slayer) (ps : seq amp) : Prop :=
  match ls, ps with
  | [::], [::] => True
  | l' :: ls', p' :: ps' => matched l l' p p' /\ chain l' p' ls' ps'
  | _, _ => False
  end.

Definition is_solution (ls : seq slayer) (ps : seq amp) : Prop :=
  match ls, ps with
  | l :: ls', p :: ps' => chain l p ls' ps'
  | _, _ => False
  end.

(** The scattering problem of a stack: given incoming amplitudes on both sides. *)
Definition solves (ls : seq slayer) (a0 bN : 'cV[C]_n2) (ps : seq amp) : Prop :=
  is_solution ls ps /\
  (head (0, 0) ps).1 = a0 /\ (last (0, 0) ps).2 = bN.

(** A non-zero solution without incoming waves (the boundary problem of the
    stack is degenerate). *)
Definition degenerate (ls : seq slayer) : Prop :=
  exists ps, solves ls 0 0 ps /\ exists p, p \in ps /\ p != (0, 0).

End Spec.

(** Two computations agree: same result, or both raise. *)
Definition same_outcome (A : Type) (r r' : res A) : Prop :=
  match r, r' with Ok a, Ok b => a = b | Err _, Err _ => True | _, _ => False end.

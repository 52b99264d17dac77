(** Supercells: p x q copies of the unit cell taken as one cell. *)
From Coq Require Import Reals ZArith.
From mathcomp Require Import all_ssreflect all_algebra.
From mathcomp Require Import complex.
From Verif Require Import RStruct Cplx Base Fourier_Model Sim_Model Setup_Model.

Set Implicit Arguments.
Unset Strict Implicit.
Unset Printing Implicit Defensive.

Import GRing.Theory.
Local Open Scope ring_scope.

Section Super.
Variables (Nx Ny Px Py : nat).

(** [u'] repeats [u]: point (x', y') holds the value of point (x' mod Nx, y' mod Ny). *)
Definition tiled (u : 'M[C]_(Nx, Ny)) (u' : 'M[C]_(Px, Py)) : Prop :=
  forall (x : 'I_Nx) (y : 'I_Ny) (x' : 'I_Px) (y' : 'I_Py),
    (x' %% Nx)%N = x -> (y' %% Ny)%N = y -> u' x' y' = u x y.

(** tangent fields of repeated patterns are repeated, too *)
Definition form_tiled (f : formulation_t Nx Ny) (f' : formulation_t Px Py) : Prop :=
  match f, f' with
  | Original, Original => True
  | Tangent1D, Tangent1D => True
  | TangentLike t, TangentLike t' => forall u u', tiled u u' ->
      match t u, t' u' with
      | Ok s, Ok s' => tiled s.1 s'.1 /\ tiled s.2 s'.2
      | Err e, Err e' => e' = e
      | _, _ => False
      end
  | _, _ => False
  end.

(** tensor patterns: only in formulations without a vector field *)
Definition eps_tiled (f : formulation_t Nx Ny) (e : eps_t Nx Ny) (e' : eps_t Px Py) : Prop :=
  match e, e' with
  | EpsUniform a, EpsUniform a' => a' = a
  | EpsTensorUniform a, EpsTensorUniform a' => a' = a
  | EpsGrid u, EpsGrid u' => tiled u u'
  | EpsTensorGrid u, EpsTensorGrid u' =>
      (forall i j, tiled (u i j) (u' i j)) /\ (if f is TangentLike _ then False else True)
  | _, _ => False
  end.

Definition layer_tiled f (l : layer_in Nx Ny) (l' : layer_in Px Py) : Prop :=
  li_thick l' = li_thick l /\ eps_tiled f (li_eps l) (li_eps l').
End Super.

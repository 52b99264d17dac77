(** C99: which supercells Simulation(...) accepts. *)
From Coq Require Import Reals ZArith String Lra Lia.
From Verif Require Lattice_Model Init_Model Argsort.
From mathcomp Require Import all_ssreflect all_algebra.
From mathcomp Require Import complex.
From Verif Require Import RStruct Cplx Base Fourier_Model Sim_Model Setup_Model E2E_Model Super_Spec Super_Proofs Props_Super.

Set Implicit Arguments.
Unset Strict Implicit.
Unset Printing Implicit Defensive.

(** p x q cells with the same wavevectors: basis, discretization and supplied
    harmonics are multiplied by p along the first axis and by q along the second *)
Definition super_pq (p q : nat) (l l' : Lattice_Model.lattice) : Prop :=
  [/\ Lattice_Model.lt_is1D l = false /\ Lattice_Model.lt_is1D l' = false,
      super_basis p q (Lattice_Model.lt_basis l) (Lattice_Model.lt_basis l'),
      Lattice_Model.lt_disc l' = ((Z.of_nat p * (Lattice_Model.lt_disc l).1)%Zc, (Z.of_nat q * (Lattice_Model.lt_disc l).2)%Zc) &
      exists2 H, Lattice_Model.lt_harm l = Some H &
        Lattice_Model.lt_harm l' = Some (List.map (fun o : order => ((Z.of_nat p * o.1)%Zc, (Z.of_nat q * o.2)%Zc)) H)].

Definition accepted argsort (l : Lattice_Model.lattice) layers nh form : Prop :=
  exists s, Init_Model.sim_init argsort (fun _ => l) layers nh form = Ok s.

(** The cell: 8 x 8 points, orders (0,0), (0,1), (0,-1). Four of them along the
    second axis: 8 x 32 points, orders (0,0), (0,4), (0,-4). *)
Definition wit (c : R) (n z : Z) : Lattice_Model.lattice :=
  Lattice_Model.lattice_2D (Lattice_Model.Mat2 1 0 0 c) true (8%Zc, n)
    (Some [:: (0, 0)%Zc; (0, z)%Zc; (0, - z)%Zc]).
Definition wit_layers : seq Init_Model.pylayer :=
  [:: Init_Model.PyLayer "sup" 0 true; Init_Model.PyLayer "gr" 0 false; Init_Model.PyLayer "sub" 0 true].

Lemma wit_sort : Argsort.isort [:: IZR 0; IZR 0; IZR 0] = [:: 0; 1; 2]%N.
Proof.
rewrite /Argsort.isort; cbn.
by do !(case: Rle_dec => ?; [cbn|exfalso; lra]).
Qed.

(** The largest index along either axis is compared with the number of points along
    both (simulation.py:97-102), so that more cells along one axis alone can be refused. *)
Theorem C99_accepted_refuted :
  exists p q l l' layers nh form,
    [/\ (0 < p)%N && (0 < q)%N, super_pq p q l l', accepted Argsort.isort l layers nh form &
        Init_Model.sim_init Argsort.isort (fun _ => l') layers nh form = Err ValueError].
Proof.
exists 1%N, 4%N, (wit 1 8 1), (wit 4 32 4), wit_layers, 3%Zc, "original"%string; split=> //.
- split=> //; last by eexists.
  by split; cbn; ring.
- rewrite /accepted /Init_Model.sim_init; cbn -[Argsort.isort Lattice_Model.reciprocal].
  rewrite wit_sort; cbn -[Lattice_Model.reciprocal].
  rewrite /Lattice_Model.reciprocal /Lattice_Model.inv2; case: Req_EM_T => h; last by eexists.
  by move: h; rewrite /Lattice_Model.det2; cbn; lra.
- rewrite /Init_Model.sim_init; cbn -[Argsort.isort Lattice_Model.reciprocal].
  by rewrite wit_sort.
Qed.

(** With as many cells along both axes: accepted exactly when one cell is. *)
Theorem C99_square_partial k argsort l l' layers nh form :
  (0 < k)%N -> scale_free k argsort -> super_pq k k l l' ->
  (accepted argsort l layers nh form <-> accepted argsort l' layers nh form).
Proof.
move=> k0 hs hl.
have := @init_sc k k0 argsort hs (fun _ => l) (fun _ => l') (fun _ => hl) layers nh form.
rewrite /accepted; case: (Init_Model.sim_init argsort (fun _ => l) _ _ _) => [s|e];
  case: (Init_Model.sim_init argsort (fun _ => l') _ _ _) => [s'|e'] //.
- by move=> _; split=> _; eexists.
- by move=> _; split=> [[]|[]].
Qed.

Example C99_case : super_pq 2 2 (case_lat 1 8 1) (case_lat 2 16 2) /\ scale_free 2 Argsort.isort.
Proof.
split; last exact: isort_scale_free.
split=> //; last by eexists.
by split; cbn; ring.
Qed.

Print Assumptions C99_accepted_refuted.
Print Assumptions C99_square_partial.

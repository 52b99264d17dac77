(** The constructor: what an accepted simulation looks like, and its independence of
    the way argsort breaks ties. *)
From Coq Require Import Reals ZArith String Bool List Lia Lra Permutation.
From Verif Require Import Base Lattice_Model Lattice_Spec Lattice_Proofs Lattice_Proofs2 Lattice_Proofs3
  Lattice_Proofs4 Init_Model Init_Proofs.
Import ListNotations.
Set Implicit Arguments.

Lemma max_entry_perm G1 G2 : Permutation G1 G2 -> max_entry G1 = max_entry G2.
Proof.
  intros hp. destruct (max_entry G1) as [m1|] eqn:E1, (max_entry G2) as [m2|] eqn:E2; auto.
  - f_equal. apply Z.le_antisymm.
    + destruct (max_entry_in _ E1) as [o [ho e]]. apply (Permutation_in _ hp) in ho.
      pose proof (max_entry_ge _ _ E2 ho). lia.
    + destruct (max_entry_in _ E2) as [o [ho e]]. apply (Permutation_in _ (Permutation_sym hp)) in ho.
      pose proof (max_entry_ge _ _ E1 ho). lia.
  - destruct G2; [|discriminate]. apply Permutation_sym, Permutation_nil in hp. subst; discriminate.
  - destruct G1; [|discriminate]. apply Permutation_nil in hp. subst; discriminate.
Qed.

(** Everything but the arrangement of the orders. *)
Definition same_sim (s1 s2 : sim) : Prop :=
  sim_layers s1 = sim_layers s2 /\ sim_lattice s1 = sim_lattice s2 /\ sim_form s1 = sim_form s2 /\
  Permutation (sim_harmonics s1) (sim_harmonics s2) /\ sim_nh s1 = sim_nh s2 /\ sim_recip s1 = sim_recip s2.

Section Two.
Variables a1 a2 : list R -> list nat.
Hypothesis h1 : argsort_ok a1.
Hypothesis h2 : argsort_ok a2.
Variable lattices : nat -> lattice.

Lemma init_same layers nh form :
  match sim_init a1 lattices layers nh form, sim_init a2 lattices layers nh form with
  | Ok s1, Ok s2 => same_sim s1 s2
  | Err e1, Err e2 => e1 = e2
  | _, _ => False
  end.
Proof.
  unfold sim_init. destruct (negb _); [auto|]. destruct layers as [|l0 t]; [auto|].
  destruct (negb _); [auto|]. destruct (negb _); [auto|]. destruct (_ && _)%bool; [auto|].
  pose proof (harmonics_same h1 h2 (lattices (pl_lat l0)) (effective_nh (forallb pl_uniform (l0 :: t)) nh) true) as H.
  destruct (get_harmonics a1 _ _ true) as [[G1 n1]|e1], (get_harmonics a2 _ _ true) as [[G2 n2]|e2];
    cbn [bind fst snd]; try tauto.
  destruct H as [hp hn]. rewrite <- (max_entry_perm hp). destruct (max_entry G1) as [m|]; [|auto].
  destruct (_ || _)%bool; [auto|]. destruct (reciprocal _) as [r|e]; cbn [bind]; [|auto].
  unfold same_sim; cbn; tauto.
Qed.
End Two.

Section One.
Variable argsort : list R -> list nat.
Hypothesis hsort : argsort_ok argsort.
Variable lattices : nat -> lattice.

Lemma init_facts layers nh form s : sim_init argsort lattices layers nh form = Ok s ->
  generates (sim_lattice s) -> (1 <= nh)%Z \/ forallb pl_uniform layers = true ->
  NoDup (sim_harmonics s) /\ In (0, 0)%Z (sim_harmonics s) /\ negation_closed (sim_harmonics s) /\
  sim_nh s = Z.of_nat (length (sim_harmonics s)) /\
  nth_error (sim_harmonics s) (sim_index0 s) = Some (0, 0)%Z /\
  sim_form s = form /\ reciprocal (sim_lattice s) = Ok (sim_recip s).
Proof.
  intros H hg hnh. destruct (sim_init_inv _ _ _ _ _ H) as [l0 [t [G [n [m [r h]]]]]].
  destruct h as [_ [_ [_ [_ [_ [hh [_ [_ [_ [hr es]]]]]]]]]]. subst s; cbn in *.
  destruct (@gh_wf _ hsort _ (effective_nh (forallb pl_uniform layers) nh) true hg) as [G' [n' [hh' hw]]].
  { apply effective_ge2; auto. }
  rewrite hh in hh'. injection hh'; intros; subst G' n'.
  destruct hw as [w1 [w2 [w3 [w4 _]]]]. assert (w5 := zeroth_ok _ w2). auto 10.
Qed.
End One.

(** The nested dictionaries of diffraction_efficiencies(return_dict=True). *)
From Coq Require Import List ZArith Arith Lia.
From Verif Require Import Base Lattice_Model Init_Model Init_Proofs Dict_Model.
Import ListNotations.
Set Implicit Arguments.

Section Proofs.
Variable A : Type.
Notation val := (val A).
Notation store := (store A).

Lemma number_get d : forall j k a, dget (number j d) k = Some a ->
  exists i, (j <= a)%nat /\ nth_error d (a - j) = Some (k, i) /\ dget d k = Some i.
Proof.
  induction d as [|[k' i] t IH]; intros j k a; cbn; [discriminate|].
  destruct (Z.eqb_spec k' k) as [->|N].
  - intros H. injection H as <-. exists i. rewrite Nat.sub_diag. cbn. auto.
  - intros H. destruct (IH _ _ _ H) as [i' [L [B C]]]. exists i'. split; [lia|].
    replace (a - j)%nat with (S (a - S j)) by lia. cbn. auto.
Qed.
Lemma number_none d : forall j k, dget (number j d) k = None -> dget d k = None.
Proof.
  induction d as [|[k' i] t IH]; intros j k; cbn; [auto|].
  destruct (Z.eqb k' k); [discriminate|]. apply IH.
Qed.
Lemma number_inj d k k' a : dget (new_outer d) k = Some a -> dget (new_outer d) k' = Some a -> k = k'.
Proof.
  intros H H'. destruct (number_get _ _ _ H) as [i [_ [B _]]]. destruct (number_get _ _ _ H') as [i' [_ [B' _]]].
  congruence.
Qed.
Lemma dget_map (V W : Type) (f : V -> W) (d : list (Z * V)) k :
  dget (map (fun p => (fst p, f (snd p))) d) k = option_map f (dget d k).
Proof. induction d as [|[a v] t IH]; cbn; [reflexivity|]. destruct (Z.eqb a k); auto. Qed.

(** A new dictionary object holds the table of indices. *)
Lemma new_look G o k : NoDup G -> nth_error G k = Some o ->
  order_index (new_outer (build_dict G)) (new_store (build_dict G)) o = Ok (@VIdx A k).
Proof.
  intros N H. pose proof (build_dict_in _ N H) as L. unfold dlook in L.
  unfold order_index, look2. set (d := build_dict G) in *.
  destruct (dget (new_outer d) (fst o)) as [a|] eqn:E.
  - destruct (number_get _ _ _ E) as [i [_ [B C]]]. rewrite Nat.sub_0_r in B.
    cbn [of_option bind]. unfold new_store. rewrite B. rewrite dget_map. rewrite C in L. rewrite L. reflexivity.
  - apply number_none in E. rewrite E in L. discriminate.
Qed.

Section Loop.
Variable hd : outer.
Hypothesis inj : forall k k' a, dget hd k = Some a -> dget hd k' = Some a -> k = k'.

Lemma put_look (s : store) (o : order) x v : order_index hd s o = Ok v ->
  exists s', put2 s hd (fst o) (snd o) x = (s', Ok tt) /\
    order_index hd s' o = Ok (VNum x) /\
    forall o', o' <> o -> order_index hd s' o' = order_index hd s o'.
Proof.
  unfold order_index, look2, put2. intros H.
  destruct (dget hd (fst o)) as [a|] eqn:E; [|discriminate].
  eexists. split; [reflexivity|]. split.
  - cbn [of_option bind]. unfold sset. rewrite Nat.eqb_refl, dget_dset, Z.eqb_refl. reflexivity.
  - intros o' N. destruct (dget hd (fst o')) as [a'|] eqn:E'; [|reflexivity].
    cbn [of_option bind]. unfold sset. destruct (Nat.eqb_spec a' a) as [->|N2]; [|reflexivity].
    rewrite dget_dset. destruct (Z.eqb_spec (snd o) (snd o')) as [e|n]; [|reflexivity].
    exfalso. apply N. rewrite (surjective_pairing o), (surjective_pairing o'), e.
    now rewrite (inj _ _ E E').
Qed.

(** The loop over orders whose entries still are indices. *)
Lemma loop_ok (R T : list A) : forall G (s : store), NoDup G ->
  (forall o, In o G -> exists j r t, order_index hd s o = Ok (VIdx j) /\
      nth_error R j = Some r /\ nth_error T j = Some t) ->
  exists s', dict_loop hd hd hd R T G s = (s', Ok tt) /\
    (forall o j t, In o G -> order_index hd s o = Ok (VIdx j) -> nth_error T j = Some t ->
       order_index hd s' o = Ok (VNum t)) /\
    (forall o, ~ In o G -> order_index hd s' o = order_index hd s o).
Proof.
  induction G as [|[i1 i2] G IH]; intros s N H.
  - exists s. cbn. repeat split; auto. intros o j t [].
  - inversion N as [|? ? N1 N2]; subst.
    destruct (H (i1, i2) (or_introl eq_refl)) as [j [r [t [E1 [E2 E3]]]]].
    cbn [dict_loop]. unfold order_index in E1. cbn [fst snd] in E1. rewrite E1. cbn [take]. rewrite E2. cbn [of_option].
    destruct (@put_look s (i1, i2) r _ E1) as [s1 [P1 [L1 M1]]]. cbn [fst snd] in P1. rewrite P1.
    cbn [take]. rewrite E3. cbn [of_option].
    destruct (@put_look s1 (i1, i2) t _ L1) as [s2 [P2 [L2 M2]]]. cbn [fst snd] in P2. rewrite P2.
    assert (K : forall o, o <> (i1, i2) -> order_index hd s2 o = order_index hd s o).
    { intros o No. rewrite M2, M1; auto. }
    destruct (IH s2 N2) as [s' [B1 [B2 B3]]].
    { intros o Io. rewrite K; [apply H; now right|]. intros ->. contradiction. }
    exists s'. split; [exact B1|]. split.
    + intros o j' t' [<-|Io] Eo Et.
      * rewrite B3 by assumption. unfold order_index in Eo. cbn [fst snd] in Eo.
        rewrite L2. congruence.
      * apply (B2 o j' t'); auto. rewrite K; [exact Eo|]. intros ->. contradiction.
    + intros o No. rewrite B3 by (intros X; apply No; now right).
      apply K. intros ->. apply No. now left.
Qed.
End Loop.

Section Call.
Variables (G : list order) (R T : list A).
Hypothesis nd : NoDup G.
Let hd := new_outer (build_dict G).
Let s0 : store := new_store (build_dict G).

Lemma dict_call : length R = length G -> length T = length G ->
  exists s1, eff_return hd G true R T s0 = (s1, Ok (Dicts A hd hd)) /\
  (forall k o t, nth_error G k = Some o -> nth_error T k = Some t -> order_index hd s1 o = Ok (VNum t)) /\
  (G <> [] -> forall R' T', snd (eff_return hd G true R' T' s1) = Err IndexError) /\
  (forall v o, In o G -> get_order hd s1 v o = Err IndexError).
Proof.
  intros LR LT.
  assert (inj : forall k k' a, dget hd k = Some a -> dget hd k' = Some a -> k = k')
    by (intros k k' a; apply number_inj).
  destruct (@loop_ok hd inj R T G s0 nd) as [s1 [B1 [B2 B3]]].
  { intros o Io. apply In_nth_error in Io. destruct Io as [k Ek].
    assert (k < length G)%nat by (apply nth_error_Some; congruence).
    destruct (nth_error R k) as [r|] eqn:Er; [|apply nth_error_None in Er; lia].
    destruct (nth_error T k) as [t|] eqn:Et; [|apply nth_error_None in Et; lia].
    exists k, r, t. split; [now apply new_look|]. auto. }
  assert (B : forall k o t, nth_error G k = Some o -> nth_error T k = Some t -> order_index hd s1 o = Ok (VNum t)).
  { intros k o t Ek Et. apply (B2 o k t); auto; [eapply nth_error_In; eauto|]. now apply new_look. }
  assert (B' : forall o, In o G -> exists t, order_index hd s1 o = Ok (VNum t)).
  { intros o Io. apply In_nth_error in Io. destruct Io as [k Ek].
    assert (k < length G)%nat by (apply nth_error_Some; congruence).
    destruct (nth_error T k) as [t|] eqn:Et; [|apply nth_error_None in Et; lia]. eauto. }
  exists s1. split; [unfold eff_return; now rewrite B1|]. split; [exact B|]. split.
  - intros NE R' T'. destruct G as [|[i1 i2] G'] eqn:EG; [congruence|].
    unfold eff_return. cbn [dict_loop].
    destruct (B' (i1, i2) (or_introl eq_refl)) as [t Et]. unfold order_index in Et. cbn [fst snd] in Et.
    rewrite Et. reflexivity.
  - intros v o Io. destruct (B' o Io) as [t Et]. unfold get_order. rewrite Et. reflexivity.
Qed.

(** complex=True: R and T have three rows (the components), not one per order. *)
Lemma dict_complex : length R = 3%nat -> (3 < length G)%nat -> (length T <= 3)%nat ->
  snd (eff_return hd G true R T s0) = Err IndexError.
Proof.
  intros LR LG LT.
  assert (inj : forall k k' a, dget hd k = Some a -> dget hd k' = Some a -> k = k')
    by (intros k k' a; apply number_inj).
  assert (K : forall n G0 (s : store), (n + length G0 = length G)%nat -> (n <= 3)%nat ->
     NoDup G0 -> (forall i o, nth_error G0 i = Some o -> order_index hd s o = Ok (VIdx (n + i))) ->
     snd (dict_loop hd hd hd R T G0 s) = Err IndexError).
  { intros n G0. revert n. induction G0 as [|[i1 i2] G0 IH]; intros n s L1 L2 N H.
    - cbn in L1. lia.
    - inversion N as [|? ? N1 N2]; subst.
      pose proof (H 0%nat (i1, i2) eq_refl) as E1. rewrite Nat.add_0_r in E1.
      cbn [dict_loop]. pose proof E1 as E1'. unfold order_index in E1'. cbn [fst snd] in E1'. rewrite E1'.
      cbn [take].
      destruct (nth_error R n) as [r|] eqn:Er; [|reflexivity]. cbn [of_option].
      assert (n < 3)%nat by (rewrite <- LR; apply nth_error_Some; congruence).
      destruct (@put_look hd inj s (i1, i2) r _ E1) as [s1 [P1 [Q1 M1]]]. cbn [fst snd] in P1. rewrite P1.
      destruct (nth_error T n) as [t|] eqn:Et; [|reflexivity]. cbn [of_option].
      destruct (@put_look hd inj s1 (i1, i2) t _ Q1) as [s2 [P2 [Q2 M2]]]. cbn [fst snd] in P2. rewrite P2.
      cbn [length] in L1. apply (IH (S n)); [lia|lia|assumption|].
      intros i o Hi. assert (o <> (i1, i2)) by (intros ->; apply N1; eapply nth_error_In; eauto).
      rewrite M2, M1 by assumption. rewrite (H (S i) o Hi). f_equal. f_equal. lia. }
  specialize (K 0%nat G s0 eq_refl ltac:(lia) nd).
  unfold eff_return. destruct (dict_loop hd hd hd R T G s0) as [s1 r] eqn:EL.
  cbn [snd] in K. rewrite K; [reflexivity|].
  intros i o Hi. cbn [Nat.add]. now apply new_look.
Qed.
End Call.
End Proofs.

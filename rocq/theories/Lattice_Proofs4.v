(** The set of orders kept does not depend on how argsort breaks ties. *)
From Coq Require Import Reals ZArith List Lia Lra Permutation Sorted.
From Verif Require Import Base Lattice_Model Lattice_Spec Lattice_Proofs Lattice_Proofs2 Lattice_Proofs3.
Import ListNotations.
Set Implicit Arguments.
Local Open Scope R_scope.

Lemma sorted_unique : forall l1 l2 : list R, Permutation l1 l2 ->
  StronglySorted Rle l1 -> StronglySorted Rle l2 -> l1 = l2.
Proof.
  induction l1 as [|x l1 IH]; intros l2 hp h1 h2.
  { apply Permutation_nil in hp. subst; auto. }
  destruct l2 as [|y l2]; [apply Permutation_sym, Permutation_nil in hp; discriminate|].
  inversion h1 as [|? ? s1 f1]; inversion h2 as [|? ? s2 f2]; subst. rewrite Forall_forall in f1, f2.
  assert (e : x = y).
  { apply Rle_antisym.
    - assert (hy : In y (x :: l1)) by (eapply Permutation_in; [apply Permutation_sym, hp|left; auto]).
      destruct hy as [->|hy]; [lra|auto].
    - assert (hx : In x (y :: l2)) by (eapply Permutation_in; [apply hp|left; auto]).
      destruct hx as [->|hx]; [lra|auto]. }
  subst y. f_equal. apply IH; auto. apply Permutation_cons_inv with x; auto.
Qed.

Lemma sorted_of_nth (l : list R) : (forall i j, (i <= j < length l)%nat -> nth i l 0 <= nth j l 0) ->
  StronglySorted Rle l.
Proof.
  induction l as [|x l IH]; intros h; constructor.
  - apply IH. intros i j hij. apply (h (S i) (S j)). cbn; lia.
  - apply Forall_forall. intros y hy. apply (In_nth _ _ 0) in hy. destruct hy as [n [hn e]].
    rewrite <- e. apply (h 0%nat (S n)). cbn; lia.
Qed.

Lemma nodup_firstn (A : Type) n (l : list A) : NoDup l -> NoDup (firstn n l).
Proof.
  intros h. rewrite <- (firstn_skipn n l) in h. induction (firstn n l) as [|x t IH]; cbn in *; [constructor|].
  inversion h; subst. constructor; auto. intros hx. apply H1. apply in_or_app; auto.
Qed.

Definition sorted_by (argsort : list R -> list nat) (keys : list R) : list R :=
  map (fun j => nth j keys 0) (argsort keys).

Lemma sorted_by_perm a keys : argsort_ok a -> Permutation (sorted_by a keys) keys.
Proof.
  intros h. destruct (h keys) as [hp _]. unfold sorted_by.
  eapply Permutation_trans; [apply Permutation_map, hp|]. rewrite map_nth_seq. apply Permutation_refl.
Qed.

Lemma sorted_by_sorted a keys : argsort_ok a -> StronglySorted Rle (sorted_by a keys).
Proof.
  intros h. pose proof (argsort_len h keys) as hl. destruct (h keys) as [_ hs]. apply sorted_of_nth.
  unfold sorted_by. rewrite map_length, hl. intros i j hij.
  assert (e : forall k, (k < length keys)%nat ->
    nth k (map (fun j => nth j keys 0) (a keys)) 0 = nth (nth k (a keys) 0%nat) keys 0).
  { intros k hk. rewrite nth_indep with (d' := nth 0 keys 0) by (rewrite map_length, hl; auto).
    apply (map_nth (fun j => nth j keys 0)). }
  rewrite !e by lia. apply hs; auto.
Qed.

Lemma sorted_by_same a1 a2 keys : argsort_ok a1 -> argsort_ok a2 -> sorted_by a1 keys = sorted_by a2 keys.
Proof.
  intros h1 h2. apply sorted_unique; try apply sorted_by_sorted; auto.
  eapply Permutation_trans; [apply sorted_by_perm; auto|]. apply Permutation_sym, sorted_by_perm; auto.
Qed.

(** Two prefixes of equal length of two sorted arrangements of the same set, cut
    where the key strictly increases. *)
Lemma cut_incl (f : order -> R) C s1 s2 n : Permutation s1 C -> Permutation s2 C -> NoDup C ->
  (forall i, (i < length C)%nat -> f (nth i s1 (0,0)%Z) = f (nth i s2 (0,0)%Z)) ->
  (forall i j, (i <= j < length C)%nat -> f (nth i s1 (0,0)%Z) <= f (nth j s1 (0,0)%Z)) ->
  (forall j, n = S j -> f (nth j s1 (0,0)%Z) < f (nth n s1 (0,0)%Z)) -> (n < length C)%nat ->
  incl (firstn n s1) (firstn n s2).
Proof.
  intros p1 p2 hn he hm hc hlt o ho.
  pose proof (Permutation_length p1) as l1. pose proof (Permutation_length p2) as l2.
  apply (In_nth _ _ (0,0)%Z) in ho. destruct ho as [k [hk e]].
  rewrite firstn_length in hk. destruct n as [|j]; [lia|].
  assert (hks : nth k s1 (0,0)%Z = o).
  { rewrite <- e. rewrite <- (firstn_skipn (S j) s1) at 1. rewrite app_nth1; auto. rewrite firstn_length; auto. }
  assert (ho2 : In o s2).
  { eapply Permutation_in; [apply Permutation_sym, p2|]. eapply Permutation_in; [apply p1|].
    rewrite <- hks. apply nth_In. lia. }
  apply (In_nth _ _ (0,0)%Z) in ho2. destruct ho2 as [m [hm2 em]].
  destruct (Nat.lt_ge_cases m (S j)) as [hlt2|hge].
  - rewrite <- em. rewrite <- (firstn_skipn (S j) s2) at 1. rewrite app_nth1 by (rewrite firstn_length; lia).
    apply nth_In. rewrite firstn_length; lia.
  - exfalso. pose proof (hc j eq_refl) as h1. pose proof (hm k j ltac:(lia)) as h2.
    pose proof (hm (S j) m ltac:(lia)) as h3. rewrite (he m) in h3 by lia. rewrite em in h3. rewrite hks in h2. lra.
Qed.

Section Two.
Variables a1 a2 : list R -> list nat.
Hypothesis h1 : argsort_ok a1.
Hypothesis h2 : argsort_ok a2.

Lemma same_keys (f : order -> R) G i : (i < length G)%nat ->
  f (nth i (reorder G (a1 (map f G))) (0,0)%Z) = f (nth i (reorder G (a2 (map f G))) (0,0)%Z).
Proof.
  intros hi. rewrite <- (nth_reorder_key h1 f G hi), <- (nth_reorder_key h2 f G hi).
  pose proof (sorted_by_same (map f G) h1 h2) as e. unfold sorted_by in e. rewrite e. reflexivity.
Qed.

Lemma circular_same nh Lk :
  match circular_truncation a1 nh Lk, circular_truncation a2 nh Lk with
  | Ok (G1, n1), Ok (G2, n2) => Permutation G1 G2 /\ n1 = n2
  | Err e1, Err e2 => e1 = e2
  | _, _ => False
  end.
Proof.
  destruct (circular_truncation a1 nh Lk) as [[G1 n1]|e1] eqn:E1.
  - destruct (circular_shape h1 _ _ E1) as [x0 [x1 [hx0 [hx1 [i [hG [hn [hl [_ [hgap _]]]]]]]]]].
    pose proof (@extent_pos nh Lk _ _ (u0_ge0 Lk) hx0). pose proof (@extent_pos nh Lk _ _ (u1_ge0 Lk) hx1).
    unfold circular_truncation in *. destruct (Z.ltb_spec nh 0) as [|hnh]; [discriminate|].
    rewrite hx0 in *; cbn [bind] in *; rewrite hx1 in *; cbn [bind] in *.
    set (C := grid _ _) in *. set (nt := if (nh <? _)%Z then _ else _) in *.
    destruct (Z.leb_spec nt 0) as [|hnt]; [discriminate|].
    pose proof (sorted_by_same (map (Gl2 Lk) C) h1 h2) as es. unfold sorted_by in es.
    injection E1; intros en eG. rewrite <- es.
    assert (ei : scan (map (fun j => nth j (map (Gl2 Lk) C) 0) (a1 (map (Gl2 Lk) C))) (tol Lk) (Z.to_nat (nt - 1)) = i) by lia.
    rewrite ei in *. split; [|auto]. subst G1.
    assert (hC : NoDup C) by (apply grid_nodup; apply arange_nodup).
    assert (hp1 := @reorder_perm _ h1 C (map (Gl2 Lk) C) (map_length _ _)).
    assert (hp2 := @reorder_perm _ h2 C (map (Gl2 Lk) C) (map_length _ _)).
    assert (hln := Permutation_length hp1). rewrite hln in hl.
    assert (hnd1 := @reorder_nodup _ h1 C (map (Gl2 Lk) C) (map_length _ _) hC).
    assert (hnd2 := @reorder_nodup _ h2 C (map (Gl2 Lk) C) (map_length _ _) hC).
    assert (hgap' : forall j, i = S j -> Gl2 Lk (nth j (reorder C (a1 (map (Gl2 Lk) C))) (0,0)%Z) <
       Gl2 Lk (nth i (reorder C (a1 (map (Gl2 Lk) C))) (0,0)%Z)).
    { intros j hj. pose proof (hgap j hj). pose proof (tol_ge0 Lk). lra. }
    apply NoDup_Permutation.
    + apply nodup_firstn; auto.
    + apply nodup_firstn; auto.
    + intros o; split.
      * apply (@cut_incl (Gl2 Lk) C _ _ i hp1 hp2 hC); auto.
        -- intros k hk. apply same_keys; auto.
        -- intros k m hkm. apply reorder_sorted; auto.
      * apply (@cut_incl (Gl2 Lk) C _ _ i hp2 hp1 hC); auto.
        -- intros k hk. symmetry. apply same_keys; auto.
        -- intros k m hkm. apply reorder_sorted; auto.
        -- intros j hj. rewrite <- !same_keys by lia. auto.
  - unfold circular_truncation in *. destruct (Z.ltb_spec nh 0); [congruence|].
    destruct (extent nh Lk (u0 Lk)) as [z|]; cbn [bind] in *; [|congruence].
    destruct (extent nh Lk (u1 Lk)) as [z0|]; cbn [bind] in *; [|congruence].
    destruct (Z.leb_spec (if (nh <? (2 * z + 1) * (2 * z0 + 1))%Z then nh else ((2 * z + 1) * (2 * z0 + 1))%Z) 0); [congruence|discriminate].
Qed.

Lemma parallel_same nh Lk :
  match parallelogramic_truncation a1 nh Lk, parallelogramic_truncation a2 nh Lk with
  | Ok (G1, n1), Ok (G2, n2) => Permutation G1 G2 /\ n1 = n2
  | Err e1, Err e2 => e1 = e2
  | _, _ => False
  end.
Proof.
  unfold parallelogramic_truncation. destruct (Z.ltb_spec nh 0); [auto|].
  split; auto. set (n := if Z.even _ then _ else _). set (G := grid _ _).
  assert (hlen : (Z.of_nat (length G) <= n * n)%Z).
  { unfold G. rewrite grid_len. unfold arange. rewrite zseq_len.
    replace (n - n / 2 - - (n / 2))%Z with n by lia. rewrite Nat2Z.inj_mul.
    destruct (Z.le_gt_cases 0 n); [rewrite Z2Nat.id by lia; lia|].
    replace (Z.to_nat n) with 0%nat by lia. nia. }
  assert (hp1 := @reorder_perm _ h1 G (map (Gl2 Lk) G) (map_length _ _)).
  assert (hp2 := @reorder_perm _ h2 G (map (Gl2 Lk) G) (map_length _ _)).
  rewrite !firstn_all2.
  - eapply Permutation_trans; [apply hp1|]. apply Permutation_sym, hp2.
  - rewrite (Permutation_length hp2). lia.
  - rewrite (Permutation_length hp1). lia.
Qed.

Lemma harmonics_same l nh s :
  match get_harmonics a1 l nh s, get_harmonics a2 l nh s with
  | Ok (G1, n1), Ok (G2, n2) => Permutation G1 G2 /\ n1 = n2
  | Err e1, Err e2 => e1 = e2
  | _, _ => False
  end.
Proof.
  assert (H : match get_harmonics_unsorted a1 l nh, get_harmonics_unsorted a2 l nh with
    | Ok (G1, n1), Ok (G2, n2) => Permutation G1 G2 /\ n1 = n2
    | Err e1, Err e2 => e1 = e2
    | _, _ => False end).
  { unfold get_harmonics_unsorted. destruct (lt_harm l); [auto|]. destruct (lt_trunc l).
    - destruct (reciprocal l); cbn [bind]; [apply circular_same|auto].
    - destruct (reciprocal l); cbn [bind]; [apply parallel_same|auto].
    - destruct (one_dim_truncation nh); auto. }
  unfold get_harmonics.
  destruct (get_harmonics_unsorted a1 l nh) as [[G1 n1]|]; destruct (get_harmonics_unsorted a2 l nh) as [[G2 n2]|];
    cbn [bind fst snd]; try tauto.
  destruct H as [hp hn]. destruct s; [|auto]. split; auto.
  eapply Permutation_trans; [apply reorder_perm; auto; apply map_length|].
  eapply Permutation_trans; [exact hp|]. apply Permutation_sym, reorder_perm; auto; apply map_length.
Qed.

End Two.

(** A function meeting the contract of argsort (insertion sort), used in the
    examples to show that the contract can be met. *)
From Coq Require Import Reals ZArith List Lia Lra Permutation Sorted.
From Verif Require Import Base Lattice_Model.
Import ListNotations.
Set Implicit Arguments.
Local Open Scope R_scope.

Section Ins.
Variable key : nat -> R.

Fixpoint ins (i : nat) (l : list nat) : list nat :=
  match l with
  | [] => [i]
  | j :: t => if Rle_dec (key i) (key j) then i :: l else j :: ins i t
  end.

Lemma ins_perm i l : Permutation (ins i l) (i :: l).
Proof.
  induction l as [|j t IH]; cbn; auto. destruct (Rle_dec _ _); auto.
  eapply Permutation_trans; [apply perm_skip, IH|apply perm_swap].
Qed.

Lemma ins_sorted i l : StronglySorted (fun a b => key a <= key b) l ->
  StronglySorted (fun a b => key a <= key b) (ins i l).
Proof.
  induction l as [|j t IH]; intros h; cbn; [repeat constructor|].
  inversion h; subst. destruct (Rle_dec _ _) as [hl|hl].
  - constructor; auto. constructor; auto. eapply Forall_impl; [|exact H2]. cbn; intros; lra.
  - constructor; auto. apply Forall_forall. intros x hx.
    apply (Permutation_in _ (ins_perm i t)) in hx. destruct hx as [<-|hx]; [lra|].
    rewrite Forall_forall in H2; auto.
Qed.

End Ins.

Definition isort (l : list R) : list nat := fold_right (ins (fun j => nth j l 0)) [] (seq 0 (length l)).

Lemma isort_ok : argsort_ok isort.
Proof.
  intros l. unfold isort. set (key := fun j => nth j l 0).
  assert (hp : forall s, Permutation (fold_right (ins key) [] s) s).
  { induction s as [|i s IH]; cbn; auto. eapply Permutation_trans; [apply ins_perm|]. apply perm_skip, IH. }
  assert (hs : forall s, StronglySorted (fun a b => key a <= key b) (fold_right (ins key) [] s)).
  { induction s as [|i s IH]; cbn; [constructor|]. apply ins_sorted, IH. }
  split; [apply hp|]. set (js := fold_right _ _ _).
  assert (hjs : StronglySorted (fun a b => key a <= key b) js) by apply hs.
  assert (hl : length js = length l) by (unfold js; rewrite (Permutation_length (hp _)), seq_length; auto).
  rewrite <- hl. clear -hjs. change (forall i j, (i <= j < length js)%nat -> key (nth i js 0%nat) <= key (nth j js 0%nat)).
  induction hjs as [|x t h IH hf]; intros i j hij; [cbn in hij; lia|].
  destruct i as [|i], j as [|j]; cbn [nth length] in *; try lia; try lra.
  - rewrite Forall_forall in hf. apply hf, nth_In. lia.
  - apply IH. lia.
Qed.

(** Another one, which puts equal keys in the opposite order: sort the reversed list and
    count from the end. *)
Definition rsort (l : list R) : list nat := map (fun j => (length l - 1 - j)%nat) (isort (rev l)).

Lemma rsort_ok : argsort_ok rsort.
Proof.
  intros l. destruct (isort_ok (rev l)) as [hp hs]. rewrite rev_length in hp, hs. unfold rsort. split.
  - eapply Permutation_trans; [apply Permutation_map, hp|].
    replace (map (fun j => (length l - 1 - j)%nat) (seq 0 (length l))) with (rev (seq 0 (length l))).
    { apply Permutation_sym, Permutation_rev. }
    apply nth_ext with (d := 0%nat) (d' := (length l - 1 - 0)%nat); rewrite rev_length, ?map_length; auto.
    intros n hn. rewrite rev_nth, (map_nth (fun j => (length l - 1 - j)%nat)) by auto.
    rewrite seq_length in *. rewrite !seq_nth by lia. lia.
  - assert (hlen : length (isort (rev l)) = length l) by (rewrite (Permutation_length hp), seq_length; auto).
    assert (hin : forall i, (i < length l)%nat -> (nth i (isort (rev l)) 0 < length l)%nat).
    { intros i hi. assert (h : In (nth i (isort (rev l)) 0%nat) (seq 0 (length l))).
      { eapply Permutation_in; [exact hp|]. apply nth_In. lia. }
      apply in_seq in h. lia. }
    assert (e : forall i, (i < length l)%nat ->
      nth (nth i (map (fun j => (length l - 1 - j)%nat) (isort (rev l))) 0%nat) l 0 =
      nth (nth i (isort (rev l)) 0%nat) (rev l) 0).
    { intros i hi. rewrite (rev_nth l 0 (hin i hi)).
      rewrite nth_indep with (d' := (length l - 1 - 0)%nat) by (rewrite map_length; lia).
      rewrite (map_nth (fun j => (length l - 1 - j)%nat)). f_equal. lia. }
    intros i j hij. rewrite !e by lia. apply hs; auto.
Qed.

Lemma rsort_differs : isort [1; 1] = [0; 1]%nat /\ rsort [1; 1] = [1; 0]%nat.
Proof.
  unfold rsort, isort. cbn. destruct (Rle_dec 1 1) as [_|h]; [|exfalso; lra]. cbn. auto.
Qed.

(** From the truncation functions to Lattice.get_harmonics. *)
From Coq Require Import Reals ZArith List Lia Lra Permutation.
From Verif Require Import Base Lattice_Model Lattice_Spec Lattice_Proofs Lattice_Proofs2.
Import ListNotations.
Set Implicit Arguments.
Local Open Scope R_scope.

Lemma u0_sq Lk : u0 Lk ^ 2 = m00 Lk ^ 2 + m01 Lk ^ 2.
Proof. unfold u0, row_norm. rewrite pow2_sqrt by nra. ring. Qed.
Lemma u1_sq Lk : u1 Lk ^ 2 = m10 Lk ^ 2 + m11 Lk ^ 2.
Proof. unfold u1, row_norm. rewrite pow2_sqrt by nra. ring. Qed.

Lemma Gl2_metric Lk a b : Gl2 Lk (a, b) = shell_metric (m00 Lk) (m01 Lk) (m10 Lk) (m11 Lk) a b.
Proof. unfold Gl2, shell_metric; cbn [fst snd]. rewrite u0_sq. unfold udot. ring. Qed.

Lemma tol_metric Lk : tol Lk = shell_tol (m00 Lk) (m01 Lk) (m10 Lk) (m11 Lk).
Proof. unfold tol, shell_tol. rewrite u0_sq, u1_sq. reflexivity. Qed.

Lemma radius_metric nh Lk : sqrt (IZR nh * Rabs (ucross Lk) / PI) + u0 Lk + u1 Lk =
  search_radius nh (m00 Lk) (m01 Lk) (m10 Lk) (m11 Lk).
Proof.
  unfold search_radius, ucross, u0, u1, row_norm. f_equal; [f_equal|]; f_equal; ring.
Qed.

Lemma separates_metric Lk :
  separates Lk <-> zeroth_isolated (m00 Lk) (m01 Lk) (m10 Lk) (m11 Lk).
Proof.
  unfold separates, zeroth_isolated. split; intros h a b hab; specialize (h a b hab);
    rewrite tol_metric, Gl2_metric in *; auto.
Qed.

Lemma ucross_reciprocal l r : reciprocal l = Ok r -> ucross r <> 0.
Proof.
  intros H. destruct (Req_dec (det2 (lt_basis l)) 0) as [e|hD].
  { rewrite reciprocal_err in H by assumption. discriminate. }
  rewrite reciprocal_ok in H by assumption. injection H; intros; subst r.
  unfold ucross; cbn [m00 m01 m10 m11]. set (D := det2 _) in *.
  replace (_ - _) with ((2 * PI) ^ 2 / D).
  - pose proof PI_RGT_0. apply Rmult_integral_contrapositive_currified.
    + apply pow_nonzero; lra.
    + apply Rinv_neq_0_compat; auto.
  - transitivity ((2 * PI) ^ 2 * (det2 (lt_basis l)) / (D * D)); [fold D; field; auto|].
    unfold det2. field. auto.
Qed.

Section Harm.
Variable argsort : list R -> list nat.
Hypothesis hsort : argsort_ok argsort.

Lemma gh_of l nh s G0 n : get_harmonics_unsorted argsort l nh = Ok (G0, n) ->
  exists G, get_harmonics argsort l nh s = Ok (G, n) /\ Permutation G G0.
Proof.
  intros H. unfold get_harmonics. rewrite H; cbn [bind fst snd]. destruct s.
  - eexists; split; [reflexivity|]. apply reorder_perm; auto. apply map_length.
  - exists G0; split; auto.
Qed.

Lemma gh_inv l nh s G n : get_harmonics argsort l nh s = Ok (G, n) ->
  exists G0, get_harmonics_unsorted argsort l nh = Ok (G0, n) /\ Permutation G G0.
Proof.
  unfold get_harmonics. intros H. ubind H r hr. destruct r as [G0 n0]; cbn [fst snd] in H.
  exists G0. destruct s; injection H; intros e1 e2; rewrite <- e1, <- e2; split; auto.
  apply reorder_perm; auto. apply map_length.
Qed.

(** With sort=True the first indices ascend. *)
Lemma gh_sorted l nh G n : get_harmonics argsort l nh true = Ok (G, n) ->
  forall i j, (i <= j < length G)%nat -> (fst (nth i G (0, 0)) <= fst (nth j G (0, 0)))%Z.
Proof.
  unfold get_harmonics. intros H. ubind H r hr. destruct r as [G0 n0]; cbn [fst snd] in H.
  injection H; intros hn hG; subst. intros i j hij. apply le_IZR.
  rewrite reorder_len in hij by (auto; apply map_length).
  apply (@reorder_sorted _ hsort (fun o => IZR (fst o)) G0 i j); auto.
Qed.

Lemma perm_lists_exactly G G0 P : Permutation G G0 -> lists_exactly G0 P -> lists_exactly G P.
Proof.
  intros h [h1 h2]. split; [apply (Permutation_NoDup (Permutation_sym h)); auto|].
  intros a b. rewrite <- h2. split; apply Permutation_in; auto. apply Permutation_sym; auto.
Qed.

Lemma gh_one_dim a disc nh s : exists G n,
  get_harmonics argsort (lattice_1D a disc None) nh s = Ok (G, n) /\
  lists_exactly G (fun a b => b = 0 /\ Z.abs a <= Z.max 0 (Z.quot (nh - 1) 2))%Z /\
  n = Z.of_nat (length G) /\ ((1 <= nh)%Z -> (n <= nh)%Z).
Proof.
  destruct (@gh_of (lattice_1D a disc None) nh s (fst (one_dim_truncation nh)) (snd (one_dim_truncation nh)))
    as [G [H hp]]; [reflexivity|].
  exists G, (snd (one_dim_truncation nh)). split; [auto|].
  split; [apply (perm_lists_exactly hp), one_dim_spec|].
  split; [rewrite (Permutation_length hp); reflexivity|].
  intros h. rewrite one_dim_count, quot_half. destruct (Z.leb_spec nh 0); [lia|].
  pose proof (Z.mul_div_le (nh - 1) 2). assert (0 <= (nh - 1) / 2)%Z by (apply Z.div_pos; lia). lia.
Qed.

Lemma gh_parallel L disc nh s : det2 L <> 0 -> (1 <= nh)%Z -> exists G M,
  get_harmonics argsort (lattice_2D L false disc None) nh s = Ok (G, (2 * M + 1) * (2 * M + 1))%Z /\
  (0 <= M /\ (2 * M + 1) * (2 * M + 1) <= nh < (2 * M + 3) * (2 * M + 3))%Z /\
  Z.of_nat (length G) = ((2 * M + 1) * (2 * M + 1))%Z /\
  lists_exactly G (fun a b => Z.abs a <= M /\ Z.abs b <= M)%Z.
Proof.
  intros hD hn. set (l := lattice_2D L false disc None).
  pose proof (@reciprocal_ok l hD) as hr. cbn zeta in hr. set (r := Mat2 _ _ _ _) in *.
  destruct (@parallelogramic_spec _ hsort nh r hn) as [G0 [M [H [h1 [h2 h3]]]]].
  destruct (@gh_of l nh s G0 ((2 * M + 1) * (2 * M + 1))%Z) as [G [HG hp]].
  { unfold get_harmonics_unsorted. cbn [lt_harm lt_trunc l lattice_2D]. rewrite hr; cbn [bind]. exact H. }
  exists G, M. split; [auto|]. split; [auto|].
  split; [rewrite (Permutation_length hp); auto | apply (perm_lists_exactly hp h3)].
Qed.

Lemma gh_circular_of L disc nh s r G0 n : reciprocal (lattice_2D L true disc None) = Ok r ->
  circular_truncation argsort nh r = Ok (G0, n) ->
  exists G, get_harmonics argsort (lattice_2D L true disc None) nh s = Ok (G, n) /\ Permutation G G0.
Proof.
  intros hr H. apply gh_of. unfold get_harmonics_unsorted. cbn [lt_harm lt_trunc lattice_2D].
  rewrite hr; cbn [bind]. exact H.
Qed.

Lemma gh_circular_inv L disc nh s G n : get_harmonics argsort (lattice_2D L true disc None) nh s = Ok (G, n) ->
  exists r G0, reciprocal (lattice_2D L true disc None) = Ok r /\
  circular_truncation argsort nh r = Ok (G0, n) /\ Permutation G G0.
Proof.
  intros H. destruct (gh_inv _ _ _ H) as [G0 [H0 hp]].
  unfold get_harmonics_unsorted in H0. cbn [lt_harm lt_trunc lattice_2D] in H0.
  ubind H0 r hr. exists r, G0. auto.
Qed.

(** The simulation's set of orders, for every way of generating it. *)
Definition generates (l : lattice) : Prop :=
  lt_harm l = None /\
  match lt_trunc l with
  | OneDim => True
  | Parallelogrammic => det2 (lt_basis l) <> 0
  | Circular => exists r, reciprocal l = Ok r /\ separates r
  end.

Lemma gh_wf l nh s : generates l -> (2 <= nh)%Z -> exists G n,
  get_harmonics argsort l nh s = Ok (G, n) /\
  NoDup G /\ In (0, 0)%Z G /\ negation_closed G /\ n = Z.of_nat (length G) /\ (1 <= n <= nh)%Z.
Proof.
  intros [hh ht] hn.
  enough (exists G0 n, get_harmonics_unsorted argsort l nh = Ok (G0, n) /\
    NoDup G0 /\ In (0, 0)%Z G0 /\ negation_closed G0 /\ n = Z.of_nat (length G0) /\ (1 <= n <= nh)%Z)
    as [G0 [n [H [h1 [h2 [h3 [h4 h5]]]]]]].
  { destruct (@gh_of l nh s G0 n H) as [G [HG hp]]. exists G, n.
    split; [auto|]. split; [apply (Permutation_NoDup (Permutation_sym hp)); auto|].
    split; [apply (Permutation_in _ (Permutation_sym hp)); auto|].
    split; [|rewrite (Permutation_length hp); auto].
    intros a b hab. apply (Permutation_in _ (Permutation_sym hp)), h3, (Permutation_in _ hp); auto. }
  unfold get_harmonics_unsorted. rewrite hh. destruct (lt_trunc l).
  - destruct ht as [r [hr hs]]. rewrite hr; cbn [bind].
    destruct (@circular_wf _ hsort nh r (ucross_reciprocal _ hr) hs hn) as [G [n [H [h1 [h2 [h3 [h4 h5]]]]]]].
    exists G, n. repeat split; auto; lia.
  - rewrite (reciprocal_ok l ht); cbn [bind]. set (r := Mat2 _ _ _ _).
    destruct (@parallelogramic_spec _ hsort nh r ltac:(lia)) as [G0 [M [H [h1 [h2 [h3 h4]]]]]].
    exists G0, ((2 * M + 1) * (2 * M + 1))%Z. split; [auto|]. split; [auto|].
    split; [apply h4; lia|]. split; [intros a b hab; apply h4 in hab; apply h4; lia|].
    split; [auto | nia].
  - exists (fst (one_dim_truncation nh)), (snd (one_dim_truncation nh)).
    destruct (one_dim_spec nh) as [h1 h2]. split; [reflexivity|]. split; [auto|].
    split; [apply h2; lia|]. split; [intros a b hab; apply h2 in hab; apply h2; lia|].
    split; [reflexivity|]. rewrite one_dim_count, quot_half. destruct (Z.leb_spec nh 0); [lia|].
    pose proof (Z.mul_div_le (nh - 1) 2). assert (0 <= (nh - 1) / 2)%Z by (apply Z.div_pos; lia). lia.
Qed.

Lemma gh_two l s : generates l -> get_harmonics argsort l 2 s = Ok ([(0, 0)%Z], 1%Z).
Proof.
  intros hg. destruct (@gh_wf l 2 s hg ltac:(lia)) as [G [n [H [h1 [h2 [h3 [h4 h5]]]]]]].
  assert (hl : length G = 1%nat).
  { assert (hc : length G = 1%nat \/ length G = 2%nat) by lia. destruct hc as [|hc]; [auto|exfalso].
    (* a two-element set closed under negation with (0,0) would need a self-opposite order *)
    destruct G as [|x [|y [|z G]]]; cbn in hc; try lia.
    assert (hxy : exists a b, (a, b) <> (0, 0)%Z /\ In (a, b) [x; y] /\ forall o, In o [x; y] -> o = (0, 0)%Z \/ o = (a, b)).
    { inversion h1 as [|? ? hx hn]; subst. destruct h2 as [->|[->|[]]].
      - destruct y as [a b]. exists a, b. split; [intros e; apply hx; left; auto|].
        split; [right; left; auto|]. intros o [<-|[<-|[]]]; auto.
      - destruct x as [a b]. exists a, b. split; [intros e; apply hx; left; auto|].
        split; [left; auto|]. intros o [<-|[<-|[]]]; auto. }
    destruct hxy as [a [b [hne [hab ho]]]]. apply h3 in hab. apply ho in hab.
    destruct hab as [e|e]; injection e; intros; apply hne; f_equal; lia. }
  rewrite H. destruct G as [|x [|y G]]; cbn in hl; try lia. destruct h2 as [->|[]]. subst n; reflexivity.
Qed.

End Harm.

(** Theorems about the lattice and the truncation of the orders (C01 - C08). *)
From Coq Require Import Reals ZArith List Lia Lra Permutation.
From Verif Require Import Base Lattice_Model Lattice_Spec Lattice_Proofs Lattice_Proofs2 Lattice_Proofs3 Lattice_Examples Argsort.
Import ListNotations.
Set Implicit Arguments.
Local Open Scope R_scope.

(** ** C01 *)

Theorem C01_duality : forall l r, reciprocal l = Ok r ->
  let L := lt_basis l in
  m00 r * m00 L + m10 r * m01 L = 2 * PI /\ m01 r * m10 L + m11 r * m11 L = 2 * PI /\
  m00 r * m10 L + m10 r * m11 L = 0 /\ m01 r * m00 L + m11 r * m01 L = 0.
Proof. exact reciprocal_dual. Qed.
Print Assumptions C01_duality.

Theorem C01_area : forall L tr disc harm r, let l := lattice_2D L tr disc harm in
  reciprocal l = Ok r ->
  area l = Rabs (m00 L * m11 L - m01 L * m10 L) /\
  area l * Rabs (m00 r * m11 r - m01 r * m10 r) = 4 * PI ^ 2.
Proof.
  intros L tr disc harm r l H. split; [reflexivity|].
  replace (4 * PI ^ 2) with ((2 * PI) ^ 2) by ring. apply (@area_dual l r H). reflexivity.
Qed.
Print Assumptions C01_area.

Theorem C01_available : forall l, (exists r, reciprocal l = Ok r) <->
  m00 (lt_basis l) * m11 (lt_basis l) - m01 (lt_basis l) * m10 (lt_basis l) <> 0.
Proof.
  intros l. split.
  - intros [r hr] e. rewrite reciprocal_err in hr by exact e. discriminate.
  - intros h. rewrite (reciprocal_ok l h). eexists; reflexivity.
Qed.
Print Assumptions C01_available.

(** ** C02 *)

Theorem C02_one_dim : forall argsort, argsort_ok argsort -> forall a disc nh sort, exists G n,
  get_harmonics argsort (lattice_1D a disc None) nh sort = Ok (G, n) /\
  lists_exactly G (fun k j => j = 0 /\ Z.abs k <= Z.max 0 (Z.quot (nh - 1) 2))%Z /\
  n = Z.of_nat (length G) /\ ((1 <= nh)%Z -> (n <= nh)%Z).
Proof. intros; apply gh_one_dim; auto. Qed.
Print Assumptions C02_one_dim.

(** ** C03 *)

Theorem C03_parallelogrammic : forall argsort, argsort_ok argsort -> forall L disc nh sort,
  m00 L * m11 L - m01 L * m10 L <> 0 -> (1 <= nh)%Z -> exists G M,
  get_harmonics argsort (lattice_2D L false disc None) nh sort = Ok (G, (2 * M + 1) * (2 * M + 1))%Z /\
  (0 <= M /\ (2 * M + 1) * (2 * M + 1) <= nh < (2 * M + 3) * (2 * M + 3))%Z /\
  Z.of_nat (length G) = ((2 * M + 1) * (2 * M + 1))%Z /\
  lists_exactly G (fun a b => Z.abs a <= M /\ Z.abs b <= M)%Z.
Proof. intros; apply gh_parallel; auto. Qed.
Print Assumptions C03_parallelogrammic.

(** ** C04 *)

Theorem C04_circular : forall argsort, argsort_ok argsort -> forall L disc nh sort r,
  reciprocal (lattice_2D L true disc None) = Ok r ->
  zeroth_isolated (m00 r) (m01 r) (m10 r) (m11 r) -> (2 <= nh)%Z ->
  exists G n, get_harmonics argsort (lattice_2D L true disc None) nh sort = Ok (G, n) /\
  NoDup G /\ In (0, 0)%Z G /\ negation_closed G /\ n = Z.of_nat (length G) /\ (1 <= n < nh)%Z.
Proof.
  intros argsort hsort L disc nh s r hr hz hn.
  destruct (@circular_wf _ hsort nh r (ucross_reciprocal _ hr) (proj2 (separates_metric r) hz) hn)
    as [G0 [n [H [h1 [h2 [h3 [h4 h5]]]]]]].
  destruct (@gh_circular_of _ hsort L disc nh s r G0 n hr H) as [G [HG hp]].
  exists G, n. split; [auto|]. split; [apply (Permutation_NoDup (Permutation_sym hp)); auto|].
  split; [apply (Permutation_in _ (Permutation_sym hp)); auto|].
  split; [|rewrite (Permutation_length hp); auto].
  intros a b hab. apply (Permutation_in _ (Permutation_sym hp)), h3, (Permutation_in _ hp); auto.
Qed.
Print Assumptions C04_circular.

(** The set is duplicate free, closed under negation and smaller than the
    request for every lattice, isolated zeroth order or not. *)
Theorem C04_any_lattice : forall argsort, argsort_ok argsort -> forall L disc nh sort G n,
  get_harmonics argsort (lattice_2D L true disc None) nh sort = Ok (G, n) ->
  NoDup G /\ negation_closed G /\ n = Z.of_nat (length G) /\ (n < nh)%Z.
Proof.
  intros argsort hsort L disc nh s G n H.
  destruct (@gh_circular_inv _ hsort L disc nh s G n H) as [r [G0 [hr [H0 hp]]]].
  destruct (@circular_cut _ hsort nh r G0 n H0) as [e0 [e1 [_ [_ [_ [h1 [h2 [h3 _]]]]]]]].
  split; [apply (Permutation_NoDup (Permutation_sym hp)); auto|].
  split; [|rewrite (Permutation_length hp); auto].
  intros a b hab. apply (Permutation_in _ (Permutation_sym hp)), (@circular_neg _ hsort _ _ _ _ H0).
  apply (Permutation_in _ hp); auto.
Qed.
Print Assumptions C04_any_lattice.

(** A simple sufficient condition for the hypothesis. *)
Theorem C04_isolated : forall k1x k1y k2x k2y,
  shell_tol k1x k1y k2x k2y < k1x ^ 2 + k1y ^ 2 - Rabs (k1x * k2x + k1y * k2y) ->
  zeroth_isolated k1x k1y k2x k2y.
Proof.
  intros k1x k1y k2x k2y h. apply (separates_metric (Mat2 k1x k1y k2x k2y)), separates_intro.
  rewrite tol_metric, u0_sq. exact h.
Qed.
Print Assumptions C04_isolated.

(** ** C05 *)

(** The candidates are a centred box that holds every order within the search
    radius; a candidate not farther than a kept order, up to the tolerance, is kept. *)
Theorem C05_shells : forall argsort, argsort_ok argsort -> forall L disc nh sort r G n,
  reciprocal (lattice_2D L true disc None) = Ok r ->
  get_harmonics argsort (lattice_2D L true disc None) nh sort = Ok (G, n) ->
  exists e0 e1, (1 <= e0 /\ 1 <= e1)%Z /\
  (forall a b, klen2 (m00 r) (m01 r) (m10 r) (m11 r) a b
      <= search_radius nh (m00 r) (m01 r) (m10 r) (m11 r) ^ 2 -> (Z.abs a <= e0 /\ Z.abs b <= e1)%Z) /\
  (forall a b, In (a, b) G -> (Z.abs a <= e0 /\ Z.abs b <= e1)%Z) /\
  forall a b c e, In (a, b) G -> (Z.abs c <= e0 /\ Z.abs e <= e1)%Z ->
    shell_metric (m00 r) (m01 r) (m10 r) (m11 r) c e
      <= shell_metric (m00 r) (m01 r) (m10 r) (m11 r) a b + shell_tol (m00 r) (m01 r) (m10 r) (m11 r) ->
    In (c, e) G.
Proof.
  intros argsort hsort L disc nh s r G n hr H.
  destruct (@gh_circular_inv _ hsort L disc nh s G n H) as [r' [G0 [hr' [H0 hp]]]].
  assert (r' = r) by congruence; subst r'.
  destruct (@circular_cut _ hsort nh r G0 n H0) as [e0 [e1 [he [he0 [he1 [h1 [h2 [h3 [h4 h5]]]]]]]]].
  exists e0, e1. split; [auto|]. split; [|split].
  - intros a b hab. apply in_cands. apply (@cands_cover nh r e0 e1 a b); auto.
    + apply (ucross_reciprocal _ hr).
    + rewrite radius_metric. exact hab.
  - intros a b hab. apply in_cands, h4, (Permutation_in _ hp); auto.
  - intros a b c e hab hce hle. apply (Permutation_in _ (Permutation_sym hp)).
    apply (h5 (a, b)); [apply (Permutation_in _ hp); auto | apply in_cands; auto|].
    rewrite !Gl2_metric, tol_metric. exact hle.
Qed.
Print Assumptions C05_shells.

(** ** C06 *)


(** Flat rectangular lattice L1 = (1,0), L2 = (0,1/10): the order (0,1), of length
    20 pi, is kept and (2,0), of length 4 pi, is not. *)
Theorem C06_true_length_refuted : exists L disc nh r,
  reciprocal (lattice_2D L true disc None) = Ok r /\
  forall argsort, argsort_ok argsort -> forall sort, exists G n,
  get_harmonics argsort (lattice_2D L true disc None) nh sort = Ok (G, n) /\
  In (0, 1)%Z G /\ ~ In (2, 0)%Z G /\
  klen2 (m00 r) (m10 r) (m01 r) (m11 r) 2 0 < klen2 (m00 r) (m10 r) (m01 r) (m11 r) 0 1.
Proof.
  exists (Mat2 1 0 0 (/ 10)), (256, 256)%Z, 6%Z, (Mat2 (2 * PI) 0 0 (20 * PI)).
  split; [exact rec_flat|]. intros argsort hsort s.
  destruct (@star_flat _ hsort s) as [G [H hG]]. exists G, 5%Z. split; [exact H|].
  rewrite !hG, !in_star. split; [lia|]. split; [lia|].
  unfold klen2; cbn [m00 m01 m10 m11]. pose proof PI_RGT_0. nra.
Qed.
Print Assumptions C06_true_length_refuted.

(** Hexagonal lattice: the six shortest vectors have the same length; only the
    pair (1,1), (-1,-1) is kept. *)
Theorem C06_hexagonal_refuted : exists L disc nh r,
  reciprocal (lattice_2D L true disc None) = Ok r /\
  forall argsort, argsort_ok argsort -> forall sort, exists G n,
  get_harmonics argsort (lattice_2D L true disc None) nh sort = Ok (G, n) /\
  In (1, 1)%Z G /\ ~ In (1, 0)%Z G /\ ~ In (0, 1)%Z G /\
  klen2 (m00 r) (m10 r) (m01 r) (m11 r) 1 1 = klen2 (m00 r) (m10 r) (m01 r) (m11 r) 1 0 /\
  klen2 (m00 r) (m10 r) (m01 r) (m11 r) 1 1 = klen2 (m00 r) (m10 r) (m01 r) (m11 r) 0 1.
Proof.
  exists (Mat2 1 0 (/ 2) (sqrt 3 / 2)), (256, 256)%Z, 4%Z,
    (Mat2 (2 * PI) 0 (- 2 * PI / sqrt 3) (4 * PI / sqrt 3)).
  split; [exact rec_hexagonal|]. intros argsort hsort s.
  destruct (@hexagonal_three _ hsort s) as [G [H hG]]. exists G, 3%Z. split; [exact H|].
  rewrite !hG; cbn [In].
  split; [auto|]. split; [intros h; repeat destruct h as [h|h]; try discriminate; auto|].
  split; [intros h; repeat destruct h as [h|h]; try discriminate; auto|].
  destruct sqrt3 as [h3 hs].
  unfold klen2; cbn [m00 m01 m10 m11].
  assert (h : (2 * PI) ^ 2 = 3 * (2 * PI / sqrt 3) ^ 2).
  { transitivity (3 * (2 * PI) ^ 2 / (sqrt 3 * sqrt 3)); [rewrite hs; field | field; lra]. }
  split.
  - replace (1 * (- 2 * PI / sqrt 3) + 1 * (4 * PI / sqrt 3)) with (2 * PI / sqrt 3) by (field; lra).
    replace (1 * (- 2 * PI / sqrt 3) + 0 * (4 * PI / sqrt 3)) with (- (2 * PI / sqrt 3)) by (field; lra). ring.
  - replace (1 * (- 2 * PI / sqrt 3) + 1 * (4 * PI / sqrt 3)) with (2 * PI / sqrt 3) by (field; lra).
    replace (0 * (- 2 * PI / sqrt 3) + 1 * (4 * PI / sqrt 3)) with (2 * (2 * PI / sqrt 3)) by (field; lra).
    replace (1 * (2 * PI) + 1 * 0) with (2 * PI) by ring. rewrite h. ring.
Qed.
Print Assumptions C06_hexagonal_refuted.

(** What is true: for a symmetric reciprocal matrix with rows of equal length the
    metric is the true squared length, and within the candidate box the kept
    orders are the nearest ones. *)
Theorem C06_equal_rows_partial : forall argsort, argsort_ok argsort -> forall L disc nh sort r G n,
  reciprocal (lattice_2D L true disc None) = Ok r ->
  m01 r = m10 r -> m00 r ^ 2 + m01 r ^ 2 = m10 r ^ 2 + m11 r ^ 2 ->
  get_harmonics argsort (lattice_2D L true disc None) nh sort = Ok (G, n) ->
  forall a b c e, In (a, b) G ->
  klen2 (m00 r) (m10 r) (m01 r) (m11 r) c e <= search_radius nh (m00 r) (m01 r) (m10 r) (m11 r) ^ 2 ->
  klen2 (m00 r) (m10 r) (m01 r) (m11 r) c e <= klen2 (m00 r) (m10 r) (m01 r) (m11 r) a b ->
  In (c, e) G.
Proof.
  intros argsort hsort L disc nh s r G n hr hsym heq H a b c e hab hrad hle.
  destruct (@C05_shells _ hsort L disc nh s r G n hr H) as [e0 [e1 [_ [hcov [_ hcl]]]]].
  assert (hm : forall a b, klen2 (m00 r) (m10 r) (m01 r) (m11 r) a b =
                           shell_metric (m00 r) (m01 r) (m10 r) (m11 r) a b).
  { intros x y. unfold klen2, shell_metric. rewrite <- hsym in *.
    replace (m00 r ^ 2) with (m11 r ^ 2) by lra.
    transitivity (IZR x ^ 2 * (m00 r ^ 2 + m01 r ^ 2) + IZR y ^ 2 * (m01 r ^ 2 + m11 r ^ 2)
      + 2 * IZR x * IZR y * (m00 r * m01 r + m01 r * m11 r)); [ring|].
    replace (m00 r ^ 2) with (m11 r ^ 2) by lra. ring. }
  apply (hcl a b c e); auto.
  - apply hcov. rewrite <- hsym in *. exact hrad.
  - rewrite <- !hm. pose proof (tol_ge0 r). rewrite tol_metric in H0. lra.
Qed.
Print Assumptions C06_equal_rows_partial.

(** ** C07 *)

(** Oblique lattice L1 = (1,0), L2 = (2,1): the metric takes negative values and a
    request for two orders returns none. *)
Theorem C07_zeroth_refuted : exists L disc,
  m00 L * m11 L - m01 L * m10 L <> 0 /\
  forall argsort, argsort_ok argsort -> forall sort,
  get_harmonics argsort (lattice_2D L true disc None) 2 sort = Ok ([], 0%Z).
Proof.
  exists (Mat2 1 0 2 1), (256, 256)%Z. split; [cbn; lra|]. intros; apply oblique_empty; auto.
Qed.
Print Assumptions C07_zeroth_refuted.

(** What is true: the zeroth order is there for nh >= 2 when it is isolated. *)
Theorem C07_isolated_partial : forall argsort, argsort_ok argsort -> forall L disc nh sort r,
  reciprocal (lattice_2D L true disc None) = Ok r ->
  shell_tol (m00 r) (m01 r) (m10 r) (m11 r)
    < m00 r ^ 2 + m01 r ^ 2 - Rabs (m00 r * m10 r + m01 r * m11 r) -> (2 <= nh)%Z ->
  exists G n, get_harmonics argsort (lattice_2D L true disc None) nh sort = Ok (G, n) /\
  In (0, 0)%Z G /\ (1 <= n)%Z.
Proof.
  intros argsort hsort L disc nh s r hr hz hn.
  destruct (@C04_circular _ hsort L disc nh s r hr (@C04_isolated _ _ _ _ hz) hn)
    as [G [n [H [_ [h0 [_ [_ h1]]]]]]]. exists G, n. repeat split; auto; lia.
Qed.
Print Assumptions C07_isolated_partial.

(** ** C08 *)

(** Square lattice: the five orders of length at most 2 pi are complete shells,
    but no request for five orders returns five. *)
Theorem C08_request_refuted : exists L disc r K,
  reciprocal (lattice_2D L true disc None) = Ok r /\
  lists_exactly K (fun a b => klen2 (m00 r) (m10 r) (m01 r) (m11 r) a b <= (2 * PI) ^ 2) /\
  forall argsort, argsort_ok argsort -> forall sort G n,
  get_harmonics argsort (lattice_2D L true disc None) (Z.of_nat (length K)) sort = Ok (G, n) ->
  n <> Z.of_nat (length K).
Proof.
  exists (Mat2 1 0 0 1), (256, 256)%Z, (Mat2 (2 * PI) 0 0 (2 * PI)), star.
  split; [exact (rec_square true)|]. split.
  - split; [apply star_nodup|]. intros a b. rewrite in_star. unfold klen2; cbn [m00 m01 m10 m11].
    pose proof PI_RGT_0 as hpi. assert (hp : 0 < (2 * PI) ^ 2) by nra.
    replace (_ + _) with (IZR (a * a + b * b) * (2 * PI) ^ 2) by (rewrite plus_IZR, !mult_IZR; ring).
    split; intros h.
    + apply IZR_le in h. nra.
    + apply le_IZR. apply Rmult_le_reg_r with ((2 * PI) ^ 2); auto. lra.
  - intros argsort hsort s G n H. destruct (@C04_any_lattice _ hsort _ _ _ _ _ _ H) as [_ [_ [_ h]]]. lia.
Qed.
Print Assumptions C08_request_refuted.

(** What is true: asking for one more order than fills the shells returns exactly
    the shells, when they (and one further order) lie within the search radius. *)
Theorem C08_one_more_partial : forall argsort, argsort_ok argsort -> forall L disc sort r K c,
  reciprocal (lattice_2D L true disc None) = Ok r ->
  let metric := shell_metric (m00 r) (m01 r) (m10 r) (m11 r) in
  let inside := fun a b => klen2 (m00 r) (m01 r) (m10 r) (m11 r) a b
      <= search_radius (Z.of_nat (length K) + 1) (m00 r) (m01 r) (m10 r) (m11 r) ^ 2 in
  lists_exactly K (fun a b => metric a b <= c) ->
  (forall a b, ~ In (a, b) K -> c + shell_tol (m00 r) (m01 r) (m10 r) (m11 r) < metric a b) ->
  (forall a b, In (a, b) K -> inside a b) -> (exists a b, ~ In (a, b) K /\ inside a b) ->
  exists G, get_harmonics argsort (lattice_2D L true disc None) (Z.of_nat (length K) + 1) sort
    = Ok (G, Z.of_nat (length K)) /\ lists_exactly G (fun a b => metric a b <= c).
Proof.
  intros argsort hsort L disc s r K c hr metric inside [hnd hK] hout hin [a0 [b0 [hno hin0]]].
  set (nh := (Z.of_nat (length K) + 1)%Z) in *.
  pose proof (ucross_reciprocal _ hr) as hx.
  destruct (@circular_ok argsort nh r hx ltac:(lia)) as [G0 [n H]].
  destruct (@circular_cut _ hsort nh r G0 n H) as [e0 [e1 [he [he0 [he1 [h1 _]]]]]].
  assert (hc : forall a b, inside a b -> In (a, b) (cands e0 e1)).
  { intros a b hab. apply (@cands_cover nh r e0 e1 a b hx he0 he1). rewrite radius_metric. exact hab. }
  destruct (@circular_shells_exact _ hsort nh r G0 n e0 e1 K c) as [h2 h3]; auto.
  - apply Nat.lt_le_trans with (length ((a0, b0) :: K)); [cbn; lia|]. apply NoDup_incl_length.
    + constructor; auto.
    + intros [a b] [h|h]; [injection h; intros; subst; auto | auto].
  - intros [a b]. rewrite Gl2_metric, hK. fold metric. split; [|tauto].
    intros h; split; auto. apply hc, hin, hK; auto.
  - intros [a b] _ h. rewrite Gl2_metric, tol_metric. apply hout; auto.
  - destruct (@gh_circular_of _ hsort L disc nh s r G0 n hr H) as [G [HG hp]]. subst n.
    exists G. split; [exact HG|]. apply (perm_lists_exactly hp).
    split; [exact h1|]. intros a b. rewrite h2. apply hK.
Qed.
Print Assumptions C08_one_more_partial.

(** ** C66 *)
(** sort=True returns the same orders and count as sort=False, listed by
    ascending first index; it raises exactly what sort=False raises. *)
Theorem C66_sorted : forall argsort, argsort_ok argsort -> forall l nh,
  match get_harmonics argsort l nh false, get_harmonics argsort l nh true with
  | Ok (G0, n0), Ok (G, n) => n = n0 /\ Permutation G G0 /\
      (forall i j, (i <= j < length G)%nat -> (fst (nth i G (0, 0)%Z) <= fst (nth j G (0, 0)%Z))%Z)
  | Err e, Err e' => e = e'
  | _, _ => False
  end.
Proof.
  intros argsort hs l nh.
  destruct (get_harmonics argsort l nh false) as [[G0 n0]|e] eqn:H0.
  - assert (h0 : get_harmonics_unsorted argsort l nh = Ok (G0, n0)).
    { unfold get_harmonics in H0. destruct (get_harmonics_unsorted argsort l nh) as [[a b]|]; cbn in H0; congruence. }
    destruct (@gh_of _ hs l nh true G0 n0 h0) as [G [H hp]]. rewrite H.
    split; [auto|]. split; [auto|]. exact (@gh_sorted _ hs l nh G n0 H).
  - unfold get_harmonics in H0 |- *.
    destruct (get_harmonics_unsorted argsort l nh) as [[a b]|]; cbn in H0 |- *; congruence.
Qed.
Print Assumptions C66_sorted.

(** ** Concrete cases *)

Example C0x_argsort : argsort_ok isort := isort_ok.

Example C01_case : exists r, reciprocal hexagonal = Ok r /\ m10 r <> 0.
Proof.
  rewrite rec_hexagonal. eexists; split; [reflexivity|]. cbn. destruct sqrt3 as [h3 _]. pose proof PI_RGT_0.
  apply Rmult_integral_contrapositive_currified; [nra | apply Rinv_neq_0_compat; lra].
Qed.

Example C02_case : exists G, get_harmonics isort (lattice_1D 1 (64, 64)%Z None) 6 true = Ok (G, 5%Z) /\
  In (-2, 0)%Z G /\ ~ In (3, 0)%Z G.
Proof.
  destruct (@C02_one_dim isort isort_ok 1 (64, 64)%Z 6%Z true) as [G [n [H [[_ hG] [hn hle]]]]].
  assert (n = 5%Z).
  { unfold get_harmonics in H. cbn [get_harmonics_unsorted lt_harm lt_trunc lattice_1D bind] in H.
    apply (f_equal (fun r => match r with Ok z => snd z | Err _ => 0%Z end)) in H. cbn in H. auto. }
  subst n. exists G. split; [congruence|]. rewrite !hG. vm_compute. split; [split; [auto|discriminate]|]. intros [_ h]; apply h; auto.
Qed.

Example C03_case : exists G, get_harmonics isort (square false) 30 true = Ok (G, 25%Z) /\ In (2, -2)%Z G.
Proof.
  destruct (@C03_parallelogrammic isort isort_ok (Mat2 1 0 0 1) (256, 256)%Z 30%Z true ltac:(cbn; lra) ltac:(lia))
    as [G [M [H [h1 [h2 [_ h3]]]]]].
  assert (M = 2%Z) by nia. subst M. exists G. split; [exact H|]. apply h3; lia.
Qed.

Example C04_case : exists G n, get_harmonics isort (square true) 100 true = Ok (G, n) /\ In (0, 0)%Z G /\ (1 <= n < 100)%Z.
Proof.
  destruct (@C04_circular isort isort_ok (Mat2 1 0 0 1) (256, 256)%Z 100%Z true _ (rec_square true) sep_square ltac:(lia))
    as [G [n [H [_ [h0 [_ [_ h1]]]]]]]. exists G, n. auto.
Qed.

Example C05_case : exists G, get_harmonics isort (square true) 6 true = Ok (G, 5%Z) /\ forall o, In o G <-> In o star.
Proof. apply star_square, isort_ok. Qed.

Example C08_case : exists G, get_harmonics isort (square true) 6 true = Ok (G, 5%Z) /\
  In (1, 0)%Z G /\ In (0, -1)%Z G /\ ~ In (1, 1)%Z G.
Proof.
  destruct (star_square isort_ok true) as [G [H hG]]. exists G. split; [exact H|].
  rewrite !hG, !in_star. lia.
Qed.

(** The five orders around zero: sorting moves (-1, 0) to the front. *)
Example C66_case : exists G, get_harmonics isort (square true) 6 true = Ok (G, 5%Z) /\ nth 0 G (0, 0)%Z = (-1, 0)%Z.
Proof.
  destruct (star_square isort_ok true) as [G [H hG]]. exists G. split; [exact H|].
  pose proof (C66_sorted isort_ok (square true) 6) as h. rewrite H in h.
  destruct (get_harmonics isort (square true) 6 false) as [[G0 n0]|]; [|contradiction].
  destruct h as [_ [hp hs]].
  assert (hm : In (-1, 0)%Z G) by (apply hG; rewrite in_star; lia).
  destruct (In_nth _ _ (0, 0)%Z hm) as [k [hk e]].
  assert (h0 := hs 0%nat k ltac:(lia)). rewrite e in h0; cbn [fst] in h0.
  assert (hi : In (nth 0 G (0, 0)%Z) G) by (apply nth_In; lia).
  apply hG in hi. destruct (nth 0 G (0, 0)%Z) as [a b]. rewrite in_star in hi. cbn [fst] in h0.
  assert (ha : a = (-1)%Z) by nia. subst a. assert (hb : b = 0%Z) by nia. subst b; reflexivity.
Qed.

(** Well-formedness of the circular set, single-order request, counterexamples. *)
From Coq Require Import Reals ZArith List Lia Lra Permutation.
From Verif Require Import Base Lattice_Model Lattice_Spec Lattice_Proofs.
Import ListNotations.
Set Implicit Arguments.
Local Open Scope R_scope.

(** Every order but the zeroth has a sort key above the tolerance. *)
Definition separates (Lk : mat2) : Prop :=
  forall a b : Z, (a, b) <> (0, 0)%Z -> tol Lk < Gl2 Lk (a, b).

Lemma IZR_sq_ge1 a : (a <> 0)%Z -> 1 <= IZR a ^ 2.
Proof.
  intros h. replace (IZR a ^ 2) with (IZR (a * a)) by (rewrite mult_IZR; ring).
  apply IZR_le. nia.
Qed.

Lemma separates_intro Lk : tol Lk < u0 Lk ^ 2 - Rabs (udot Lk) -> separates Lk.
Proof.
  intros h a b hab. pose proof (tol_ge0 Lk) as ht.
  unfold Gl2; cbn [fst snd]. set (x := IZR a). set (y := IZR b).
  assert (h1 : 1 <= x ^ 2 + y ^ 2).
  { destruct (Z.eq_dec a 0) as [->|ha].
    - assert (b <> 0)%Z by (intros ->; apply hab; reflexivity).
      pose proof (IZR_sq_ge1 H). fold y in H0. pose proof (pow2_ge_0 x). lra.
    - pose proof (IZR_sq_ge1 ha). fold x in H. pose proof (pow2_ge_0 y). lra. }
  pose proof (Rle_abs (udot Lk)) as hu1. pose proof (Rle_abs (- udot Lk)) as hu2. rewrite Rabs_Ropp in hu2.
  set (d := Rabs (udot Lk)) in *. set (m := u0 Lk ^ 2) in *.
  assert (h2 : - (x ^ 2 + y ^ 2) * d <= 2 * x * y * udot Lk).
  { assert (0 <= (x - y) ^ 2) by apply pow2_ge_0. assert (0 <= (x + y) ^ 2) by apply pow2_ge_0.
    assert (0 <= (d - udot Lk) * (x - y) ^ 2) by (apply Rmult_le_pos; [lra | auto]).
    assert (0 <= (d + udot Lk) * (x + y) ^ 2) by (apply Rmult_le_pos; [lra | auto]).
    nra. }
  assert ((m - d) * 1 <= (m - d) * (x ^ 2 + y ^ 2)) by (apply Rmult_le_compat_l; lra).
  nra.
Qed.

Lemma separates_elim Lk : separates Lk -> tol Lk < u0 Lk ^ 2 /\ tol Lk < 2 * (u0 Lk ^ 2 - Rabs (udot Lk)).
Proof.
  intros h. split.
  - pose proof (h 1%Z 0%Z ltac:(discriminate)) as h1. unfold Gl2 in h1; cbn [fst snd] in h1.
    set (m := u0 Lk ^ 2) in *. lra.
  - pose proof (h 1%Z 1%Z ltac:(discriminate)) as h1. pose proof (h 1%Z (-1)%Z ltac:(discriminate)) as h2.
    unfold Gl2 in h1, h2; cbn [fst snd] in h1, h2.
    set (m := u0 Lk ^ 2) in *. unfold Rabs; destruct (Rcase_abs _); lra.
Qed.

Section Circular.
Variable argsort : list R -> list nat.
Hypothesis hsort : argsort_ok argsort.

Lemma Gl2_zero Lk : Gl2 Lk (0, 0)%Z = 0.
Proof. unfold Gl2; cbn [fst snd]. ring. Qed.

Lemma circular_zeroth nh Lk G n : circular_truncation argsort nh Lk = Ok (G, n) ->
  (2 <= nh)%Z -> separates Lk -> In (0, 0)%Z G.
Proof.
  intros H hn hs. destruct (@circular_cut _ hsort nh Lk G n H) as [e0 [e1 [[h0 h1] [he0 [he1 _]]]]].
  eapply (@circular_shells _ hsort nh Lk G n e0 e1 [(0, 0)%Z] 0); eauto.
  - constructor; [intros [] | constructor].
  - cbn; lia.
  - apply Nat.lt_le_trans with (length [(0,0); (1,0)]%Z); [cbn; lia|].
    apply NoDup_incl_length.
    + constructor; [intros [h|[]]; discriminate | constructor; [intros [] | constructor]].
    + intros [a b] [h|[h|[]]]; injection h; intros; subst; apply in_cands; lia.
  - intros [a b]. cbn [In]. split.
    + intros [h|[]]. injection h; intros; subst. split; [apply in_cands; lia|]. rewrite Gl2_zero; lra.
    + intros [hc hle]. left. destruct (order_dec (0, 0)%Z (a, b)) as [|hne]; [auto|exfalso].
      assert (hne' : (a, b) <> (0, 0)%Z) by congruence.
      pose proof (hs a b hne'). pose proof (tol_ge0 Lk). lra.
  - intros [a b] _ hno. assert (hne' : (a, b) <> (0, 0)%Z) by (intros e; apply hno; left; auto).
    pose proof (hs a b hne'). lra.
  - left; auto.
Qed.

Lemma circular_wf nh Lk : ucross Lk <> 0 -> separates Lk -> (2 <= nh)%Z ->
  exists G n, circular_truncation argsort nh Lk = Ok (G, n) /\
  NoDup G /\ In (0, 0)%Z G /\ negation_closed G /\ n = Z.of_nat (length G) /\ (1 <= n < nh)%Z.
Proof.
  intros hx hs hn. destruct (@circular_ok argsort nh Lk hx ltac:(lia)) as [G [n H]].
  exists G, n. destruct (@circular_cut _ hsort nh Lk G n H) as [e0 [e1 [_ [_ [_ [hnd [hlen [hlt _]]]]]]]].
  pose proof (@circular_zeroth nh Lk G n H hn hs) as h0.
  repeat split; auto.
  - apply (@circular_neg _ hsort nh Lk G n H).
  - destruct G as [|x G]; [destruct h0|]. cbn [length] in hlen. lia.
Qed.

Lemma circular_two Lk : ucross Lk <> 0 -> separates Lk ->
  circular_truncation argsort 2 Lk = Ok ([(0, 0)%Z], 1%Z).
Proof.
  intros hx hs. destruct (@circular_wf 2 Lk hx hs ltac:(lia)) as [G [n [H [hnd [h0 [_ [hlen hn]]]]]]].
  rewrite H. assert (hl : length G = 1%nat) by lia.
  destruct G as [|x [|y G]]; cbn in hl; try lia. destruct h0 as [->|[]]. subst n; reflexivity.
Qed.

(** Every order whose reciprocal vector (rows of Lk) lies within the search
    radius is a candidate. *)
Lemma cands_cover nh Lk e0 e1 a b : ucross Lk <> 0 ->
  extent nh Lk (u0 Lk) = Ok e0 -> extent nh Lk (u1 Lk) = Ok e1 ->
  klen2 (m00 Lk) (m01 Lk) (m10 Lk) (m11 Lk) a b
    <= (sqrt (IZR nh * Rabs (ucross Lk) / PI) + u0 Lk + u1 Lk) ^ 2 ->
  In (a, b) (cands e0 e1).
Proof.
  intros hx he0 he1. destruct (@rows_nonzero Lk hx) as [hp [hd [h0 h1]]].
  set (r := sqrt _ + u0 Lk + u1 Lk).
  assert (hr : 0 <= r).
  { unfold r. pose proof (sqrt_pos (IZR nh * Rabs (ucross Lk) / PI)). lra. }
  set (s := sqrt (1 - udot Lk ^ 2 / (u0 Lk * u1 Lk) ^ 2)).
  assert (hs : 0 < s) by (apply sqrt_lt_R0; auto).
  assert (hsu : (u0 Lk * u1 Lk * s) ^ 2 = ucross Lk ^ 2).
  { rewrite Rpow_mult_distr. unfold s. rewrite pow2_sqrt by lra.
    rewrite <- (lagrange Lk) in *. pose proof (lagrange Lk) as hl.
    assert (0 < udot Lk ^ 2 + ucross Lk ^ 2).
    { rewrite hl. apply pow_lt; auto. } field. lra. }
  intros hle.
  assert (hint : forall q e (x : Z), 0 < q -> extent nh Lk q = Ok e -> IZR x ^ 2 * (q * s) ^ 2 <= r ^ 2 ->
    (Z.abs x <= e)%Z).
  { intros q e x hq he hxr. assert (hqs : 0 < q * s) by (apply Rmult_lt_0_compat; auto).
    unfold extent in he. destruct (Req_EM_T _ 0); [discriminate|].
    destruct (Req_EM_T _ 0) as [|hd']; [discriminate|].
    apply (f_equal (fun r => match r with Ok z => z | Err _ => 0%Z end)) in he.
    cbv beta iota zeta in he. fold s r in he.
    assert (hax : IZR (Z.abs x) <= r / (q * s)).
    { apply Rmult_le_reg_r with (q * s); auto. unfold Rdiv. rewrite Rmult_assoc, Rinv_l by lra.
      rewrite Rmult_1_r. apply Rsqr_incr_0_var; auto. rewrite !Rsqr_pow2, Rpow_mult_distr.
      replace (IZR (Z.abs x) ^ 2) with (IZR x ^ 2); auto.
      rewrite abs_IZR, <- !Rsqr_pow2. apply Rsqr_abs. }
    assert (hz : 0 <= r / (q * s)).
    { eapply Rle_trans; [|exact hax]. apply IZR_le. lia. }
    unfold trunc in he. destruct (Rle_dec 0 (r / (q * s))); [|contradiction].
    destruct (base_Int_part (r / (q * s))) as [_ hb].
    subst e. apply Z.lt_succ_r, lt_IZR. rewrite <- Z.add_1_r, !plus_IZR. cbn [IZR IPR]. lra. }
  unfold klen2 in hle.
  assert (hid0 : IZR a ^ 2 * ucross Lk ^ 2 <=
    ((IZR a * m00 Lk + IZR b * m10 Lk) ^ 2 + (IZR a * m01 Lk + IZR b * m11 Lk) ^ 2) * u1 Lk ^ 2).
  { unfold u1, row_norm, ucross. rewrite pow2_sqrt by nra.
    set (X := IZR a * m00 Lk + IZR b * m10 Lk). set (Y := IZR a * m01 Lk + IZR b * m11 Lk).
    replace (IZR a ^ 2 * (m00 Lk * m11 Lk - m01 Lk * m10 Lk) ^ 2) with ((X * m11 Lk - Y * m10 Lk) ^ 2)
      by (unfold X, Y; ring).
    assert (0 <= (X * m10 Lk + Y * m11 Lk) ^ 2) by apply pow2_ge_0. nra. }
  assert (hid1 : IZR b ^ 2 * ucross Lk ^ 2 <=
    ((IZR a * m00 Lk + IZR b * m10 Lk) ^ 2 + (IZR a * m01 Lk + IZR b * m11 Lk) ^ 2) * u0 Lk ^ 2).
  { unfold u0, row_norm, ucross. rewrite pow2_sqrt by nra.
    set (X := IZR a * m00 Lk + IZR b * m10 Lk). set (Y := IZR a * m01 Lk + IZR b * m11 Lk).
    replace (IZR b ^ 2 * (m00 Lk * m11 Lk - m01 Lk * m10 Lk) ^ 2) with ((X * m01 Lk - Y * m00 Lk) ^ 2)
      by (unfold X, Y; ring).
    assert (0 <= (X * m00 Lk + Y * m01 Lk) ^ 2) by apply pow2_ge_0. nra. }
  set (Q := (IZR a * m00 Lk + IZR b * m10 Lk) ^ 2 + _) in *.
  assert (hq0 : 0 < u0 Lk ^ 2) by (apply pow_lt; auto).
  assert (hq1 : 0 < u1 Lk ^ 2) by (apply pow_lt; auto).
  apply in_cands. split.
  - apply (hint (u0 Lk)); auto. apply Rle_trans with Q; auto.
    apply Rmult_le_reg_r with (u1 Lk ^ 2); auto.
    replace (IZR a ^ 2 * (u0 Lk * s) ^ 2 * u1 Lk ^ 2) with (IZR a ^ 2 * ((u0 Lk * u1 Lk * s) ^ 2)) by ring.
    rewrite hsu. auto.
  - apply (hint (u1 Lk)); auto. apply Rle_trans with Q; auto.
    apply Rmult_le_reg_r with (u0 Lk ^ 2); auto.
    replace (IZR b ^ 2 * (u1 Lk * s) ^ 2 * u0 Lk ^ 2) with (IZR b ^ 2 * ((u0 Lk * u1 Lk * s) ^ 2)) by ring.
    rewrite hsu. auto.
Qed.

(** Five-point star around the origin. *)
Definition star : list order := [(0, 0); (1, 0); (-1, 0); (0, 1); (0, -1)]%Z.

Lemma in_star a b : In (a, b) star <-> (a * a + b * b <= 1)%Z.
Proof.
  unfold star; cbn [In]. split.
  - intros h; repeat destruct h as [h|h]; try (injection h; intros; subst; lia); destruct h.
  - intros h. assert (-1 <= a <= 1 /\ -1 <= b <= 1)%Z as [h1 h2] by nia.
    assert (ha : (a = -1 \/ a = 0 \/ a = 1)%Z) by lia. assert (hb : (b = -1 \/ b = 0 \/ b = 1)%Z) by lia.
    destruct ha as [->|[->| ->]]; destruct hb as [->|[->| ->]]; try lia; tauto.
Qed.

Lemma star_nodup : NoDup star.
Proof.
  unfold star. repeat (constructor; [cbn [In]; intros h; repeat destruct h as [h|h]; try discriminate; auto|]).
  constructor.
Qed.

(** Lattices with orthogonal reciprocal rows: the six-order request returns the star. *)
Lemma circular_star Lk G n : udot Lk = 0 -> 0 < u0 Lk -> tol Lk < u0 Lk ^ 2 ->
  circular_truncation argsort 6 Lk = Ok (G, n) -> (forall o, In o G <-> In o star) /\ n = 5%Z.
Proof.
  intros hd h0 ht H. destruct (@circular_cut _ hsort 6%Z Lk G n H) as [e0 [e1 [[h0' h1'] [he0 [he1 _]]]]].
  assert (hg : forall a b, Gl2 Lk (a, b) = IZR (a * a + b * b) * u0 Lk ^ 2).
  { intros a b. unfold Gl2; cbn [fst snd]. rewrite hd, plus_IZR, !mult_IZR. ring. }
  assert (hp : 0 < u0 Lk ^ 2) by (apply pow_lt; auto).
  apply (@circular_shells_exact _ hsort 6%Z Lk G n e0 e1 star (u0 Lk ^ 2)); auto.
  - apply star_nodup.
  - apply Nat.lt_le_trans with (length ((1, 1)%Z :: star)); [cbn; lia|]. apply NoDup_incl_length.
    + constructor; [|apply star_nodup]. rewrite in_star; lia.
    + intros [a b] [h|h]; [injection h; intros; subst; apply in_cands; lia|].
      apply in_star in h. apply in_cands. nia.
  - intros [a b]. rewrite in_star, hg, in_cands. split.
    + intros h. split; [nia|]. apply Rle_trans with (1 * u0 Lk ^ 2); [|lra].
      apply Rmult_le_compat_r; [lra|]. apply IZR_le; auto.
    + intros [_ h]. apply le_IZR. apply Rmult_le_reg_r with (u0 Lk ^ 2); auto. lra.
  - intros [a b] _ hno. rewrite in_star in hno. rewrite hg.
    assert (h2 : 2 <= IZR (a * a + b * b)) by (apply IZR_le; lia). nra.
Qed.

(** A metric that takes negative values, with a two-order request: nothing is kept. *)
Lemma circular_indefinite Lk G n : ucross Lk <> 0 -> (exists a b, (-1 <= a <= 1)%Z /\ (-1 <= b <= 1)%Z /\ Gl2 Lk (a, b) < 0) ->
  circular_truncation argsort 2 Lk = Ok (G, n) -> G = [] /\ n = 0%Z.
Proof.
  intros hx [a0 [b0 [ha0 [hb0 hneg]]]] H.
  destruct (@circular_cut _ hsort 2%Z Lk G n H) as [e0 [e1 [[h0 h1] [_ [_ [hnd [hlen [hlt [hin hcl]]]]]]]]].
  destruct G as [|[a b] G]; [split; auto|exfalso].
  (* some kept order has negative metric, so it is not its own opposite *)
  assert (hk : In (a0, b0) (cands e0 e1)) by (apply in_cands; lia).
  assert (hab : exists c d, In (c, d) ((a, b) :: G) /\ (c, d) <> (0, 0)%Z).
  { destruct (Rle_dec (Gl2 Lk (a0, b0)) (Gl2 Lk (a, b) + tol Lk)) as [hle|hgt].
    - exists a0, b0. split; [apply (hcl (a, b)); auto; left; auto|].
      intros e. rewrite e, Gl2_zero in hneg. lra.
    - exists a, b. split; [left; auto|]. intros e. rewrite e, Gl2_zero in hgt.
      pose proof (tol_ge0 Lk). lra. }
  destruct hab as [c [d [hcd hne]]].
  pose proof (@circular_neg _ hsort _ _ _ _ H c d hcd) as hcd'.
  assert (2 <= length ((a, b) :: G))%nat; [|lia].
  change 2%nat with (length [(c, d); (- c, - d)%Z]). apply NoDup_incl_length.
  - constructor; [|constructor; [intros []|constructor]]. intros [h|[]]. apply hne. injection h. intros. f_equal; lia.
  - intros o [<-|[<-|[]]]; auto.
Qed.

End Circular.

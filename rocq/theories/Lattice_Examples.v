(** Concrete lattices: square, rectangular, oblique and hexagonal. *)
From Coq Require Import Reals ZArith List Lia Lra Permutation.
From Verif Require Import Base Lattice_Model Lattice_Spec Lattice_Proofs Lattice_Proofs2 Lattice_Proofs3.
Import ListNotations.
Set Implicit Arguments.
Local Open Scope R_scope.

Lemma rec_rect l p q : lt_basis l = Mat2 p 0 0 q -> p <> 0 -> q <> 0 ->
  reciprocal l = Ok (Mat2 (2 * PI / p) 0 0 (2 * PI / q)).
Proof.
  intros hb hp hq. assert (hD : det2 (lt_basis l) <> 0).
  { rewrite hb; unfold det2; cbn. replace (p * q - 0 * 0) with (p * q) by ring.
    apply Rmult_integral_contrapositive_currified; auto. }
  rewrite (reciprocal_ok l hD). cbn zeta. unfold det2 in *; rewrite hb in *; cbn [m00 m01 m10 m11] in *.
  do 2 f_equal; field; auto.
Qed.

Definition square (tr : bool) : lattice := lattice_2D (Mat2 1 0 0 1) tr (256, 256)%Z None.
Definition flat : lattice := lattice_2D (Mat2 1 0 0 (/ 10)) true (256, 256)%Z None.
Definition oblique : lattice := lattice_2D (Mat2 1 0 2 1) true (256, 256)%Z None.
Definition hexagonal : lattice := lattice_2D (Mat2 1 0 (/ 2) (sqrt 3 / 2)) true (256, 256)%Z None.

Lemma rec_square tr : reciprocal (square tr) = Ok (Mat2 (2 * PI) 0 0 (2 * PI)).
Proof. rewrite (@rec_rect (square tr) 1 1 eq_refl) by lra. do 2 f_equal; field. Qed.

Lemma rec_flat : reciprocal flat = Ok (Mat2 (2 * PI) 0 0 (20 * PI)).
Proof. rewrite (@rec_rect flat 1 (/ 10) eq_refl) by lra. do 2 f_equal; field. Qed.

Lemma rec_oblique : reciprocal oblique = Ok (Mat2 (2 * PI) 0 (- 4 * PI) (2 * PI)).
Proof.
  assert (h : det2 (lt_basis oblique) <> 0) by (unfold det2; cbn; lra).
  rewrite (reciprocal_ok oblique h). unfold det2; cbn. do 2 f_equal; field.
Qed.

Lemma sqrt3 : 0 < sqrt 3 /\ sqrt 3 * sqrt 3 = 3.
Proof. split; [apply sqrt_lt_R0; lra | apply sqrt_sqrt; lra]. Qed.

Lemma rec_hexagonal : reciprocal hexagonal = Ok (Mat2 (2 * PI) 0 (- 2 * PI / sqrt 3) (4 * PI / sqrt 3)).
Proof.
  destruct sqrt3 as [h3 hs].
  assert (h : det2 (lt_basis hexagonal) <> 0) by (unfold det2; cbn; lra).
  rewrite (reciprocal_ok hexagonal h). unfold det2; cbn [lt_basis hexagonal lattice_2D m00 m01 m10 m11].
  do 2 f_equal; field; lra.
Qed.

Lemma sep_square : zeroth_isolated (2 * PI) 0 0 (2 * PI).
Proof.
  apply (separates_metric (Mat2 (2 * PI) 0 0 (2 * PI))), separates_intro.
  rewrite tol_metric, u0_sq. unfold shell_tol, udot; cbn [m00 m01 m10 m11].
  replace (2 * PI * 0 + 0 * (2 * PI)) with 0 by ring. rewrite Rabs_R0.
  rewrite Rmax_left by (pose proof PI_RGT_0; nra).
  pose proof PI_RGT_0. nra.
Qed.

Section Ex.
Variable argsort : list R -> list nat.
Hypothesis hsort : argsort_ok argsort.

Lemma star_flat s : exists G, get_harmonics argsort flat 6 s = Ok (G, 5%Z) /\ forall o, In o G <-> In o star.
Proof.
  set (r := Mat2 (2 * PI) 0 0 (20 * PI)). pose proof PI_RGT_0 as hpi.
  assert (hx : ucross r <> 0) by apply (ucross_reciprocal _ rec_flat).
  destruct (@circular_ok argsort 6 r hx ltac:(lia)) as [G0 [n H]].
  destruct (@circular_star _ hsort r G0 n) as [h1 h2]; auto.
  - unfold udot, r; cbn. ring.
  - apply (@rows_nonzero r hx).
  - rewrite tol_metric, u0_sq. unfold shell_tol, r; cbn [m00 m01 m10 m11].
    rewrite Rmax_right by nra. nra.
  - destruct (@gh_circular_of _ hsort _ _ 6%Z s r G0 n rec_flat H) as [G [HG hp]]. subst n.
    exists G. split; [exact HG|]. intros o. rewrite <- h1.
    split; apply Permutation_in; auto. apply Permutation_sym; auto.
Qed.

Lemma star_square s : exists G, get_harmonics argsort (square true) 6 s = Ok (G, 5%Z) /\ forall o, In o G <-> In o star.
Proof.
  set (r := Mat2 (2 * PI) 0 0 (2 * PI)). pose proof PI_RGT_0 as hpi.
  assert (hx : ucross r <> 0) by apply (ucross_reciprocal _ (rec_square true)).
  destruct (@circular_ok argsort 6 r hx ltac:(lia)) as [G0 [n H]].
  destruct (@circular_star _ hsort r G0 n) as [h1 h2]; auto.
  - unfold udot, r; cbn. ring.
  - apply (@rows_nonzero r hx).
  - rewrite tol_metric, u0_sq. unfold shell_tol, r; cbn [m00 m01 m10 m11].
    rewrite Rmax_right by nra. nra.
  - destruct (@gh_circular_of _ hsort _ _ 6%Z s r G0 n (rec_square true) H) as [G [HG hp]]. subst n.
    exists G. split; [exact HG|]. intros o. rewrite <- h1.
    split; apply Permutation_in; auto. apply Permutation_sym; auto.
Qed.

Lemma oblique_empty s : get_harmonics argsort oblique 2 s = Ok ([], 0%Z).
Proof.
  set (r := Mat2 (2 * PI) 0 (- 4 * PI) (2 * PI)). pose proof PI_RGT_0 as hpi.
  assert (hx : ucross r <> 0) by apply (ucross_reciprocal _ rec_oblique).
  destruct (@circular_ok argsort 2 r hx ltac:(lia)) as [G0 [n H]].
  destruct (@circular_indefinite _ hsort r G0 n hx) as [-> ->]; auto.
  - exists 1%Z, 1%Z. repeat split; try lia. rewrite Gl2_metric. unfold shell_metric, r; cbn [m00 m01 m10 m11]. nra.
  - destruct (@gh_circular_of _ hsort _ _ 2%Z s r [] 0%Z rec_oblique H) as [G [HG hp]].
    apply Permutation_sym, Permutation_nil in hp. subst G. exact HG.
Qed.

(** Hexagonal lattice, four orders requested: only one pair out of the six
    shortest vectors is kept. *)
Lemma hexagonal_three s : exists G, get_harmonics argsort hexagonal 4 s = Ok (G, 3%Z) /\
  forall o, In o G <-> In o [(0, 0); (1, 1); (-1, -1)]%Z.
Proof.
  destruct sqrt3 as [h3 hs].
  set (r := Mat2 (2 * PI) 0 (- 2 * PI / sqrt 3) (4 * PI / sqrt 3)). pose proof PI_RGT_0 as hpi.
  assert (hx : ucross r <> 0) by apply (ucross_reciprocal _ rec_hexagonal).
  destruct (@circular_ok argsort 4 r hx ltac:(lia)) as [G0 [n H]].
  destruct (@circular_cut _ hsort 4%Z r G0 n H) as [e0 [e1 [[h0' h1'] [he0 [he1 _]]]]].
  set (t := 2 / sqrt 3).
  assert (ht : t * t = 4 / 3) by (unfold t; transitivity (4 / (sqrt 3 * sqrt 3)); [field; lra | rewrite hs; field]).
  assert (ht0 : 0 < t) by (unfold t; apply Rmult_lt_0_compat; [lra | apply Rinv_0_lt_compat; auto]).
  assert (htb : 1.1 < t < 1.2) by nra.
  set (k := 4 * PI ^ 2). assert (hk : 0 < k) by (unfold k; nra).
  assert (hg : forall a b, Gl2 r (a, b) = k * (IZR ((a - b) * (a - b)) + (2 - t) * IZR (a * b))).
  { intros a b. rewrite Gl2_metric. unfold shell_metric, r, k, t; cbn [m00 m01 m10 m11].
    rewrite !mult_IZR, !minus_IZR. field. lra. }
  assert (htol : tol r <= k / 1000000).
  { rewrite tol_metric. unfold shell_tol, r; cbn [m00 m01 m10 m11].
    replace ((- 2 * PI / sqrt 3) ^ 2 + (4 * PI / sqrt 3) ^ 2) with (k * (5 * (t * t) / 4)).
    - rewrite ht. unfold k. rewrite Rmax_right by nra. nra.
    - unfold k, t. field. lra. }
  set (K := [(0, 0); (1, 1); (-1, -1)]%Z).
  assert (hK : forall a b, ~ In (a, b) K -> k <= Gl2 r (a, b)).
  { intros a b hno. rewrite hg. rewrite <- (Rmult_1_r k) at 1. apply Rmult_le_compat_l; [lra|].
    destruct (Z_le_gt_dec (a * b) 0) as [hab|hab].
    - (* (a-b)^2 - t' a b with (a-b)^2 >= 1 - 2ab *)
      assert (h1 : (1 - 2 * (a * b) <= (a - b) * (a - b))%Z).
      { assert (a <> 0 \/ b <> 0)%Z.
        { destruct (Z.eq_dec a 0), (Z.eq_dec b 0); auto. subst. exfalso; apply hno; left; auto. }
        nia. }
      apply IZR_le in h1. rewrite minus_IZR, (mult_IZR 2) in h1. apply IZR_le in hab. cbn [IZR IPR IPR_2] in *. nra.
    - destruct (Z.eq_dec a b) as [->|hne].
      + assert (h4 : (4 <= b * b)%Z).
        { destruct (Z.eq_dec b 1) as [->|]; [exfalso; apply hno; right; left; auto|].
          destruct (Z.eq_dec b (-1)) as [->|]; [exfalso; apply hno; right; right; left; auto|]. nia. }
        apply IZR_le in h4. replace ((b - b) * (b - b))%Z with 0%Z by ring. cbn [IZR IPR IPR_2] in *. nra.
      + assert (h1 : (1 <= (a - b) * (a - b))%Z) by nia. apply IZR_le in h1.
        assert (h2 : (1 <= a * b)%Z) by lia. apply IZR_le in h2. nra. }
  assert (hK' : forall a b, In (a, b) K -> Gl2 r (a, b) <= (2 - t) * k).
  { intros a b h. rewrite hg. unfold K in h; cbn [In] in h.
    repeat destruct h as [h|h]; try (injection h; intros; subst; cbn [Z.sub Z.mul Z.add Z.opp Pos.mul Z.pos_sub]; nra). destruct h. }
  destruct (@circular_shells_exact _ hsort 4%Z r G0 n e0 e1 K ((2 - t) * k)) as [h1 h2]; auto.
  - unfold K. repeat (constructor; [cbn [In]; intros h; repeat destruct h as [h|h]; try discriminate; auto|]).
    constructor.
  - apply Nat.lt_le_trans with (length ((1, 0)%Z :: K)); [cbn; lia|]. apply NoDup_incl_length.
    + unfold K. repeat (constructor; [cbn [In]; intros h; repeat destruct h as [h|h]; try discriminate; auto|]).
      constructor.
    + intros [a b] h. unfold K in h; cbn [In] in h. apply in_cands.
      repeat destruct h as [h|h]; try (injection h; intros; subst; lia). destruct h.
  - intros [a b]. split.
    + intros h. split; [|apply hK'; auto]. unfold K in h; cbn [In] in h. apply in_cands.
      repeat destruct h as [h|h]; try (injection h; intros; subst; lia). destruct h.
    + intros [_ h]. destruct (in_dec order_dec (a, b) K) as [|hno]; [auto|exfalso].
      apply hK in hno. nra.
  - intros [a b] _ hno. apply hK in hno. nra.
  - destruct (@gh_circular_of _ hsort _ _ 4%Z s r G0 n rec_hexagonal H) as [G [HG hp]]. subst n.
    exists G. split; [exact HG|]. intros o. fold K. rewrite <- h1.
    split; apply Permutation_in; auto. apply Permutation_sym; auto.
Qed.

End Ex.

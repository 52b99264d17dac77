(** Proofs about Lattice_Model. *)
From Coq Require Import Reals ZArith List Lia Lra Permutation.
From Verif Require Import Base Lattice_Model Lattice_Spec.
Import ListNotations.
Set Implicit Arguments.
Local Open Scope R_scope.

(** ------------------------------------------------------------------ *)
(** * Reciprocal lattice *)

Lemma reciprocal_ok l : det2 (lt_basis l) <> 0 ->
  let D := det2 (lt_basis l) in let B := lt_basis l in
  reciprocal l = Ok (Mat2 (2 * PI * (m11 B / D)) (2 * PI * (- m01 B / D))
                          (2 * PI * (- m10 B / D)) (2 * PI * (m00 B / D))).
Proof.
  intros hD; cbn zeta. unfold reciprocal, inv2, matrix, transpose, scale2, det2 in *; cbn.
  replace (m00 (lt_basis l) * m11 (lt_basis l) - m10 (lt_basis l) * m01 (lt_basis l))
    with (m00 (lt_basis l) * m11 (lt_basis l) - m01 (lt_basis l) * m10 (lt_basis l)) by ring.
  destruct (Req_EM_T _ 0); [contradiction | reflexivity].
Qed.

Lemma reciprocal_err l : det2 (lt_basis l) = 0 -> reciprocal l = Err LinAlgError.
Proof.
  intros hD. unfold reciprocal, inv2, matrix, transpose, det2 in *; cbn.
  replace (m00 (lt_basis l) * m11 (lt_basis l) - m10 (lt_basis l) * m01 (lt_basis l))
    with 0 by (rewrite <- hD; ring).
  destruct (Req_EM_T _ 0); [reflexivity | contradiction].
Qed.

Lemma reciprocal_dual l r : reciprocal l = Ok r ->
  let L := lt_basis l in
  m00 r * m00 L + m10 r * m01 L = 2 * PI /\
  m01 r * m10 L + m11 r * m11 L = 2 * PI /\
  m00 r * m10 L + m10 r * m11 L = 0 /\
  m01 r * m00 L + m11 r * m01 L = 0.
Proof.
  intros H. destruct (Req_dec (det2 (lt_basis l)) 0) as [e|hD].
  { rewrite reciprocal_err in H by assumption. discriminate. }
  rewrite reciprocal_ok in H by assumption. injection H; intros; subst r; cbn.
  subst L. unfold det2 in *. repeat split; field; assumption.
Qed.

Lemma area_dual l r : reciprocal l = Ok r -> lt_is1D l = false ->
  area l * Rabs (det2 r) = (2 * PI) ^ 2.
Proof.
  intros H h1. destruct (Req_dec (det2 (lt_basis l)) 0) as [e|hD].
  { rewrite reciprocal_err in H by assumption. discriminate. }
  rewrite reciprocal_ok in H by assumption. injection H; intros; subst r; unfold area.
  rewrite h1, <- Rabs_mult. transitivity (Rabs ((2 * PI) ^ 2)).
  - f_equal. unfold det2 in *; cbn. field; assumption.
  - apply Rabs_pos_eq. apply pow2_ge_0.
Qed.

(** ------------------------------------------------------------------ *)
(** * Integer ranges *)

Lemma in_zseq n : forall a x, In x (zseq a n) <-> (a <= x < a + Z.of_nat n)%Z.
Proof.
  induction n as [|n IH]; intros a x.
  - cbn; lia.
  - cbn [zseq In]. rewrite IH. rewrite Nat2Z.inj_succ. lia.
Qed.

Lemma zseq_len n : forall a, length (zseq a n) = n.
Proof. induction n as [|n IH]; intros a; cbn; [|rewrite IH]; reflexivity. Qed.

Lemma zseq_nodup n : forall a, NoDup (zseq a n).
Proof.
  induction n as [|n IH]; intros a; cbn; constructor; auto.
  rewrite in_zseq; lia.
Qed.

Lemma in_arange a b x : In x (arange a b) <-> (a <= x < b)%Z.
Proof. unfold arange. rewrite in_zseq. lia. Qed.

Lemma arange_nodup a b : NoDup (arange a b).
Proof. apply zseq_nodup. Qed.

Lemma arange_len a b : (a <= b)%Z -> Z.of_nat (length (arange a b)) = (b - a)%Z.
Proof. intros h. unfold arange. rewrite zseq_len. lia. Qed.

Lemma in_grid xs ys a b : In (a, b) (grid xs ys) <-> In a xs /\ In b ys.
Proof. apply in_prod_iff. Qed.

Lemma NoDup_app_intro (A : Type) (l1 l2 : list A) : NoDup l1 -> NoDup l2 ->
  (forall x, In x l1 -> In x l2 -> False) -> NoDup (l1 ++ l2).
Proof.
  intros h1 h2; induction h1 as [|x l1 hx h1 IH]; intros hd; cbn; auto.
  constructor.
  - rewrite in_app_iff; intros [h|h]; [auto|]. apply (hd x); cbn; auto.
  - apply IH. intros y hy hy'. apply (hd y); cbn; auto.
Qed.

Lemma grid_nodup xs ys : NoDup xs -> NoDup ys -> NoDup (grid xs ys).
Proof.
  intros hx hy; induction hx as [|x xs hx hxs IH]; cbn; [constructor|].
  apply NoDup_app_intro; auto.
  - apply FinFun.Injective_map_NoDup; auto. intros u v; congruence.
  - intros [a b] h1 h2. apply in_map_iff in h1. destruct h1 as [? [e _]].
    injection e; intros; subst. apply in_prod_iff in h2. tauto.
Qed.

Lemma grid_len xs ys : length (grid xs ys) = (length xs * length ys)%nat.
Proof. apply prod_length. Qed.

(** ------------------------------------------------------------------ *)
(** * 1D truncation *)

Lemma quot_half nh : (Z.quot (nh - 1) 2 = if (nh <=? 0)%Z then - ((1 - nh) / 2) else (nh - 1) / 2)%Z.
Proof.
  destruct (Z.leb_spec nh 0).
  - replace (nh - 1)%Z with (- (1 - nh))%Z by lia.
    rewrite Z.quot_opp_l by lia. rewrite Z.quot_div_nonneg by lia. reflexivity.
  - apply Z.quot_div_nonneg; lia.
Qed.

Lemma in_oned n a b : (In (a, b) (flat_map (fun i => [(i, 0); (- i, 0)]) (arange 1 (n + 1))) <->
  b = 0 /\ a <> 0 /\ Z.abs a <= n)%Z.
Proof.
  rewrite in_flat_map. split.
  - intros [i [hi h]]. apply in_arange in hi. cbn in h.
    destruct h as [h|[h|[]]]; injection h; intros; subst; lia.
  - intros [h0 [h1 h2]]. exists (Z.abs a). rewrite in_arange. split; [lia|].
    cbn. destruct (Z.abs_spec a) as [[_ e]|[_ e]]; rewrite e; subst b; [left|right;left]; f_equal; lia.
Qed.

Lemma oned_nodup n : NoDup (flat_map (fun i => [(i, 0); (- i, 0)]%Z) (arange 1 (n + 1))).
Proof.
  unfold arange. generalize (Z.to_nat (n + 1 - 1)). intros m.
  assert (H : forall m a, (0 < a)%Z -> NoDup (flat_map (fun i => [(i, 0); (- i, 0)]%Z) (zseq a m))).
  { clear. induction m as [|m IH]; intros a ha; cbn [zseq flat_map app]; [constructor|].
    assert (hn : forall x y, In (x, y) (flat_map (fun i => [(i, 0); (- i, 0)]%Z) (zseq (a + 1) m)) ->
      (a < Z.abs x)%Z).
    { intros x y h. apply in_flat_map in h. destruct h as [i [hi h]]. apply in_zseq in hi.
      cbn in h. destruct h as [h|[h|[]]]; injection h; intros; subst; lia. }
    constructor; [|constructor].
    - cbn; intros [h|h]; [injection h; lia|]. apply hn in h; lia.
    - intros h. apply hn in h; lia.
    - apply IH; lia. }
  apply H; lia.
Qed.

Lemma one_dim_spec nh :
  lists_exactly (fst (one_dim_truncation nh)) (fun a b => b = 0 /\ Z.abs a <= Z.max 0 (Z.quot (nh - 1) 2))%Z.
Proof.
  unfold one_dim_truncation, lists_exactly; cbn [fst].
  split.
  - constructor; [|apply oned_nodup]. rewrite in_oned. lia.
  - intros a b. cbn [In]. rewrite in_oned. split.
    + intros [h|h]; [injection h; intros; subst; lia | lia].
    + intros [h1 h2]. destruct (Z.eq_dec a 0) as [->|ha]; [left; congruence | right; lia].
Qed.

Lemma one_dim_count nh : snd (one_dim_truncation nh) = (1 + 2 * Z.max 0 (Z.quot (nh - 1) 2))%Z.
Proof.
  unfold one_dim_truncation; cbn [fst snd]. cbn [length].
  assert (H : forall l : list Z, length (flat_map (fun i => [(i, 0); (- i, 0)]%Z) l) = (2 * length l)%nat).
  { induction l as [|x l IH]; cbn [flat_map app length]; [reflexivity|]. rewrite IH; cbn; lia. }
  rewrite H. unfold arange. rewrite zseq_len. lia.
Qed.

(** ------------------------------------------------------------------ *)
(** * Sorting *)

Section Sort.
Variable argsort : list R -> list nat.
Hypothesis hsort : argsort_ok argsort.

Lemma argsort_len l : length (argsort l) = length l.
Proof. destruct (hsort l) as [h _]. rewrite (Permutation_length h), seq_length. reflexivity. Qed.

Lemma map_nth_seq (A : Type) (l : list A) d : map (fun j => nth j l d) (seq 0 (length l)) = l.
Proof.
  induction l as [|x l IH]; cbn [length seq map nth]; auto.
  f_equal. rewrite <- seq_shift, map_map. exact IH.
Qed.

Lemma reorder_perm G keys : length keys = length G -> Permutation (reorder G (argsort keys)) G.
Proof.
  intros h. destruct (hsort keys) as [hp _]. unfold reorder.
  apply Permutation_trans with (map (fun j => nth j G (0, 0)%Z) (seq 0 (length G))).
  - rewrite <- h. apply Permutation_map. exact hp.
  - rewrite map_nth_seq. apply Permutation_refl.
Qed.

Lemma in_reorder G keys o : length keys = length G -> (In o (reorder G (argsort keys)) <-> In o G).
Proof.
  intros h; split; apply Permutation_in; [|apply Permutation_sym]; apply reorder_perm; auto.
Qed.

Lemma reorder_nodup G keys : length keys = length G -> NoDup G -> NoDup (reorder G (argsort keys)).
Proof.
  intros h hn. eapply Permutation_NoDup; [|exact hn]. apply Permutation_sym, reorder_perm; auto.
Qed.

Lemma reorder_len G keys : length keys = length G -> length (reorder G (argsort keys)) = length G.
Proof. intros h. apply Permutation_length, reorder_perm; auto. Qed.

Lemma argsort_lt l i : (i < length l)%nat -> (nth i (argsort l) 0 < length l)%nat.
Proof.
  intros hi. destruct (hsort l) as [hp _].
  assert (h : In (nth i (argsort l) 0%nat) (seq 0 (length l))).
  { eapply Permutation_in; [exact hp|]. apply nth_In. rewrite argsort_len; auto. }
  apply in_seq in h; lia.
Qed.

Lemma nth_reorder_key (f : order -> R) G i : (i < length G)%nat ->
  nth i (map (fun j => nth j (map f G) 0) (argsort (map f G))) 0 =
  f (nth i (reorder G (argsort (map f G))) (0, 0)%Z).
Proof.
  intros hi. unfold reorder.
  assert (hl : length (argsort (map f G)) = length G) by (rewrite argsort_len, map_length; auto).
  rewrite nth_indep with (d' := nth 0 (map f G) 0) by (rewrite map_length, hl; auto).
  rewrite map_nth with (f := fun j => nth j (map f G) 0).
  rewrite nth_indep with (d := (0, 0)%Z) (d' := nth 0 G (0, 0)%Z) by (rewrite map_length, hl; auto).
  rewrite map_nth with (f := fun j => nth j G (0, 0)%Z).
  assert (hlt : (nth i (argsort (map f G)) 0 < length (map f G))%nat)
    by (apply argsort_lt; rewrite map_length; auto).
  rewrite nth_indep with (d' := f (0, 0)%Z) by auto.
  apply map_nth.
Qed.

Lemma reorder_sorted (f : order -> R) G i j : (i <= j < length G)%nat ->
  f (nth i (reorder G (argsort (map f G))) (0, 0)%Z) <= f (nth j (reorder G (argsort (map f G))) (0, 0)%Z).
Proof.
  intros hij. rewrite <- !nth_reorder_key by lia.
  destruct (hsort (map f G)) as [_ h]. rewrite map_length in h.
  assert (hl : length (argsort (map f G)) = length G) by (rewrite argsort_len, map_length; auto).
  rewrite nth_indep with (d' := nth 0 (map f G) 0) by (rewrite map_length, hl; lia).
  rewrite map_nth with (f := fun j => nth j (map f G) 0).
  rewrite nth_indep with (n := j) (d' := nth 0 (map f G) 0) by (rewrite map_length, hl; lia).
  rewrite map_nth with (f := fun j => nth j (map f G) 0).
  apply h; auto.
Qed.

(** ------------------------------------------------------------------ *)
(** * Parallelogrammic truncation *)

Lemma odd_half r : Z.odd r = true -> (r = 2 * (r / 2) + 1)%Z.
Proof. intros h. pose proof (Z.div_mod r 2). pose proof (Zmod_odd r). rewrite h in *. lia. Qed.

Lemma root_odd nh : (1 <= nh)%Z ->
  let r := Z.sqrt nh in let n := if Z.even r then (r - 1)%Z else r in
  (Z.odd n = true /\ 1 <= n /\ n * n <= nh < (n + 2) * (n + 2))%Z.
Proof.
  intros h r n. assert (hr : (1 <= r)%Z).
  { subst r. change 1%Z with (Z.sqrt 1). apply Z.sqrt_le_mono; lia. }
  pose proof (Z.sqrt_spec nh ltac:(lia)) as hs. fold r in hs. unfold Z.succ in hs.
  subst n. destruct (Z.even r) eqn:he.
  - rewrite Z.odd_sub, <- Z.negb_even, he. cbn. split; auto.
    assert (r <> 1)%Z by (intros ->; discriminate). nia.
  - rewrite <- Z.negb_even, he. cbn. split; auto. nia.
Qed.

Lemma parallelogramic_spec nh Lk : (1 <= nh)%Z -> exists G M,
  parallelogramic_truncation argsort nh Lk = Ok (G, (2 * M + 1) * (2 * M + 1))%Z /\
  (0 <= M /\ (2 * M + 1) * (2 * M + 1) <= nh < (2 * M + 3) * (2 * M + 3))%Z /\
  Z.of_nat (length G) = ((2 * M + 1) * (2 * M + 1))%Z /\
  lists_exactly G (fun a b => Z.abs a <= M /\ Z.abs b <= M)%Z.
Proof.
  intros h. pose proof (root_odd h) as hr. cbn zeta in hr.
  unfold parallelogramic_truncation. destruct (Z.ltb_spec nh 0); [lia|].
  cbn zeta. set (n := if Z.even (Z.sqrt nh) then _ else _) in *.
  destruct hr as [ho [h1 h2]]. pose proof (odd_half _ ho) as hn.
  set (M := (n / 2)%Z) in *.
  set (ax := arange (- M) (n - M)). set (G := grid ax ax).
  assert (hax : Z.of_nat (length ax) = n) by (unfold ax; rewrite arange_len; lia).
  assert (hG : Z.of_nat (length G) = (n * n)%Z) by (unfold G; rewrite grid_len; lia).
  set (S0 := reorder G (argsort (map (Gl2 Lk) G))).
  assert (hk : length (map (Gl2 Lk) G) = length G) by apply map_length.
  assert (hS : length S0 = length G) by (apply reorder_len; auto).
  exists S0, M. rewrite firstn_all2 by lia.
  split; [rewrite <- hn; reflexivity|]. split; [nia|]. split; [rewrite hS, hG, <- hn; reflexivity|].
  split.
  - apply reorder_nodup; auto. apply grid_nodup; apply arange_nodup.
  - intros a b. unfold S0. rewrite in_reorder by auto. unfold G, ax. rewrite in_grid, !in_arange. lia.
Qed.

(** ------------------------------------------------------------------ *)
(** * Circular truncation *)

Lemma scan_le keys t i : (scan keys t i <= i)%nat.
Proof. induction i as [|i IH]; cbn; [lia|]. destruct (Rlt_dec _ _); lia. Qed.

Lemma scan_gap keys t i j : scan keys t i = S j -> t < Rabs (nth (S j) keys 0 - nth j keys 0).
Proof.
  induction i as [|i IH]; cbn [scan]; [discriminate|].
  destruct (Rlt_dec _ _) as [h|h]; [intros e; injection e; intros; subst; auto | auto].
Qed.

Lemma scan_stop keys t i j : (scan keys t i <= j < i)%nat -> Rabs (nth (S j) keys 0 - nth j keys 0) <= t.
Proof.
  induction i as [|i IH]; cbn [scan]; [lia|].
  destruct (Rlt_dec _ _) as [h|h]; [lia|]. intros hj.
  destruct (Nat.eq_dec i j) as [->|]; [lra|]. apply IH; lia.
Qed.

Lemma trunc_ge0 x : 0 <= x -> (0 <= trunc x)%Z.
Proof.
  intros hx. unfold trunc. destruct (Rle_dec 0 x); [|contradiction].
  destruct (base_Int_part x) as [_ h]. apply Z.lt_succ_r, lt_IZR. rewrite succ_IZR. lra.
Qed.

Lemma u0_ge0 Lk : 0 <= u0 Lk. Proof. apply sqrt_pos. Qed.
Lemma u1_ge0 Lk : 0 <= u1 Lk. Proof. apply sqrt_pos. Qed.

Lemma extent_pos nh Lk q e : 0 <= q -> extent nh Lk q = Ok e -> (1 <= e)%Z.
Proof.
  intros hq. unfold extent. destruct (Req_EM_T _ 0); [discriminate|].
  destruct (Req_EM_T _ 0) as [|hd]; [discriminate|].
  intros h. apply (f_equal (fun r => match r with Ok z => z | Err _ => 0%Z end)) in h.
  cbv beta iota zeta in h. subst e.
  set (c := _ + u1 Lk) in *. set (d := q * _) in *.
  enough (0 <= trunc (c / d))%Z by lia. apply trunc_ge0.
  apply Rmult_le_pos.
  - unfold c. pose proof (u0_ge0 Lk). pose proof (u1_ge0 Lk).
    pose proof (sqrt_pos (IZR nh * Rabs (ucross Lk) / PI)). lra.
  - apply Rlt_le, Rinv_0_lt_compat. assert (h0 : 0 <= d).
    { unfold d. apply Rmult_le_pos; [auto | apply sqrt_pos]. }
    destruct h0 as [h0|h0]; [exact h0 | congruence].
Qed.

(** What the function keeps: a prefix of the sorted candidates, cut at the last
    gap before position nh. *)
Lemma circular_shape nh Lk G n : circular_truncation argsort nh Lk = Ok (G, n) ->
  exists e0 e1, let C := grid (arange (- e0) (e0 + 1)) (arange (- e1) (e1 + 1)) in
  let srt := reorder C (argsort (map (Gl2 Lk) C)) in
  let key := fun i => Gl2 Lk (nth i srt (0, 0)%Z) in
  extent nh Lk (u0 Lk) = Ok e0 /\ extent nh Lk (u1 Lk) = Ok e1 /\
  exists i, G = firstn i srt /\ n = Z.of_nat i /\
  (i < length srt)%nat /\ (Z.of_nat i < nh)%Z /\
  (forall j, i = S j -> tol Lk < key i - key j) /\
  (forall j, (i <= j)%nat -> (Z.of_nat (S j) < nh)%Z -> (S j < length srt)%nat -> key (S j) - key j <= tol Lk).
Proof.
  unfold circular_truncation. destruct (Z.ltb_spec nh 0); [discriminate|].
  intros H1. ubind H1 e0 he0. ubind H1 e1 he1.
  exists e0, e1. set (C := grid _ _) in *. cbn zeta. set (srt := reorder _ _) in *.
  set (N := ((2 * e0 + 1) * (2 * e1 + 1))%Z) in *.
  set (nt := if (nh <? N)%Z then nh else N) in *.
  destruct (Z.leb_spec nt 0) as [|hnt]; [discriminate|].
  injection H1; intros hn hG. split; [auto|]. split; [auto|].
  set (ks := map _ (argsort _)) in *.
  set (i := scan _ _ _) in *.
  pose proof (@extent_pos nh Lk _ e0 (u0_ge0 Lk) he0) as hp0.
  pose proof (@extent_pos nh Lk _ e1 (u1_ge0 Lk) he1) as hp1.
  assert (hC : (Z.of_nat (length C) = N)%Z).
  { unfold C, N. rewrite grid_len, Nat2Z.inj_mul, !arange_len by lia. f_equal; lia. }
  assert (hSl : length srt = length C) by (apply reorder_len, map_length).
  assert (hntC : (nt <= Z.of_nat (length C))%Z).
  { unfold nt in *. destruct (Z.ltb_spec nh N); [|lia]. lia. }
  assert (hi : (i <= Z.to_nat (nt - 1))%nat) by apply scan_le.
  assert (hntn : (nt <= nh)%Z) by (unfold nt; destruct (Z.ltb_spec nh N); lia).
  assert (hmono : forall a b, (a <= b < length C)%nat ->
     Gl2 Lk (nth a srt (0, 0)%Z) <= Gl2 Lk (nth b srt (0, 0)%Z)) by (intros; apply reorder_sorted; auto).
  exists i. split; [auto|]. split; [auto|]. split; [lia|]. split; [lia|].
  assert (hkey : forall j, (j < length C)%nat -> nth j ks 0 = Gl2 Lk (nth j srt (0, 0)%Z)).
  { intros j hj. apply nth_reorder_key; auto. }
  split.
  - intros j hj. pose proof (scan_gap ks (tol Lk) (Z.to_nat (nt - 1)) hj) as hg.
    rewrite !hkey in hg by lia. rewrite Rabs_pos_eq in hg; [rewrite hj; exact hg|].
    pose proof (hmono j (S j)). enough (Gl2 Lk (nth j srt (0, 0)%Z) <= Gl2 Lk (nth (S j) srt (0, 0)%Z)) by lra.
    apply hmono; lia.
  - intros j hij hj hl.
    assert (hjn : (S j <= Z.to_nat (nt - 1))%nat).
    { unfold nt in *. destruct (Z.ltb_spec nh N); lia. }
    pose proof (@scan_stop ks (tol Lk) (Z.to_nat (nt - 1)) j ltac:(fold i; lia)) as hg.
    rewrite !hkey in hg by lia. rewrite Rabs_pos_eq in hg; [exact hg|].
    assert (Gl2 Lk (nth j srt (0, 0)%Z) <= Gl2 Lk (nth (S j) srt (0, 0)%Z)) by (apply hmono; lia). lra.
Qed.

Lemma Gl2_opp Lk a b : Gl2 Lk (- a, - b)%Z = Gl2 Lk (a, b).
Proof. unfold Gl2; cbn [fst snd]. rewrite !opp_IZR. ring. Qed.

Lemma lagrange Lk : udot Lk ^ 2 + ucross Lk ^ 2 = (u0 Lk * u1 Lk) ^ 2.
Proof.
  unfold udot, ucross, u0, u1, row_norm. rewrite Rpow_mult_distr, !pow2_sqrt by nra. ring.
Qed.

Lemma rows_nonzero Lk : ucross Lk <> 0 -> 0 < u0 Lk * u1 Lk /\
  0 < 1 - udot Lk ^ 2 / (u0 Lk * u1 Lk) ^ 2 /\ 0 < u0 Lk /\ 0 < u1 Lk.
Proof.
  intros h. pose proof (lagrange Lk) as hl.
  pose proof (u0_ge0 Lk) as h0. pose proof (u1_ge0 Lk) as h1.
  assert (hc : 0 < ucross Lk ^ 2) by (rewrite <- Rsqr_pow2; apply Rsqr_pos_lt; auto).
  assert (hd : 0 <= udot Lk ^ 2) by apply pow2_ge_0.
  assert (hp : 0 < u0 Lk * u1 Lk).
  { destruct (Rmult_le_pos _ _ h0 h1) as [hh|hh]; auto. rewrite <- hh in hl. cbn [pow] in *. nra. }
  assert (0 < u0 Lk) by (destruct h0 as [|e]; auto; rewrite <- e in hp; lra).
  assert (0 < u1 Lk) by (destruct h1 as [|e]; auto; rewrite <- e in hp; lra).
  repeat split; auto.
  assert (hq : 0 < (u0 Lk * u1 Lk) ^ 2) by (apply pow_lt; auto).
  replace (1 - udot Lk ^ 2 / (u0 Lk * u1 Lk) ^ 2) with (ucross Lk ^ 2 / (u0 Lk * u1 Lk) ^ 2).
  - apply Rmult_lt_0_compat; auto. apply Rinv_0_lt_compat; auto.
  - rewrite <- hl in *. field. lra.
Qed.

Lemma extent_ok nh Lk q : ucross Lk <> 0 -> 0 < q -> exists e, extent nh Lk q = Ok e.
Proof.
  intros h hq. destruct (@rows_nonzero Lk h) as [h1 [h2 _]]. unfold extent.
  destruct (Req_EM_T _ 0) as [e|_]; [exfalso; lra|].
  destruct (Req_EM_T _ 0) as [e|_]; [exfalso|eexists; reflexivity].
  pose proof (sqrt_lt_R0 _ h2). nra.
Qed.

Lemma circular_ok nh Lk : ucross Lk <> 0 -> (1 <= nh)%Z ->
  exists G n, circular_truncation argsort nh Lk = Ok (G, n).
Proof.
  intros h hn. destruct (@rows_nonzero Lk h) as [_ [_ [h0 h1]]].
  destruct (@extent_ok nh Lk _ h h0) as [e0 he0]. destruct (@extent_ok nh Lk _ h h1) as [e1 he1].
  pose proof (@extent_pos nh Lk _ e0 (u0_ge0 Lk) he0) as hp0.
  pose proof (@extent_pos nh Lk _ e1 (u1_ge0 Lk) he1) as hp1.
  unfold circular_truncation. destruct (Z.ltb_spec nh 0); [lia|].
  rewrite he0, he1; cbn [bind].
  destruct (Z.leb_spec (if (nh <? (2 * e0 + 1) * (2 * e1 + 1))%Z then nh else ((2 * e0 + 1) * (2 * e1 + 1))%Z) 0)
    as [hh|hh]; [|do 2 eexists; reflexivity].
  exfalso. destruct (Z.ltb_spec nh ((2 * e0 + 1) * (2 * e1 + 1))); nia.
Qed.

Lemma tol_ge0 Lk : 0 <= tol Lk.
Proof.
  unfold tol. apply Rmult_le_pos; [lra|]. eapply Rle_trans; [|apply Rmax_l]. apply pow2_ge_0.
Qed.

(** The candidates: a centred box. *)
Definition cands (e0 e1 : Z) : list order := grid (arange (- e0) (e0 + 1)) (arange (- e1) (e1 + 1)).

Lemma in_cands e0 e1 a b : In (a, b) (cands e0 e1) <-> (Z.abs a <= e0 /\ Z.abs b <= e1)%Z.
Proof. unfold cands. rewrite in_grid, !in_arange. lia. Qed.

Lemma cands_nodup e0 e1 : NoDup (cands e0 e1).
Proof. apply grid_nodup; apply arange_nodup. Qed.

Lemma in_firstn (A : Type) (l : list A) i x d : In x (firstn i l) <->
  exists j, (j < i)%nat /\ (j < length l)%nat /\ nth j l d = x.
Proof.
  revert i; induction l as [|y l IH]; intros i.
  - rewrite firstn_nil; cbn. split; [tauto|]. intros [j [_ [h _]]]; lia.
  - destruct i as [|i]; cbn [firstn In length nth].
    + split; [tauto|]. intros [j [h _]]; lia.
    + rewrite IH. split.
      * intros [->|[j [h1 [h2 h3]]]]; [exists 0%nat; cbn; repeat split; auto; lia|].
        exists (S j); cbn; repeat split; auto; lia.
      * intros [[|j] [h1 [h2 h3]]]; [left; auto|right; exists j; cbn in *; repeat split; auto; lia].
Qed.

(** The result is a set of candidates cut at a gap of the metric. *)
Lemma circular_cut nh Lk G n : circular_truncation argsort nh Lk = Ok (G, n) ->
  exists e0 e1, (1 <= e0 /\ 1 <= e1)%Z /\ extent nh Lk (u0 Lk) = Ok e0 /\ extent nh Lk (u1 Lk) = Ok e1 /\
  NoDup G /\ n = Z.of_nat (length G) /\ (n < nh)%Z /\ (forall o, In o G -> In o (cands e0 e1)) /\
  (forall o c, In o G -> In c (cands e0 e1) -> Gl2 Lk c <= Gl2 Lk o + tol Lk -> In c G).
Proof.
  intros H. destruct (@circular_shape nh Lk G n H) as [e0 [e1 [he0 [he1 [i hi]]]]].
  pose proof (@extent_pos nh Lk _ e0 (u0_ge0 Lk) he0) as hp0.
  pose proof (@extent_pos nh Lk _ e1 (u1_ge0 Lk) he1) as hp1.
  exists e0, e1. fold (cands e0 e1) in hi.
  set (srt := reorder _ _) in *. destruct hi as [hG [hn [hil [hinh [hgap hrest]]]]].
  assert (hk : length (map (Gl2 Lk) (cands e0 e1)) = length (cands e0 e1)) by apply map_length.
  assert (hl : length srt = length (cands e0 e1)) by (apply reorder_len; auto).
  assert (hin : forall o, In o srt <-> In o (cands e0 e1)) by (intros o; apply in_reorder; auto).
  assert (hmono : forall a b, (a <= b < length (cands e0 e1))%nat ->
     Gl2 Lk (nth a srt (0, 0)%Z) <= Gl2 Lk (nth b srt (0, 0)%Z)) by (intros; apply reorder_sorted; auto).
  split; [auto|]. split; [auto|]. split; [auto|]. subst G.
  split.
  { assert (hnd : NoDup srt) by (apply reorder_nodup; [auto | apply cands_nodup]).
    rewrite <- (firstn_skipn i srt) in hnd. clear -hnd. induction (firstn i srt) as [|x l IH]; [constructor|].
    cbn in hnd. inversion hnd; subst. constructor; [|apply IH; auto]. intros h; apply H1, in_or_app; auto. }
  split; [rewrite firstn_length; lia|]. split; [lia|].
  split.
  { intros o ho. apply hin. rewrite <- (firstn_skipn i srt). apply in_or_app; auto. }
  intros o c ho hc hle. apply hin in hc. apply (In_nth _ _ (0, 0)%Z) in hc. destruct hc as [q [hq1 hq2]].
  apply in_firstn with (d := (0, 0)%Z). exists q. split; [|auto].
  destruct (Nat.lt_ge_cases q i) as [|hqi]; [auto|exfalso].
  apply in_firstn with (d := (0, 0)%Z) in ho. destruct ho as [p [hp [hp1' hp2]]].
  destruct i as [|i]; [lia|]. specialize (hgap i eq_refl).
  assert (Gl2 Lk (nth p srt (0, 0)%Z) <= Gl2 Lk (nth i srt (0, 0)%Z)) by (apply hmono; lia).
  assert (Gl2 Lk (nth (S i) srt (0, 0)%Z) <= Gl2 Lk (nth q srt (0, 0)%Z)) by (apply hmono; split; [auto | rewrite <- hl; exact hq1]).
  rewrite hp2 in *. rewrite hq2 in *. lra.
Qed.

(** Closed under negation, whatever the lattice. *)
Lemma circular_neg nh Lk G n : circular_truncation argsort nh Lk = Ok (G, n) -> negation_closed G.
Proof.
  intros H a b hab. destruct (@circular_cut nh Lk G n H) as [e0 [e1 [_ [_ [_ [_ [_ [_ [hin hcl]]]]]]]]].
  apply (hcl (a, b)); auto.
  - pose proof (hin _ hab) as h. apply in_cands in h. apply in_cands. lia.
  - rewrite Gl2_opp. pose proof (tol_ge0 Lk). lra.
Qed.

Lemma order_dec (x y : order) : {x = y} + {x <> y}.
Proof. decide equality; apply Z.eq_dec. Defined.

(** If [K] is the set of candidates with metric at most [c], nothing else lies
    within the tolerance, and it has fewer elements than the request, [K] is kept. *)
Lemma circular_shells nh Lk G n e0 e1 (K : list order) c :
  circular_truncation argsort nh Lk = Ok (G, n) ->
  extent nh Lk (u0 Lk) = Ok e0 -> extent nh Lk (u1 Lk) = Ok e1 ->
  NoDup K -> (Z.of_nat (length K) < nh)%Z -> (length K < length (cands e0 e1))%nat ->
  (forall o, In o K <-> In o (cands e0 e1) /\ Gl2 Lk o <= c) ->
  (forall o, In o (cands e0 e1) -> ~ In o K -> c + tol Lk < Gl2 Lk o) ->
  forall o, In o K -> In o G.
Proof.
  intros H he0 he1 hK hlen hsmall hKc hout.
  destruct (@circular_shape nh Lk G n H) as [e0' [e1' [he0' [he1' [i hi]]]]].
  assert (e0' = e0) by congruence. assert (e1' = e1) by congruence. subst e0' e1'.
  fold (cands e0 e1) in hi. set (srt := reorder _ _) in *.
  destruct hi as [hG [hn [hil [hinh [hgap hrest]]]]].
  assert (hk : length (map (Gl2 Lk) (cands e0 e1)) = length (cands e0 e1)) by apply map_length.
  assert (hl : length srt = length (cands e0 e1)) by (apply reorder_len; auto).
  assert (hin : forall o, In o srt <-> In o (cands e0 e1)) by (intros o; apply in_reorder; auto).
  assert (hmono : forall a b, (a <= b < length (cands e0 e1))%nat ->
     Gl2 Lk (nth a srt (0, 0)%Z) <= Gl2 Lk (nth b srt (0, 0)%Z)) by (intros; apply reorder_sorted; auto).
  assert (hnd : NoDup srt) by (apply reorder_nodup; [auto | apply cands_nodup]).
  (* the first |K| sorted candidates are exactly K *)
  assert (hpre : forall j, (j < length srt)%nat -> (In (nth j srt (0, 0)%Z) K <-> (j < length K)%nat)).
  { assert (hdown : forall a b, (a <= b < length srt)%nat -> In (nth b srt (0, 0)%Z) K -> In (nth a srt (0, 0)%Z) K).
    { intros a b hab hb. apply hKc. split; [apply hin, nth_In; lia|]. apply hKc in hb.
      pose proof (hmono a b ltac:(lia)). lra. }
    assert (hcount : forall m, (m <= length srt)%nat -> (forall j, (j < m)%nat -> In (nth j srt (0, 0)%Z) K) -> (m <= length K)%nat).
    { intros m hm h. rewrite <- (firstn_length_le srt hm). apply NoDup_incl_length.
      - rewrite <- (firstn_skipn m srt) in hnd. clear -hnd. induction (firstn m srt) as [|x l IH]; [constructor|].
        cbn in hnd. inversion hnd; subst. constructor; [|apply IH; auto]. intros h; apply H1, in_or_app; auto.
      - intros o ho. apply in_firstn with (d := (0, 0)%Z) in ho. destruct ho as [j [h1 [h2 <-]]]. apply h; auto. }
    assert (hcount2 : forall m, (forall j, (m <= j < length srt)%nat -> ~ In (nth j srt (0, 0)%Z) K) -> (length K <= m)%nat).
    { intros m h. destruct (Nat.le_gt_cases (length srt) m) as [hm|hm].
      - assert (length K <= length srt)%nat; [|lia]. apply NoDup_incl_length; auto.
        intros o ho. apply hin, hKc; auto.
      - rewrite <- (firstn_length_le srt (Nat.lt_le_incl _ _ hm)) at 1. apply NoDup_incl_length; auto.
        intros o ho. assert (hs : In o srt) by (apply hin, hKc; auto).
        apply (In_nth _ _ (0, 0)%Z) in hs. destruct hs as [q [hq1 hq2]].
        apply in_firstn with (d := (0, 0)%Z). exists q. split; [|auto].
        destruct (Nat.lt_ge_cases q m) as [|hqm]; [auto|exfalso]. apply (h q); [lia|]. rewrite hq2; auto. }
    intros j hj. split; intros h.
    - assert (S j <= length K)%nat; [|lia]. apply hcount; [lia|].
      intros j' hj'. apply (hdown j' j); auto; lia.
    - destruct (in_dec order_dec (nth j srt (0, 0)%Z) K) as [|hno]; [auto|exfalso].
      assert (length K <= j)%nat; [|lia]. apply hcount2. intros j' hj' hj''. apply hno.
      apply (hdown j j'); auto; lia. }
  assert (hKs : (length K <= length srt)%nat).
  { apply NoDup_incl_length; auto. intros o ho. apply hin, hKc; auto. }
  assert (hik : (length K <= i)%nat).
  { destruct (Nat.le_gt_cases (length K) i) as [|hlt]; [auto|exfalso].
    set (k := length K) in *. destruct k as [|k]; [lia|].
    assert (hs : (S k < length srt)%nat) by lia.
    assert (hg := hrest k ltac:(lia) ltac:(lia) hs).
    assert (h1 : In (nth k srt (0, 0)%Z) K) by (apply hpre; lia).
    assert (h2 : ~ In (nth (S k) srt (0, 0)%Z) K) by (rewrite hpre; lia).
    apply hKc in h1. apply hout in h2; [lra | apply hin, nth_In; lia]. }
  intros o ho. rewrite hG. assert (hs : In o srt) by (apply hin, hKc; auto).
  apply (In_nth _ _ (0, 0)%Z) in hs. destruct hs as [q [hq1 hq2]].
  apply in_firstn with (d := (0, 0)%Z). exists q. split; [|auto].
  assert (q < length K)%nat; [|lia]. apply hpre; auto. rewrite hq2; auto.
Qed.

(** ... and when one more order than [K] has is requested, nothing else is. *)
Lemma circular_shells_exact nh Lk G n e0 e1 (K : list order) c :
  circular_truncation argsort nh Lk = Ok (G, n) ->
  extent nh Lk (u0 Lk) = Ok e0 -> extent nh Lk (u1 Lk) = Ok e1 ->
  NoDup K -> (Z.of_nat (length K) + 1 = nh)%Z -> (length K < length (cands e0 e1))%nat ->
  (forall o, In o K <-> In o (cands e0 e1) /\ Gl2 Lk o <= c) ->
  (forall o, In o (cands e0 e1) -> ~ In o K -> c + tol Lk < Gl2 Lk o) ->
  (forall o, In o G <-> In o K) /\ n = Z.of_nat (length K).
Proof.
  intros H he0 he1 hK hlen hsmall hKc hout.
  assert (h : forall o, In o K -> In o G) by (eapply circular_shells; eauto; lia).
  destruct (@circular_cut nh Lk G n H) as [? [? [_ [_ [_ [hnd [hn [hlt _]]]]]]]].
  assert (hle : (length K <= length G)%nat) by (apply NoDup_incl_length; auto).
  split; [|lia]. intros o; split; [|auto].
  apply (NoDup_length_incl hK); [lia | exact h].
Qed.

End Sort.

(** Proofs about the rasterisation of shapes. *)
From Coq Require Import List Reals ZArith Arith Lra Lia Sorting.Sorted.
From Verif Require Import Base Lattice_Model Optimize_Model Geometry_Model.
Import ListNotations.
Open Scope R_scope.
Set Implicit Arguments.

(** ** Monotone grids *)
Definition between (a b v : R) := a <= v <= b \/ b <= v <= a.

Definition monotone (l : list R) := StronglySorted Rle l \/ StronglySorted Rge l.

Lemma firstn_in T (l : list T) k v : In v (firstn k l) -> In v l.
Proof. intros h. rewrite <- (firstn_skipn k l). apply in_or_app. now left. Qed.
Lemma skipn_in T (l : list T) k v : In v (skipn k l) -> In v l.
Proof. intros h. rewrite <- (firstn_skipn k l). apply in_or_app. now right. Qed.

Lemma ss_firstn (le : R -> R -> Prop) l k : StronglySorted le l -> StronglySorted le (firstn k l).
Proof.
  revert k. induction l as [|a l IH]; intros [|k] H; simpl; try constructor.
  - apply IH. now inversion H.
  - inversion H as [|? ? _ F]. apply Forall_forall. intros v hv. rewrite Forall_forall in F.
    apply F. now apply (firstn_in _ k).
Qed.

Lemma ss_skipn (le : R -> R -> Prop) l k : StronglySorted le l -> StronglySorted le (skipn k l).
Proof.
  revert k. induction l as [|a l IH]; intros [|k] H; simpl; auto.
  apply IH. now inversion H.
Qed.

Lemma mono_firstn l k : monotone l -> monotone (firstn k l).
Proof. intros [H|H]; [left|right]; now apply ss_firstn. Qed.
Lemma mono_skipn l k : monotone l -> monotone (skipn k l).
Proof. intros [H|H]; [left|right]; now apply ss_skipn. Qed.

Lemma ss_bounds (le : R -> R -> Prop) a l v : (forall a, le a a) ->
  StronglySorted le (a :: l) -> In v (a :: l) -> le a v /\ le v (last (a :: l) 0).
Proof.
  intros rf. revert a. induction l as [|b l IH]; intros a H hv.
  - destruct hv as [<-|[]]. simpl. auto.
  - inversion H as [|? ? H' F]. rewrite Forall_forall in F. subst.
    change (last (a :: b :: l) 0) with (last (b :: l) 0).
    destruct hv as [<-|hv].
    + split; auto. apply F. destruct (@exists_last _ (b :: l)) as (l' & z & ->); [easy|].
      rewrite last_last. apply in_or_app. right. now left.
    + split; [now apply F|]. now apply IH.
Qed.

Lemma mono_between a l v : monotone (a :: l) -> In v (a :: l) -> between a (last (a :: l) 0) v.
Proof.
  intros [H|H] hv.
  - left. apply (@ss_bounds Rle a l v Rle_refl H hv).
  - right. destruct (@ss_bounds Rge a l v Rge_refl H hv). lra.
Qed.

(** ** Indexing *)
Lemma nth_firstn T (l : list T) k j d : (j < k)%nat -> nth j (firstn k l) d = nth j l d.
Proof.
  revert k j. induction l as [|a l IH]; intros [|k] [|j] h; simpl; auto; try lia.
  apply IH. lia.
Qed.
Lemma nth_skipn T (l : list T) k j d : nth j (skipn k l) d = nth (k + j) l d.
Proof.
  revert k. induction l as [|a l IH]; intros [|k]; simpl; auto. now destruct j.
Qed.

Section Mask.
Context {G : Type}.
Variable sh : shapely G.
(** The closed set and its interior. *)
Variables closed interior : G -> R -> R -> Prop.

(** Contract of the shapely predicates. *)
Record sound : Prop := Sound {
  int_cl : forall g x y, interior g x y -> closed g x y;
  not_intersects : forall g a b c d, intersects sh g a b c d = false ->
    forall x y, between a b x -> between c d y -> ~ closed g x y;
  contains_rect : forall g a b c d, contains sh g a b c d = true ->
    forall x y, between a b x -> between c d y -> closed g x y;
  contains_pt : forall g x y, contains_point sh g x y = true -> closed g x y;
  contains_int : forall g x y, interior g x y -> contains_point sh g x y = true }.

Hypothesis hs : sound.

(** The value [b] of the mask at the point [(x, y)] is right. *)
Definition right_at (g : G) (x y : R) (b : bool) :=
  (b = true -> closed g x y) /\ (interior g x y -> b = true).

Definition right_mask g (x y : list R) (a : arr) :=
  rows a = length y /\ cols a = length x /\
  forall i j, (i < length y)%nat -> (j < length x)%nat -> right_at g (nth j x 0) (nth i y 0) (at_ a i j).

Lemma half n : (2 <= n)%nat -> (1 <= n / 2 /\ n / 2 < n)%nat.
Proof.
  intros h. split.
  - apply Nat.div_le_lower_bound; lia.
  - apply Nat.div_lt_upper_bound; lia.
Qed.

Lemma nonempty_len T (l : list T) : (1 <= length l)%nat -> l <> [].
Proof. now destruct l; [simpl; lia|]. Qed.

Lemma shape_mask_ok g fuel : forall x y m,
  x <> [] -> y <> [] -> monotone x -> monotone y ->
  rows m = length y -> cols m = length x -> (length x + length y <= fuel + 1)%nat ->
  exists a, shape_mask sh fuel g x y (Some m) = Ok (Some a) /\ right_mask g x y a.
Proof.
  induction fuel as [|fuel IH]; intros x y m hx hy mx my hr hc hf.
  { destruct x; [easy|]. destruct y; [easy|]. simpl in hf. lia. }
  cbn [shape_mask]. rewrite hr, hc.
  destruct x as [|x0 x'] eqn:Ex; [easy|]. rewrite <- Ex in *.
  destruct y as [|y0 y'] eqn:Ey; [easy|]. rewrite <- Ey in *.
  assert (bx : forall j, (j < length x)%nat -> between x0 (last x 0) (nth j x 0)).
  { intros j hj. rewrite Ex. apply mono_between; [now rewrite <- Ex|]. rewrite <- Ex. now apply nth_In. }
  assert (by_ : forall i, (i < length y)%nat -> between y0 (last y 0) (nth i y 0)).
  { intros i hi. rewrite Ey. apply mono_between; [now rewrite <- Ey|]. rewrite <- Ey. now apply nth_In. }
  destruct (intersects sh g x0 (last x 0) y0 (last y 0)) eqn:Ei; cbn [negb].
  2:{ eexists. split; [reflexivity|]. split; [exact hr|]. split; [exact hc|].
      intros i j hi hj. cbn [fill at_]. split; [easy|]. intros hin. exfalso.
      apply (not_intersects hs Ei (bx j hj) (by_ i hi)). now apply (int_cl hs). }
  destruct (contains sh g x0 (last x 0) y0 (last y 0)) eqn:Ec.
  { eexists. split; [reflexivity|]. split; [exact hr|]. split; [exact hc|].
    intros i j hi hj. cbn [fill at_]. split; auto. intros _.
    exact (contains_rect hs _ Ec (bx j hj) (by_ i hi)). }
  assert (lx1 : (1 <= length x)%nat) by (rewrite Ex; simpl; lia).
  assert (ly1 : (1 <= length y)%nat) by (rewrite Ey; simpl; lia).
  destruct (Nat.eqb_spec (length y) 1) as [ey|ey]; destruct (Nat.eqb_spec (length x) 1) as [ex|ex]; cbn [andb].
  - (* one point *)
    eexists. split; [reflexivity|]. split; [exact hr|]. split; [exact hc|].
    intros i j hi hj. cbn [fill at_].
    assert (i = 0%nat) by lia. assert (j = 0%nat) by lia. subst i j.
    rewrite Ex, Ey. cbn [nth]. split; [apply (contains_pt hs)|apply (contains_int hs)].
  - (* one row *)
    set (h := (length x / 2)%nat). destruct (@half (length x)) as [h1 h2]; [lia|]. fold h in h1, h2.
    assert (lf : length (firstn h x) = h) by (rewrite firstn_length; lia).
    assert (ls : length (skipn h x) = (length x - h)%nat) by apply skipn_length.
    destruct (IH (firstn h x) y (slice m 0 (length y) 0 h)) as (a1 & E1 & R1);
      try apply nonempty_len; auto using mono_firstn; try (cbn [slice rows cols]; lia).
    rewrite E1. cbn [bind].
    set (m1 := set_sub m a1 0 (length y) 0 h).
    destruct (IH (skipn h x) y (slice m1 0 (length y) h (length x))) as (a2 & E2 & R2);
      try apply nonempty_len; auto using mono_skipn; try (cbn [slice rows cols]; lia).
    rewrite E2. cbn [bind]. eexists. split; [reflexivity|].
    split; [exact hr|]. split; [exact hc|].
    intros i j hi hj. cbn [set_sub at_ m1].
    destruct R1 as (_ & _ & R1). destruct R2 as (_ & _ & R2).
    replace (0 <=? i)%nat with true by (symmetry; apply Nat.leb_le; lia).
    replace (i <? length y)%nat with true by (symmetry; apply Nat.ltb_lt; lia).
    replace (j <? length x)%nat with true by (symmetry; apply Nat.ltb_lt; lia).
    replace (0 <=? j)%nat with true by (symmetry; apply Nat.leb_le; lia).
    cbn [andb]. rewrite !Nat.sub_0_r, Bool.andb_true_r.
    destruct (Nat.leb_spec h j) as [hj'|hj'].
    + replace (nth j x 0) with (nth (j - h) (skipn h x) 0)
        by (rewrite nth_skipn; f_equal; lia).
      apply R2; lia.
    + replace (j <? h)%nat with true by (symmetry; apply Nat.ltb_lt; lia).
      rewrite <- (nth_firstn x 0 hj'). apply R1; lia.
  - (* one column *)
    set (k := (length y / 2)%nat). destruct (@half (length y)) as [k1 k2]; [lia|]. fold k in k1, k2.
    assert (lf : length (firstn k y) = k) by (rewrite firstn_length; lia).
    assert (ls : length (skipn k y) = (length y - k)%nat) by apply skipn_length.
    destruct (IH x (firstn k y) (slice m 0 k 0 (length x))) as (a1 & E1 & R1);
      try apply nonempty_len; auto using mono_firstn; try (cbn [slice rows cols]; lia).
    rewrite E1. cbn [bind].
    set (m1 := set_sub m a1 0 k 0 (length x)).
    destruct (IH x (skipn k y) (slice m1 k (length y) 0 (length x))) as (a2 & E2 & R2);
      try apply nonempty_len; auto using mono_skipn; try (cbn [slice rows cols]; lia).
    rewrite E2. cbn [bind]. eexists. split; [reflexivity|].
    split; [exact hr|]. split; [exact hc|].
    intros i j hi hj. cbn [set_sub at_ m1].
    destruct R1 as (_ & _ & R1). destruct R2 as (_ & _ & R2).
    replace (0 <=? i)%nat with true by (symmetry; apply Nat.leb_le; lia).
    replace (i <? length y)%nat with true by (symmetry; apply Nat.ltb_lt; lia).
    replace (j <? length x)%nat with true by (symmetry; apply Nat.ltb_lt; lia).
    replace (0 <=? j)%nat with true by (symmetry; apply Nat.leb_le; lia).
    cbn [andb]. rewrite !Nat.sub_0_r, !Bool.andb_true_r.
    destruct (Nat.leb_spec k i) as [hi'|hi'].
    + replace (nth i y 0) with (nth (i - k) (skipn k y) 0)
        by (rewrite nth_skipn; f_equal; lia).
      apply R2; lia.
    + replace (i <? k)%nat with true by (symmetry; apply Nat.ltb_lt; lia).
      rewrite <- (nth_firstn y 0 hi'). apply R1; lia.
  - (* four quadrants *)
    set (h := (length x / 2)%nat). destruct (@half (length x)) as [h1 h2]; [lia|]. fold h in h1, h2.
    set (k := (length y / 2)%nat). destruct (@half (length y)) as [k1 k2]; [lia|]. fold k in k1, k2.
    assert (lfx : length (firstn h x) = h) by (rewrite firstn_length; lia).
    assert (lsx : length (skipn h x) = (length x - h)%nat) by apply skipn_length.
    assert (lfy : length (firstn k y) = k) by (rewrite firstn_length; lia).
    assert (lsy : length (skipn k y) = (length y - k)%nat) by apply skipn_length.
    destruct (IH (firstn h x) (firstn k y) (slice m 0 k 0 h)) as (a1 & E1 & R1);
      try apply nonempty_len; auto using mono_firstn; try (cbn [slice rows cols]; lia).
    rewrite E1. cbn [bind].
    set (m1 := set_sub m a1 0 k 0 h).
    destruct (IH (skipn h x) (firstn k y) (slice m1 0 k h (length x))) as (a2 & E2 & R2);
      try apply nonempty_len; auto using mono_skipn, mono_firstn; try (cbn [slice rows cols]; lia).
    rewrite E2. cbn [bind].
    set (m2 := set_sub m1 a2 0 k h (length x)).
    destruct (IH (firstn h x) (skipn k y) (slice m2 k (length y) 0 h)) as (a3 & E3 & R3);
      try apply nonempty_len; auto using mono_skipn, mono_firstn; try (cbn [slice rows cols]; lia).
    rewrite E3. cbn [bind].
    set (m3 := set_sub m2 a3 k (length y) 0 h).
    destruct (IH (skipn h x) (skipn k y) (slice m3 k (length y) h (length x))) as (a4 & E4 & R4);
      try apply nonempty_len; auto using mono_skipn; try (cbn [slice rows cols]; lia).
    rewrite E4. cbn [bind]. eexists. split; [reflexivity|].
    split; [exact hr|]. split; [exact hc|].
    intros i j hi hj. cbn [set_sub at_ m1 m2 m3].
    destruct R1 as (_ & _ & R1). destruct R2 as (_ & _ & R2).
    destruct R3 as (_ & _ & R3). destruct R4 as (_ & _ & R4).
    replace (0 <=? i)%nat with true by (symmetry; apply Nat.leb_le; lia).
    replace (i <? length y)%nat with true by (symmetry; apply Nat.ltb_lt; lia).
    replace (j <? length x)%nat with true by (symmetry; apply Nat.ltb_lt; lia).
    replace (0 <=? j)%nat with true by (symmetry; apply Nat.leb_le; lia).
    cbn [andb]. rewrite !Nat.sub_0_r, !Bool.andb_true_r.
    destruct (Nat.leb_spec k i) as [hi'|hi']; destruct (Nat.leb_spec h j) as [hj'|hj']; cbn [andb].
    + replace (nth i y 0) with (nth (i - k) (skipn k y) 0) by (rewrite nth_skipn; f_equal; lia).
      replace (nth j x 0) with (nth (j - h) (skipn h x) 0) by (rewrite nth_skipn; f_equal; lia).
      apply R4; lia.
    + replace (j <? h)%nat with true by (symmetry; apply Nat.ltb_lt; lia).
      replace (nth i y 0) with (nth (i - k) (skipn k y) 0) by (rewrite nth_skipn; f_equal; lia).
      rewrite <- (nth_firstn x 0 hj'). apply R3; lia.
    + replace (i <? k)%nat with true by (symmetry; apply Nat.ltb_lt; lia). cbn [andb].
      replace (nth j x 0) with (nth (j - h) (skipn h x) 0) by (rewrite nth_skipn; f_equal; lia).
      rewrite <- (nth_firstn y 0 hi'). apply R2; lia.
    + replace (i <? k)%nat with true by (symmetry; apply Nat.ltb_lt; lia).
      replace (j <? h)%nat with true by (symmetry; apply Nat.ltb_lt; lia). cbn [andb].
      rewrite <- (nth_firstn y 0 hi'), <- (nth_firstn x 0 hj'). apply R1; lia.
Qed.

Lemma shape_mask_none g fuel x y :
  shape_mask sh fuel g x y None = shape_mask sh fuel g x y (Some (zeros_mask (length y) (length x))).
Proof. destruct fuel; reflexivity. Qed.

(** ** The lattice *)
Hypothesis affine_ok : forall a b d e g x y, a * e - b * d <> 0 ->
  (closed (affine sh a b d e g) (a * x + b * y) (d * x + e * y) <-> closed g x y) /\
  (interior (affine sh a b d e g) (a * x + b * y) (d * x + e * y) <-> interior g x y).

Lemma linspace_length n : length (linspace01 n) = n.
Proof. unfold linspace01. now rewrite map_length, seq_length. Qed.

Lemma linspace_mono n : monotone (linspace01 n).
Proof.
  left. unfold linspace01. destruct n as [|n]; [constructor|].
  assert (H : forall k s, StronglySorted Rle
     (map (fun k => if (S n =? 1)%nat then 0 else INR k / INR (S n - 1)) (seq s k))).
  { intros k. induction k as [|k IH]; intros s; cbn [seq map]; constructor; auto.
    apply Forall_forall. intros v hv. apply in_map_iff in hv. destruct hv as [j [<- hj]].
    apply in_seq in hj. destruct (Nat.eqb_spec (S n) 1); [lra|].
    assert (INR s <= INR j) by (apply le_INR; lia).
    apply Rmult_le_compat_r; auto. left. apply Rinv_0_lt_compat, lt_0_INR. lia. }
  apply H.
Qed.

Lemma geometry_mask_ok g lat Nx Ny fuel :
  det2 (matrix lat) <> 0 -> (1 <= Nx)%nat -> (1 <= Ny)%nat -> (Nx + Ny <= fuel + 1)%nat ->
  exists a, geometry_mask sh fuel g lat Nx Ny = Ok (Some a) /\ rows a = Nx /\ cols a = Ny /\
    forall i j, (i < Nx)%nat -> (j < Ny)%nat ->
      right_at g (fst (transform lat (nth i (linspace01 Nx) 0, nth j (linspace01 Ny) 0)))
                 (snd (transform lat (nth i (linspace01 Nx) 0, nth j (linspace01 Ny) 0))) (at_ a i j).
Proof.
  intros hd hx hy hf. unfold geometry_mask.
  unfold inv2. destruct (Req_EM_T (det2 (matrix lat)) 0) as [e|_]; [contradiction|].
  cbn [bind m00 m01 m10 m11]. set (M := matrix lat) in *.
  set (g' := affine sh _ _ _ _ g). rewrite shape_mask_none.
  destruct (@shape_mask_ok g' fuel (linspace01 Nx) (linspace01 Ny)
    (zeros_mask (length (linspace01 Ny)) (length (linspace01 Nx)))) as (a & E & (R1 & R2 & R3));
    rewrite ?linspace_length; auto using linspace_mono;
    try (apply nonempty_len; rewrite linspace_length; lia).
  rewrite !linspace_length in *. rewrite E. cbn [bind]. eexists. split; [reflexivity|].
  cbn [transpose_arr rows cols at_]. split; auto. split; auto.
  intros i j hi hj. specialize (R3 j i hj hi).
  set (u := nth i (linspace01 Nx) 0) in *. set (v := nth j (linspace01 Ny) 0) in *.
  unfold transform. fold M. cbn [fst snd].
  unfold det2 in *. set (D := m00 M * m11 M - m01 M * m10 M) in *.
  assert (ND : m11 M / D * (m00 M / D) - - m01 M / D * (- m10 M / D) <> 0).
  { replace (m11 M / D * (m00 M / D) - - m01 M / D * (- m10 M / D)) with (/ D).
    - now apply Rinv_neq_0_compat.
    - unfold D in *. field. auto. }
  destruct (@affine_ok _ _ _ _ g (m00 M * u + m01 M * v) (m10 M * u + m11 M * v) ND) as [A1 A2].
  fold g' in A1, A2.
  replace (m11 M / D * (m00 M * u + m01 M * v) + - m01 M / D * (m10 M * u + m11 M * v)) with u in A1, A2
    by (unfold D in *; field; auto).
  replace (- m10 M / D * (m00 M * u + m01 M * v) + m00 M / D * (m10 M * u + m11 M * v)) with v in A1, A2
    by (unfold D in *; field; auto).
  destruct R3 as [R3 R4]. split.
  - intros h. now apply A1, R3.
  - intros h. now apply R4, A2.
Qed.
End Mask.

(** ** Half planes: an instance of the contract *)
(** [u x + v y <= c]. *)
Record half_plane := HalfPlane { hp_u : R; hp_v : R; hp_c : R }.

Definition Rleb (a b : R) : bool := if Rle_dec a b then true else false.
Definition hp_val (g : half_plane) x y := hp_u g * x + hp_v g * y.

Definition half_planes : shapely half_plane :=
  Shapely
    (fun g a b c d => Rleb (Rmin (Rmin (hp_val g a c) (hp_val g b c)) (Rmin (hp_val g a d) (hp_val g b d))) (hp_c g))
    (fun g a b c d => Rleb (Rmax (Rmax (hp_val g a c) (hp_val g b c)) (Rmax (hp_val g a d) (hp_val g b d))) (hp_c g))
    (fun g x y => if Rlt_dec (hp_val g x y) (hp_c g) then true else false)
    (fun a b d e g =>
       let D := a * e - b * d in
       HalfPlane ((hp_u g * e - hp_v g * d) / D) ((- hp_u g * b + hp_v g * a) / D) (hp_c g)).

Definition hp_closed g x y := hp_val g x y <= hp_c g.
Definition hp_interior g x y := hp_val g x y < hp_c g.

Lemma lin_bounds k a b v : between a b v -> Rmin (k * a) (k * b) <= k * v <= Rmax (k * a) (k * b).
Proof.
  intros h. destruct (Rle_dec 0 k).
  - destruct h as [h|h].
    + rewrite Rmin_left, Rmax_right by nra. nra.
    + rewrite Rmin_right, Rmax_left by nra. nra.
  - destruct h as [h|h].
    + rewrite Rmin_right, Rmax_left by nra. nra.
    + rewrite Rmin_left, Rmax_right by nra. nra.
Qed.

Lemma hp_bounds g a b c d x y : between a b x -> between c d y ->
  Rmin (Rmin (hp_val g a c) (hp_val g b c)) (Rmin (hp_val g a d) (hp_val g b d)) <= hp_val g x y <=
  Rmax (Rmax (hp_val g a c) (hp_val g b c)) (Rmax (hp_val g a d) (hp_val g b d)).
Proof.
  intros hx hy. unfold hp_val.
  pose proof (lin_bounds (hp_u g) hx) as [A1 A2]. pose proof (lin_bounds (hp_v g) hy) as [B1 B2].
  set (p := hp_u g * a) in *. set (q := hp_u g * b) in *. set (r := hp_v g * c) in *.
  set (s := hp_v g * d) in *. unfold Rmin, Rmax in *.
  repeat match goal with
  | |- context [Rle_dec ?a ?b] => destruct (Rle_dec a b)
  | H : context [Rle_dec ?a ?b] |- _ => destruct (Rle_dec a b)
  end; lra.
Qed.

Lemma half_planes_sound : sound half_planes hp_closed hp_interior.
Proof.
  split.
  - unfold hp_closed, hp_interior. intros. lra.
  - intros g a b c d H x y hx hy h. cbn in H. unfold Rleb in H.
    pose proof (hp_bounds g hx hy) as [B _]. unfold hp_closed in h.
    match type of H with (if ?t then _ else _) = _ => destruct t as [|n] end; [discriminate|]. lra.
  - intros g a b c d H x y hx hy. cbn in H. unfold Rleb in H.
    pose proof (hp_bounds g hx hy) as [_ B]. unfold hp_closed.
    match type of H with (if ?t then _ else _) = _ => destruct t as [|n] end; [|discriminate]. lra.
  - intros g x y. cbn. unfold hp_closed. destruct (Rlt_dec _ _); [lra|discriminate].
  - intros g x y. cbn. unfold hp_interior. destruct (Rlt_dec _ _); [auto|lra].
Qed.

Lemma half_planes_affine a b d e g x y : a * e - b * d <> 0 ->
  (hp_closed (affine half_planes a b d e g) (a * x + b * y) (d * x + e * y) <-> hp_closed g x y) /\
  (hp_interior (affine half_planes a b d e g) (a * x + b * y) (d * x + e * y) <-> hp_interior g x y).
Proof.
  intros h. unfold hp_closed, hp_interior.
  assert (E : hp_val (affine half_planes a b d e g) (a * x + b * y) (d * x + e * y) = hp_val g x y).
  { unfold hp_val. cbn. field. auto. }
  rewrite E. cbn. tauto.
Qed.

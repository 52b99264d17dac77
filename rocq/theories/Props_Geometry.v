(** Rasterised shapes (properties C41, C42, C59 and C60). *)
From Coq Require Import List Reals ZArith Arith Lra Lia Sorting.Sorted.
From Verif Require Import Base Lattice_Model Optimize_Model Geometry_Model Geometry_Proofs.
Import ListNotations.
Open Scope R_scope.

Section Props.
Variable G : Type.
Variable sh : shapely G.
Variables closed interior : G -> R -> R -> Prop.
(** The contract of shapely: the answers about rectangles and points are those
    of a closed set and its interior. *)
Hypothesis hs : sound sh closed interior.

(** ** C41 *)
(** For every monotone grid and every initial mask (or none) the recursion ends,
    and the entry [i, j] of the mask is true at points of the interior and only
    at points of the closed shape. *)
Theorem C41_shape_mask g x y m fuel :
  x <> [] -> y <> [] -> monotone x -> monotone y ->
  match m with None => True | Some m => rows m = length y /\ cols m = length x end ->
  (length x + length y <= fuel + 1)%nat ->
  exists a, shape_mask sh fuel g x y m = Ok (Some a) /\
    rows a = length y /\ cols a = length x /\
    forall i j, (i < length y)%nat -> (j < length x)%nat ->
      (interior g (nth j x 0) (nth i y 0) -> at_ a i j = true) /\
      (~ closed g (nth j x 0) (nth i y 0) -> at_ a i j = false).
Proof.
  intros hx hy mx my hm hf.
  destruct (@shape_mask_ok G sh closed interior hs g fuel x y
    (match m with Some m => m | None => zeros_mask (length y) (length x) end)) as (a & E & (R1 & R2 & R3)); auto.
  - destruct m; [apply hm|reflexivity].
  - destruct m; [apply hm|reflexivity].
  - exists a. split; [destruct m; [exact E|rewrite shape_mask_none; exact E]|].
    split; auto. split; auto. intros i j hi hj. destruct (R3 i j hi hj) as [A B].
    split; auto. intros n. destruct (at_ a i j); auto. exfalso. auto.
Qed.

(** ** C42 *)
Hypothesis affine_ok : forall a b d e g x y, a * e - b * d <> 0 ->
  (closed (affine sh a b d e g) (a * x + b * y) (d * x + e * y) <-> closed g x y) /\
  (interior (affine sh a b d e g) (a * x + b * y) (d * x + e * y) <-> interior g x y).

(** The entry [i, j] of [lattice.geometry_mask(geom)] tells whether
    [lattice.grid[:, i, j]] is in the geometry. *)
Theorem C42_geometry_mask g lat fuel
  (Nx := Z.to_nat (fst (lt_disc lat))) (Ny := Z.to_nat (snd (lt_disc lat))) :
  det2 (lt_basis lat) <> 0 -> (1 <= Nx)%nat -> (1 <= Ny)%nat -> (Nx + Ny <= fuel)%nat ->
  exists a, geometry_mask sh fuel g lat Nx Ny = Ok (Some a) /\ rows a = Nx /\ cols a = Ny /\
    forall i j, (i < Nx)%nat -> (j < Ny)%nat ->
      let p := lattice_grid lat i j in
      (interior g (fst p) (snd p) -> at_ a i j = true) /\
      (~ closed g (fst p) (snd p) -> at_ a i j = false).
Proof.
  intros hd hx hy hf.
  destruct (@geometry_mask_ok G sh closed interior hs affine_ok g lat Nx Ny fuel) as (a & E & R1 & R2 & R3);
    auto; try lia.
  { unfold matrix, det2, transpose in *. cbn. lra. }
  exists a. repeat split; auto.
  - intros h. now apply (proj2 (R3 i j H H0)).
  - intros n. destruct (at_ a i j) eqn:e; auto. exfalso. apply n. now apply (proj1 (R3 i j H H0)).
Qed.

(** ** C59 *)
(** The shape methods refuse mono-periodic lattices, and give the geometry mask
    on the others. *)
Theorem C59_shapes_1D g lat fuel :
  shape_method sh fuel g lat =
  (if lt_is1D lat then Err ValueError
   else geometry_mask sh fuel g lat (Z.to_nat (fst (lt_disc lat))) (Z.to_nat (snd (lt_disc lat)))).
Proof. reflexivity. Qed.
End Props.
Print Assumptions C41_shape_mask.
Print Assumptions C42_geometry_mask.
Print Assumptions C59_shapes_1D.

(** The contract is satisfiable: half planes.  [x <= 1/2] on a 3 x 2 grid of the
    square lattice of period 2, and a decreasing grid. *)
Example C42_case :
  sound half_planes hp_closed hp_interior /\
  forall a, geometry_mask half_planes 5 (HalfPlane 1 0 (3 / 2)) (lattice_2D (Mat2 2 0 0 2) true (3, 2)%Z None) 3 2
            = Ok (Some a) -> at_ a 0 1 = true /\ at_ a 1 0 = true /\ at_ a 2 1 = false.
Proof.
  split; [exact half_planes_sound|]. intros a E.
  destruct (@C42_geometry_mask half_plane half_planes hp_closed hp_interior half_planes_sound
    half_planes_affine (HalfPlane 1 0 (3 / 2)) (lattice_2D (Mat2 2 0 0 2) true (3, 2)%Z None) 5)
    as (b & E' & _ & _ & H); cbn; try lia; try (unfold det2; cbn; lra).
  change (geometry_mask half_planes 5 (HalfPlane 1 0 (3 / 2)) (lattice_2D (Mat2 2 0 0 2) true (3, 2)%Z None) 3 2
            = Ok (Some b)) in E'.
  rewrite E in E'. injection E' as <-.
  assert (L3 : linspace01 3 = [0 / (1 + 1); 1 / (1 + 1); (1 + 1) / (1 + 1)]) by reflexivity.
  assert (L2 : linspace01 2 = [0 / 1; 1 / 1]) by reflexivity.
  change (Z.to_nat (fst (lt_disc (lattice_2D (Mat2 2 0 0 2) true (3, 2)%Z None)))) with 3%nat in H.
  change (Z.to_nat (snd (lt_disc (lattice_2D (Mat2 2 0 0 2) true (3, 2)%Z None)))) with 2%nat in H.
  assert (H' : forall i j, (i < 3)%nat -> (j < 2)%nat ->
     (2 * nth i (linspace01 3) 0 < 3 / 2 -> at_ a i j = true) /\
     (3 / 2 < 2 * nth i (linspace01 3) 0 -> at_ a i j = false)).
  { intros i j hi hj. destruct (H i j hi hj) as [A B].
    unfold lattice_grid, transform, unit_grid, hp_interior, hp_closed, hp_val in A, B.
    cbn [fst snd lattice_2D lt_disc lt_basis matrix transpose m00 m01 m10 m11 hp_u hp_v hp_c] in A, B.
    change (Z.to_nat 3) with 3%nat in A, B. change (Z.to_nat 2) with 2%nat in A, B.
    split; intros h; [apply A|apply B]; lra. }
  rewrite L3 in H'.
  repeat split; apply H'; try lia; cbn [nth]; lra.
Qed.

(** [stripe] is the set of grid points at most half a width away from the centre
    along x, on every lattice. *)
Theorem C59_stripe lat c w i j :
  stripe lat c w i j = true <-> c - w / 2 <= fst (lattice_grid lat i j) <= c + w / 2.
Proof.
  unfold stripe. destruct (Rle_dec _ _) as [h|h]; split; try easy; intros H.
  - apply Rabs_le_inv in h || (pose proof (Rle_abs (fst (lattice_grid lat i j) - c));
      pose proof (Rle_abs (- (fst (lattice_grid lat i j) - c))); rewrite Rabs_Ropp in *). lra.
  - exfalso. apply h. apply Rabs_le. lra.
Qed.
Print Assumptions C59_stripe.

Lemma nth_linspace n i : (i < n)%nat ->
  nth i (linspace01 n) 0 = if (n =? 1)%nat then 0 else INR i / INR (n - 1).
Proof.
  intros h. unfold linspace01.
  set (F := fun k => if (n =? 1)%nat then 0 else INR k / INR (n - 1)).
  rewrite (nth_indep _ 0 (F 0%nat)) by (rewrite map_length, seq_length; lia).
  now rewrite map_nth, seq_nth by lia.
Qed.

(** On a mono-periodic lattice the grid is [a * k/(N-1)]. *)
Theorem C59_grid_1D a disc harm i :
  (2 <= fst disc)%Z -> (i < Z.to_nat (fst disc))%nat ->
  lattice_grid (lattice_1D a disc harm) i 0 = (a * (INR i / INR (Z.to_nat (fst disc) - 1)), 0).
Proof.
  intros hN hi. unfold lattice_grid, unit_grid, transform.
  cbn [lattice_1D lt_disc lt_basis matrix transpose fst snd m00 m01 m10 m11].
  change (nth 0 (linspace01 (Z.to_nat 1)) 0) with 0.
  rewrite nth_linspace by assumption.
  destruct (Nat.eqb_spec (Z.to_nat (fst disc)) 1); [lia|]. f_equal; ring.
Qed.
Print Assumptions C59_grid_1D.

(** ** C60 *)
(** The grid samples the border of the cell twice: its first and last points
    along the first direction differ by exactly one lattice vector, on every
    lattice with at least two points along it. *)
Lemma linspace_ends n : (2 <= n)%nat -> nth 0 (linspace01 n) 0 = 0 /\ nth (n - 1) (linspace01 n) 0 = 1.
Proof.
  intros h. assert (P : 0 < INR (n - 1)) by (apply lt_0_INR; lia).
  split; rewrite nth_linspace by lia; destruct (Nat.eqb_spec n 1); try lia.
  - simpl (INR 0). unfold Rdiv. ring.
  - field. lra.
Qed.

Theorem C60_cell_refuted lat j (n := Z.to_nat (fst (lt_disc lat))) :
  (2 <= n)%nat ->
  fst (lattice_grid lat (n - 1) j) - fst (lattice_grid lat 0 j) = m00 (lt_basis lat) /\
  snd (lattice_grid lat (n - 1) j) - snd (lattice_grid lat 0 j) = m01 (lt_basis lat).
Proof.
  intros h. destruct (linspace_ends n h) as [e0 e1].
  unfold lattice_grid, unit_grid, transform. cbn [fst snd]. fold n. rewrite e0, e1.
  unfold matrix, transpose. cbn [m00 m01 m10 m11]. split; ring.
Qed.
Print Assumptions C60_cell_refuted.

(** As a consequence a lattice-periodic pattern sampled on the grid has equal
    first and last rows: N samples hold N - 1 different ones. *)
Theorem C60_periodic_refuted lat (pattern : R -> R -> R) j (n := Z.to_nat (fst (lt_disc lat))) :
  (2 <= n)%nat ->
  (forall x y, pattern (x + m00 (lt_basis lat)) (y + m01 (lt_basis lat)) = pattern x y) ->
  pattern (fst (lattice_grid lat (n - 1) j)) (snd (lattice_grid lat (n - 1) j)) =
  pattern (fst (lattice_grid lat 0 j)) (snd (lattice_grid lat 0 j)).
Proof.
  intros h H. destruct (@C60_cell_refuted lat j h) as [A B]. fold n in A, B.
  rewrite <- (H (fst (lattice_grid lat 0 j)) (snd (lattice_grid lat 0 j))).
  f_equal; lra.
Qed.
Print Assumptions C60_periodic_refuted.

(** What does hold: without their last row and column the grid points sample the
    cell once: they are different modulo the lattice, and every grid point is
    one of them modulo the lattice. *)
Lemma grid_coords lat i j (n := Z.to_nat (fst (lt_disc lat))) (m := Z.to_nat (snd (lt_disc lat))) :
  (i < n)%nat -> (j < m)%nat -> (2 <= n)%nat -> (2 <= m)%nat ->
  fst (lattice_grid lat i j) =
    INR i / INR (n - 1) * m00 (lt_basis lat) + INR j / INR (m - 1) * m10 (lt_basis lat) /\
  snd (lattice_grid lat i j) =
    INR i / INR (n - 1) * m01 (lt_basis lat) + INR j / INR (m - 1) * m11 (lt_basis lat).
Proof.
  intros hi hj hn hm. unfold lattice_grid, unit_grid, transform. cbn [fst snd]. fold n. fold m.
  rewrite !nth_linspace by assumption.
  destruct (Nat.eqb_spec n 1); [lia|]. destruct (Nat.eqb_spec m 1); [lia|].
  unfold matrix, transpose. cbn [m00 m01 m10 m11]. split; ring.
Qed.

Lemma steps_apart n (i i' : nat) (k : Z) : (2 <= n)%nat -> (i < n - 1)%nat -> (i' < n - 1)%nat ->
  INR i / INR (n - 1) - INR i' / INR (n - 1) = IZR k -> i = i'.
Proof.
  intros hn hi hi' h. assert (P : 0 < INR (n - 1)) by (apply lt_0_INR; lia).
  assert (E : INR i - INR i' = IZR k * INR (n - 1)) by (rewrite <- h; field; lra).
  rewrite !INR_IZR_INZ, <- minus_IZR, <- mult_IZR in E. apply eq_IZR in E.
  assert (k = 0)%Z; [|lia].
  destruct (Z.lt_trichotomy k 0) as [c|[c|c]]; [nia|exact c|nia].
Qed.

Theorem C60_points_partial lat (n := Z.to_nat (fst (lt_disc lat))) (m := Z.to_nat (snd (lt_disc lat))) :
  let apart i j i' j' (k l : Z) :=
    fst (lattice_grid lat i j) - fst (lattice_grid lat i' j') =
      IZR k * m00 (lt_basis lat) + IZR l * m10 (lt_basis lat) /\
    snd (lattice_grid lat i j) - snd (lattice_grid lat i' j') =
      IZR k * m01 (lt_basis lat) + IZR l * m11 (lt_basis lat) in
  (2 <= n)%nat -> (2 <= m)%nat ->
  m00 (lt_basis lat) * m11 (lt_basis lat) - m01 (lt_basis lat) * m10 (lt_basis lat) <> 0 ->
  (forall i j i' j' k l, (i < n - 1)%nat -> (i' < n - 1)%nat -> (j < m - 1)%nat -> (j' < m - 1)%nat ->
     apart i j i' j' k l -> i = i' /\ j = j') /\
  (forall i j, (i < n)%nat -> (j < m)%nat ->
     exists i' j' k l, (i' < n - 1)%nat /\ (j' < m - 1)%nat /\ apart i j i' j' k l).
Proof.
  intros apart hn hm hd. split.
  - intros i j i' j' k l hi hi' hj hj' [h1 h2].
    destruct (@grid_coords lat i j) as [a1 a2]; try (fold n; fold m; lia).
    destruct (@grid_coords lat i' j') as [b1 b2]; try (fold n; fold m; lia).
    fold n in a1, a2, b1, b2. fold m in a1, a2, b1, b2. rewrite a1, b1 in h1. rewrite a2, b2 in h2.
    set (u := INR i / INR (n - 1) - INR i' / INR (n - 1) - IZR k).
    set (v := INR j / INR (m - 1) - INR j' / INR (m - 1) - IZR l).
    assert (e1 : u * m00 (lt_basis lat) + v * m10 (lt_basis lat) = 0) by (unfold u, v; lra).
    assert (e2 : u * m01 (lt_basis lat) + v * m11 (lt_basis lat) = 0) by (unfold u, v; lra).
    assert (hu : u = 0).
    { apply (Rmult_eq_reg_r (m00 (lt_basis lat) * m11 (lt_basis lat) - m01 (lt_basis lat) * m10 (lt_basis lat))); [|exact hd].
      transitivity ((u * m00 (lt_basis lat) + v * m10 (lt_basis lat)) * m11 (lt_basis lat)
        - (u * m01 (lt_basis lat) + v * m11 (lt_basis lat)) * m10 (lt_basis lat)); [ring|].
      rewrite e1, e2. ring. }
    assert (hv : v = 0).
    { apply (Rmult_eq_reg_r (m00 (lt_basis lat) * m11 (lt_basis lat) - m01 (lt_basis lat) * m10 (lt_basis lat))); [|exact hd].
      transitivity ((u * m01 (lt_basis lat) + v * m11 (lt_basis lat)) * m00 (lt_basis lat)
        - (u * m00 (lt_basis lat) + v * m10 (lt_basis lat)) * m01 (lt_basis lat)); [ring|].
      rewrite e1, e2. ring. }
    split; [apply (@steps_apart n i i' k)|apply (@steps_apart m j j' l)]; try assumption;
    unfold u, v in *; lra.
  - intros i j hi hj.
    set (i' := if Nat.eqb i (n - 1) then O else i). set (j' := if Nat.eqb j (m - 1) then O else j).
    exists i', j', (if Nat.eqb i (n - 1) then 1 else 0)%Z, (if Nat.eqb j (m - 1) then 1 else 0)%Z.
    assert (hi' : (i' < n - 1)%nat) by (unfold i'; destruct (Nat.eqb_spec i (n - 1)); lia).
    assert (hj' : (j' < m - 1)%nat) by (unfold j'; destruct (Nat.eqb_spec j (m - 1)); lia).
    split; [exact hi'|]. split; [exact hj'|].
    assert (P : 0 < INR (n - 1)) by (apply lt_0_INR; lia).
    assert (Q : 0 < INR (m - 1)) by (apply lt_0_INR; lia).
    destruct (@grid_coords lat i j) as [a1 a2]; try (fold n; fold m; lia).
    destruct (@grid_coords lat i' j') as [b1 b2]; try (fold n; fold m; lia).
    fold n in a1, a2, b1, b2. fold m in a1, a2, b1, b2. unfold apart.
    rewrite a1, a2, b1, b2. unfold i', j'.
    destruct (Nat.eqb_spec i (n - 1)) as [->|]; destruct (Nat.eqb_spec j (m - 1)) as [->|];
    simpl (INR 0); split; field; lra.
Qed.
Print Assumptions C60_points_partial.

(** The square cell with 3 x 3 points: [grid 2 2] is [grid 0 0] moved by both
    lattice vectors. *)
Example C60_points_case :
  let lat := Lattice false (Mat2 1 0 0 1) Circular (3, 3)%Z None in
  lattice_grid lat 1 1 = (1 / 2, 1 / 2) /\
  exists i' j' k l, (i' < 2)%nat /\ (j' < 2)%nat /\
    fst (lattice_grid lat 2 2) - fst (lattice_grid lat i' j') = IZR k * 1 + IZR l * 0 /\
    snd (lattice_grid lat 2 2) - snd (lattice_grid lat i' j') = IZR k * 0 + IZR l * 1.
Proof.
  intros lat. split.
  - unfold lattice_grid, unit_grid, transform, linspace01; simpl; f_equal; field.
  - apply (@C60_points_partial lat); simpl; try lia; lra.
Qed.

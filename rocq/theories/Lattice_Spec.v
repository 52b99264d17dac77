(** What a set of diffraction orders should look like, stated without the model. *)
From Coq Require Import Reals ZArith List.
Import ListNotations.
Set Implicit Arguments.

(** [G] lists exactly the orders satisfying [P], each once. *)
Definition lists_exactly (G : list (Z * Z)) (P : Z -> Z -> Prop) : Prop :=
  NoDup G /\ forall a b, In (a, b) G <-> P a b.

Definition negation_closed (G : list (Z * Z)) : Prop :=
  forall a b, In (a, b) G -> In (- a, - b)%Z G.

(** Squared length of a*K1 + b*K2. *)
Definition klen2 (k1x k1y k2x k2y : R) (a b : Z) : R :=
  ((IZR a * k1x + IZR b * k2x) ^ 2 + (IZR a * k1y + IZR b * k2y) ^ 2)%R.

(** The orders of [G] are the closest for the distance [d]: whatever is not
    farther than a member is a member. *)
Definition nearest (d : Z -> Z -> R) (cand G : list (Z * Z)) : Prop :=
  forall a b c e, In (a, b) G -> In (c, e) cand -> (d c e <= d a b)%R -> In (c, e) G.

(** The ordering metric of the circular truncation, with (k1x, k1y) and
    (k2x, k2y) the rows of the reciprocal matrix, and its tolerance. *)
Definition shell_metric (k1x k1y k2x k2y : R) (a b : Z) : R :=
  ((IZR a ^ 2 + IZR b ^ 2) * (k1x ^ 2 + k1y ^ 2) + 2 * IZR a * IZR b * (k1x * k2x + k1y * k2y))%R.

Definition shell_tol (k1x k1y k2x k2y : R) : R :=
  (/ 10000000000 * Rmax (k1x ^ 2 + k1y ^ 2) (k2x ^ 2 + k2y ^ 2))%R.

(** Search radius for nh orders. *)
Definition search_radius (nh : Z) (k1x k1y k2x k2y : R) : R :=
  (sqrt (IZR nh * Rabs (k1x * k2y - k1y * k2x) / PI)
   + sqrt (k1x ^ 2 + k1y ^ 2) + sqrt (k2x ^ 2 + k2y ^ 2))%R.

(** Every order but the zeroth is farther from it than the tolerance. *)
Definition zeroth_isolated (k1x k1y k2x k2y : R) : Prop :=
  forall a b : Z, (a, b) <> (0, 0)%Z -> (shell_tol k1x k1y k2x k2y < shell_metric k1x k1y k2x k2y a b)%R.

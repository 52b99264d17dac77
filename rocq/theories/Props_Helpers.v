(** Block helpers, classification of layers, tangent field selection
    (properties C38, C39, C40). *)
From Coq Require Import Bool List String PeanoNat.
From mathcomp Require Import all_ssreflect all_algebra.
From Verif Require Import Base Block_Model Block_Proofs Classify_Model.
Set Implicit Arguments.
Unset Strict Implicit.
Unset Printing Implicit Defensive.
Import GRing.Theory.

(** ** C38 *)
(** The [type] argument is ignored: whenever the two algorithms give different
    fields, asking for the other one than the layer's gives the wrong field, and
    an unknown type is accepted. *)
Theorem C38_type_refuted (Grid Field : Type) (field_fft field_opt : Grid -> bool -> res Field)
    (l : layer Grid Field) (normalize : bool) :
  l_uniform l = false -> l_field l = None -> l_type l = "opt"%string ->
  field_fft (l_grid l) normalize <> field_opt (l_grid l) normalize ->
  layer_tangent_field field_fft field_opt l normalize (Some "fft"%string) <>
    spec_tangent_field field_fft field_opt l normalize (Some "fft"%string) /\
  (forall f, field_opt (l_grid l) normalize = Ok f ->
    layer_tangent_field field_fft field_opt l normalize (Some "none"%string) = Ok (Some f)).
Proof.
move=> hu hf ht hne; split.
- rewrite /layer_tangent_field /spec_tangent_field hu hf ht /get_tangent_field /=.
  case: (field_fft _ _) hne => [a|a]; case: (field_opt _ _) => [b|b] //= hne.
  + by case=> E; apply: hne; rewrite E.
  + by case=> E; apply: hne; rewrite E.
- by move=> f E; rewrite /layer_tangent_field hu hf ht /get_tangent_field /= E.
Qed.
(** Everything else is as documented: without the argument the layer's own type
    decides; user supplied fields and uniform layers. *)
Theorem C38_default_partial (Grid Field : Type) (field_fft field_opt : Grid -> bool -> res Field)
    (l : layer Grid Field) (normalize : bool) (type : option string) :
  (type = None \/ type = Some (l_type l) ->
   layer_tangent_field field_fft field_opt l normalize type =
   spec_tangent_field field_fft field_opt l normalize type) /\
  (l_uniform l = true -> layer_tangent_field field_fft field_opt l normalize type = Ok None) /\
  (forall f, l_uniform l = false -> l_field l = Some f ->
   layer_tangent_field field_fft field_opt l normalize type = Ok (Some f)) /\
  (l_uniform l = false -> l_field l = None -> l_type l <> "fft"%string -> l_type l <> "opt"%string ->
   layer_tangent_field field_fft field_opt l normalize type = Err ValueError).
Proof.
split; [|split; [|split]].
- by case=> ->.
- by rewrite /layer_tangent_field => ->.
- by move=> f; rewrite /layer_tangent_field => -> ->.
- rewrite /layer_tangent_field => -> -> h1 h2; rewrite /get_tangent_field.
  by case: String.eqb_spec h1 => // _ _; case: String.eqb_spec h2.
Qed.
Print Assumptions C38_type_refuted.
Print Assumptions C38_default_partial.
Example C38_case :
  let f := layer_tangent_field (fun g n => Ok (1 + g)%N) (fun g n => Ok (2 + g)%N) in
  let l := Layer false 5 None "opt"%string in
  (f l true (Some "fft"%string), f l true None) = (Ok (Some 7), Ok (Some 7)).
Proof. by []. Qed.

(** ** C39 *)
Theorem C39_block_roundtrip (F : fieldType) (n : nat) (a : quad F) :
  shaped4 n n a ->
  exists M, block a = Ok M /\ shaped (n + n) (n + n) M /\ same4 (block2list M n) a.
Proof. exact: block_roundtrip. Qed.

(** [inv2by2block] inverts at every point: both products with [blockmatmul] are
    the identity at every point. *)
Theorem C39_inverse (F : fieldType) (n : nat) (T : arr F) :
  shaped (n + n) (n + n) T ->
  (forall i j, i < n -> j < n -> pdet T n i j <> 0%R) ->
  exists V P P', inv2by2block T n = Ok V /\ blockmatmul T V n = Ok P /\ blockmatmul V T n = Ok P' /\
    forall i j, i < n -> j < n ->
      ((at_ P i j, at_ P i (n + j)), (at_ P (n + i) j, at_ P (n + i) (n + j))) = ((1, 0), (0, 1))%R /\
      ((at_ P' i j, at_ P' i (n + j)), (at_ P' (n + i) j, at_ P' (n + i) (n + j))) = ((1, 0), (0, 1))%R.
Proof.
move=> sT nz.
have nz' i j : i < n -> j < n -> pdet T n i j != 0%R by move=> hi hj; apply/eqP; exact: nz.
case: (inv2by2blockE sT nz') => V [EV [sV eV]].
case: (blockmatmulE sT sV) => P [EP [sP eP]].
case: (blockmatmulE sV sT) => P' [EP' [sP' eP']].
exists V, P, P'; do 3!split=> //; move=> i j hi hj.
case: (eV i j hi hj) => v0 v1 v2 v3.
case: (eP i j hi hj) => p0 p1 p2 p3.
case: (eP' i j hi hj) => r0 r1 r2 r3.
rewrite v0 in p0; rewrite v2 in p0; rewrite v1 v3 in p1; rewrite v0 v2 in p2; rewrite v1 v3 in p3.
rewrite v0 v1 in r0; rewrite v0 v1 in r1; rewrite v2 v3 in r2; rewrite v2 v3 in r3.
move: p0 p1 p2 p3 r0 r1 r2 r3; rewrite /= !mul0n !mul1n !add0n.
case: (@inv_point F (at_ T i j) (at_ T i (n + j)) (at_ T (n + i) j) (at_ T (n + i) (n + j)) (pdet T n i j)
  (erefl _) (nz' i j hi hj)) => -[-> -> -> ->] [-> -> -> ->].
by move=> -> -> -> -> -> -> -> ->.
Qed.

(** For blocks that are not square, as for the components of a tensor
    permittivity on a grid with Nx < Ny, [get_block] does not give the blocks back
    (the code passes N = Nx, simulation.py:773-777). *)
Theorem C39_nonsquare_refuted (F : fieldType) :
  exists (a : quad F) (M : arr F), shaped4 1 2 a /\ block a = Ok M /\ ~ same4 (block2list M 1) a /\
    at_ (get_block M 0 1 1) 0 0 = 1%R /\ at_ (q01 a) 0 0 = 0%R.
Proof.
pose u : arr F := Arr 1 2 (fun i j => 1%R). pose z : arr F := Arr 1 2 (fun i j => 0%R).
exists (Quad u z z u), (Arr 2 4 (fun i j =>
  if i < 1 then (if j < 2 then 1%R else 0%R) else (if j < 2 then 0%R else 1%R))).
split; first by [].
split; first by [].
split; last by [].
by case=> _ [[_ [h _]] _].
Qed.
Print Assumptions C39_block_roundtrip.
Print Assumptions C39_inverse.
Print Assumptions C39_nonsquare_refuted.

(** ** C40 *)
(** Correct for every kind except a 3 by 3 grid ... *)
Theorem C40_classify_partial (x : value) (k : kind) :
  represents x k -> k <> KGrid 3 3 ->
  is_uniform x = uniform_kind k /\ is_anisotropic x = tensor_kind k.
Proof.
case: k => [||Nx Ny|Nx Ny] /=; first by move=> [->|[->|->]].
- by move=> ->.
- move=> -> h; rewrite /is_uniform /is_anisotropic /=.
  have -> // : (Nat.eqb Nx 3 && (Nat.eqb Ny 3 && true))%bool = false.
  rewrite andb_true_r; apply/negP => /andP [/Nat.eqb_eq e /Nat.eqb_eq e']; apply: h; by rewrite e e'.
- by move=> ->.
Qed.
(** Whatever the shape: the uniform values are numbers, vectors of one entry and 3 by 3
    arrays; the anisotropic ones are those with two leading axes of length 3. *)
Theorem C40_shapes_partial (x : value) :
  (is_uniform x = true <-> represents x KNumber \/ represents x KTensor) /\
  (is_anisotropic x = true <-> exists s, x = Array (3 :: 3 :: s)).
Proof.
case: x => [|s]; first by split; split=> //; [left; left|case].
case: s => [|a [|b s]].
- by split; split=> //; [left; right; left|case].
- split; last by split=> [|[s0]] //=; rewrite /is_anisotropic /= andb_false_r.
  rewrite /is_uniform /= andb_false_r; split; last by move=> [[//|[//|[->]]]|//].
  by move=> /Nat.eqb_eq ->; left; right; right.
have an : is_anisotropic (Array (a :: b :: s)) = true <-> a = 3 /\ b = 3.
  rewrite /is_anisotropic /= andb_true_r; split; first by move=> /andP [/Nat.eqb_eq -> /Nat.eqb_eq ->].
  by move=> [-> ->].
split; last by split=> [/an [-> ->]|[s0 [-> -> _]]]; [exists s|].
rewrite /is_uniform; case E: (is_anisotropic _); last by split=> // -[[//|[//|//]]|[e1 e2 e3]]; move: E; rewrite e1 e2.
have [-> ->] := (proj1 an) E; case: s {an E} => [|c s]; first by split=> // _; right.
by split=> // -[[//|[//|//]]|//].
Qed.
(** The 3 by 3 grid is taken for a uniform tensor. *)
Theorem C40_small_grid_refuted :
  let x := Array [:: 3; 3] in
  represents x (KGrid 3 3) /\ is_uniform x = true /\ is_anisotropic x = true /\
  layer_is_uniform x (Array [::]) = true.
Proof. by []. Qed.
Print Assumptions C40_classify_partial.
Print Assumptions C40_shapes_partial.
Print Assumptions C40_small_grid_refuted.
Example C40_case : List.map is_uniform
  [:: Scalar; Array [::]; Array [:: 1]; Array [:: 7]; Array [:: 4; 4]; Array [:: 3; 3; 4; 4]; Array [:: 3; 4]]
  = [:: true; true; true; false; false; false; false].
Proof. by []. Qed.

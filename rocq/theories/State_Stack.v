(** The products over integer ranges of the specification, as loops over sub-lists. *)
From Coq Require Import List ZArith Bool Arith Lia.
From Verif Require Import Base Init_Model Init_Proofs State_Model State_Spec.
Import ListNotations.
Set Implicit Arguments.

Section Stack.
Variables (P T E Pat Q G M : Type).
Notation view := (view T E Pat Q G).
Variable step : P -> view -> view -> M -> res M.
Variable p : P.

(** Loop over the consecutive pairs of [v :: rest]. *)
Fixpoint vloop (x : M) (v : view) (rest : list view) : res M :=
  match rest with
  | [] => Ok x
  | v' :: t => let! y := step p v v' x in vloop y v' t
  end.

Lemma pynth_app A (pre : list A) v post : pynth (pre ++ v :: post) (Z.of_nat (length pre)) = Ok v.
Proof.
  unfold pynth, pyindex. rewrite app_length. cbn [length].
  replace (_ && _)%bool with true.
  - rewrite Nat2Z.id, nth_error_app2, Nat.sub_diag by lia. reflexivity.
  - symmetry. apply andb_true_iff. split; [apply Z.leb_le|apply Z.ltb_lt]; lia.
Qed.

Lemma s_product_loop mid : forall pre v post x,
  s_product step p (pre ++ v :: mid ++ post) x
    (map (fun k => (Z.of_nat (length pre) + Z.of_nat k)%Z) (seq 0 (length mid))) = vloop x v mid.
Proof.
  induction mid as [|v' mid IH]; intros pre v post x; cbn [length seq map s_product vloop]; [reflexivity|].
  replace (Z.of_nat (length pre) + Z.of_nat 0)%Z with (Z.of_nat (length pre)) by lia.
  rewrite pynth_app. cbn [bind].
  assert (E1 : (pre ++ v :: (v' :: mid) ++ post) = (pre ++ [v]) ++ v' :: mid ++ post)
    by (rewrite <- app_assoc; reflexivity).
  assert (L : Z.of_nat (length (pre ++ [v])) = (Z.of_nat (length pre) + 1)%Z)
    by (rewrite app_length; cbn; lia).
  rewrite E1, <- L, pynth_app. cbn [bind].
  destruct (step p v v' x) as [y|e]; cbn [bind]; [|reflexivity].
  rewrite <- (IH (pre ++ [v]) v' post y). f_equal.
  rewrite <- seq_shift, map_map. apply map_ext. intros k. rewrite L. lia.
Qed.

Lemma s_product_range pre v mid post x a b : a = Z.of_nat (length pre) ->
  b = (Z.of_nat (length pre) + Z.of_nat (length mid))%Z ->
  s_product step p (pre ++ v :: mid ++ post) x (zrange a b) = vloop x v mid.
Proof.
  intros -> ->. unfold zrange.
  replace (Z.to_nat _) with (length mid) by lia. apply s_product_loop.
Qed.

Lemma pynth_last A (l : list A) v : pynth (l ++ [v]) (-1) = Ok v.
Proof.
  unfold pynth, pyindex. rewrite app_length. cbn [length].
  replace ((0 <=? -1)%Z && _)%bool with false by reflexivity.
  replace (_ && _)%bool with true.
  - replace (Z.to_nat (Z.of_nat (length l + 1) + -1)) with (length l) by lia.
    rewrite nth_error_app2, Nat.sub_diag by lia. reflexivity.
  - symmetry. apply andb_true_iff. split; [apply Z.leb_le|apply Z.ltb_lt]; lia.
Qed.

End Stack.

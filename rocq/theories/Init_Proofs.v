(** Proofs about Init_Model. *)
From Coq Require Import Reals ZArith String Bool List Lia Lra Permutation.
From Verif Require Import Base Lattice_Model Lattice_Spec Lattice_Proofs Lattice_Proofs2 Lattice_Proofs3 Init_Model.
Import ListNotations.
Set Implicit Arguments.

(** ------------------------------------------------------------------ *)
(** * Dictionaries *)

Lemma dget_dset (V : Type) (d : list (Z * V)) k k' v :
  dget (dset d k v) k' = if (k =? k')%Z then Some v else dget d k'.
Proof.
  induction d as [|[a w] t IH]; cbn.
  - destruct (Z.eqb_spec k k'); reflexivity.
  - destruct (Z.eqb_spec a k) as [->|hak]; cbn.
    + destruct (Z.eqb_spec k k'); reflexivity.
    + rewrite IH. destruct (Z.eqb_spec a k') as [->|]; [|reflexivity].
      destruct (Z.eqb_spec k k'); [congruence|reflexivity].
Qed.

(** lookup of an order *)
Definition dlook (V : Type) (d : list (Z * list (Z * V))) (o : order) : option V :=
  match dget d (fst o) with None => None | Some inner => dget inner (snd o) end.

Lemma dlook_add d o j o' : dlook (dict_add d o j) o' = if order_dec o o' then Some j else dlook d o'.
Proof.
  unfold dlook, dict_add. destruct o as [a b], o' as [a' b']; cbn [fst snd].
  destruct (dget d a) as [inner|] eqn:E; rewrite dget_dset; destruct (Z.eqb_spec a a') as [->|ha].
  - rewrite E, dget_dset. destruct (Z.eqb_spec b b') as [->|hb], (order_dec _ _) as [e|e]; try congruence.
  - destruct (order_dec _ _) as [e|e]; [congruence|reflexivity].
  - rewrite E. cbn [dget]. destruct (Z.eqb_spec b b') as [->|hb], (order_dec _ _) as [e|e]; try congruence.
  - destruct (order_dec _ _) as [e|e]; [congruence|reflexivity].
Qed.

Lemma dict_from_look G : forall d j o, NoDup G ->
  (forall k, nth_error G k = Some o -> dlook (dict_from d j G) o = Some (j + k)%nat) /\
  (~ In o G -> dlook (dict_from d j G) o = dlook d o).
Proof.
  induction G as [|p t IH]; intros d j o hn; cbn [dict_from].
  - split; [intros [|k]; discriminate | auto].
  - inversion hn as [|? ? hp ht]; subst. destruct (IH (dict_add d p j) (S j) o ht) as [h1 h2]. split.
    + intros [|k] hk; cbn in hk.
      * injection hk; intros ->. rewrite h2 by auto. rewrite dlook_add.
        destruct (order_dec o o); [|congruence]. f_equal; lia.
      * rewrite (h1 k hk). f_equal; lia.
    + intros hno. rewrite h2 by (intros h; apply hno; right; auto). rewrite dlook_add.
      destruct (order_dec p o) as [->|]; [exfalso; apply hno; left; auto | auto].
Qed.

Lemma build_dict_in G o k : NoDup G -> nth_error G k = Some o -> dlook (build_dict G) o = Some k.
Proof. intros hn hk. destruct (dict_from_look [] 0 o hn) as [h _]. apply (h k hk). Qed.

Lemma build_dict_notin G o : NoDup G -> ~ In o G -> dlook (build_dict G) o = None.
Proof. intros hn ho. destruct (dict_from_look [] 0 o hn) as [_ h]. apply (h ho). Qed.

(** ------------------------------------------------------------------ *)
(** * Maximum and zeroth index *)

Lemma fold_max_ge t : forall m, (m <= fold_left (fun m p => Z.max m (Z.max (fst p) (snd p))) t m)%Z /\
  forall p, In p t -> (fst p <= fold_left (fun m p => Z.max m (Z.max (fst p) (snd p))) t m
                    /\ snd p <= fold_left (fun m p => Z.max m (Z.max (fst p) (snd p))) t m)%Z.
Proof.
  induction t as [|x t IH]; intros m; cbn [fold_left]; [split; [lia | intros p []]|].
  destruct (IH (Z.max m (Z.max (fst x) (snd x)))) as [h1 h2].
  split; [lia|]. intros p [<-|hp]; [lia | apply h2; auto].
Qed.

Lemma max_entry_ge G m o : max_entry G = Some m -> In o G -> (fst o <= m /\ snd o <= m)%Z.
Proof.
  destruct G as [|x t]; [discriminate|]. cbn [max_entry]. intros h; injection h; intros <-.
  destruct (fold_max_ge t (Z.max (fst x) (snd x))) as [h1 h2].
  intros [<-|ho]; [lia | apply h2; auto].
Qed.

Lemma fold_max_in t : forall m, let f := fold_left (fun m p => Z.max m (Z.max (fst p) (snd p))) t m in
  f = m \/ exists p, In p t /\ (f = fst p \/ f = snd p).
Proof.
  induction t as [|x t IH]; intros m; cbn [fold_left]; cbn zeta; [left; auto|].
  destruct (IH (Z.max m (Z.max (fst x) (snd x)))) as [h|[p [hp h]]]; cbn zeta in *.
  - rewrite h. destruct (Z.max_spec m (Z.max (fst x) (snd x))) as [[_ e]|[_ e]]; rewrite e; [|auto].
    right; exists x. split; [left; auto|]. lia.
  - right. exists p. split; [right; auto | auto].
Qed.

Lemma max_entry_in G m : max_entry G = Some m -> exists o, In o G /\ (m = fst o \/ m = snd o).
Proof.
  destruct G as [|x t]; [discriminate|]. cbn [max_entry]. intros h; injection h; intros <-.
  destruct (fold_max_in t (Z.max (fst x) (snd x))) as [e|[p [hp e]]]; cbn zeta in *.
  - exists x. split; [left; auto|]. rewrite e. lia.
  - exists p. split; [right; auto | auto].
Qed.

Lemma zeroth_ok G : In (0, 0)%Z G -> nth_error G (zeroth_index G) = Some (0, 0)%Z.
Proof.
  induction G as [|o t IH]; [intros []|]. intros h. destruct t as [|p t].
  - destruct h as [->|[]]. reflexivity.
  - change (zeroth_index (o :: p :: t)) with
      (if ((fst o =? 0) && (snd o =? 0))%Z then 0 else S (zeroth_index (p :: t))).
    destruct ((fst o =? 0) && (snd o =? 0))%Z eqn:E.
    + apply andb_prop in E. destruct E as [E1 E2]. apply Z.eqb_eq in E1, E2.
      destruct o; cbn in *; subst; reflexivity.
    + apply IH. destruct h as [->|h]; [discriminate | auto].
Qed.

Lemma zeroth_lt G : G <> [] -> (zeroth_index G < length G)%nat.
Proof.
  induction G as [|o t IH]; [congruence|]. intros _. destruct t as [|p t]; [cbn; lia|].
  change (zeroth_index (o :: p :: t)) with
      (if ((fst o =? 0) && (snd o =? 0))%Z then 0 else S (zeroth_index (p :: t))).
  specialize (IH ltac:(discriminate)). cbn [length] in *. destruct (_ && _)%bool; lia.
Qed.

(** ------------------------------------------------------------------ *)
(** * unique *)

Lemma mem_str_spec s l : mem_str s l = true <-> In s l.
Proof.
  unfold mem_str. rewrite existsb_exists. split.
  - intros [x [h1 h2]]. apply String.eqb_eq in h2. congruence.
  - intros h. exists s. rewrite String.eqb_refl. auto.
Qed.

Lemma unique_from_spec x : forall seen, NoDup seen -> (unique_from seen x = true <-> NoDup (seen ++ x)).
Proof.
  induction x as [|i t IH]; intros seen hs; cbn [unique_from].
  - rewrite app_nil_r. tauto.
  - fold (mem_str i seen). destruct (mem_str i seen) eqn:E.
    + apply mem_str_spec in E. split; [discriminate|]. intros h. exfalso.
      apply NoDup_remove_2 in h. apply h, in_or_app; auto.
    + assert (hi : ~ In i seen) by (intros h; apply mem_str_spec in h; congruence).
      rewrite IH.
      * rewrite <- app_assoc. reflexivity.
      * apply NoDup_app_intro; auto; [constructor; [intros []|constructor]|].
        intros y hy [<-|[]]; auto.
Qed.

Lemma unique_spec x : unique x = true <-> NoDup x.
Proof. apply (unique_from_spec x (NoDup_nil _)). Qed.

(** ------------------------------------------------------------------ *)
(** * The constructor *)

Section Init.
Variable argsort : list R -> list nat.
Hypothesis hsort : argsort_ok argsort.
Variable lattices : nat -> lattice.

Definition same_lattice (layers : list pylayer) (i : nat) : Prop := forall l, In l layers -> pl_lat l = i.

Lemma sim_init_inv layers nh form s : sim_init argsort lattices layers nh form = Ok s ->
  exists l0 t G n maxN r, layers = l0 :: t /\ NoDup (map pl_name layers) /\ same_lattice layers (pl_lat l0) /\
  In form ["original"; "tangent"; "jones"; "pol"]%string /\
  let lat := lattices (pl_lat l0) in
  (lt_is1D lat = true -> In form ["original"; "tangent"]%string) /\
  get_harmonics argsort lat (effective_nh (forallb pl_uniform layers) nh) true = Ok (G, n) /\
  max_entry G = Some maxN /\ (2 * maxN < fst (lt_disc lat))%Z /\
  (lt_is1D lat = false -> (2 * maxN < snd (lt_disc lat))%Z) /\
  reciprocal lat = Ok r /\
  s = Sim layers lat form G n (build_dict G) r (zeroth_index G).
Proof.
  unfold sim_init. destruct (unique _) eqn:E1; cbn [negb]; [|discriminate].
  destruct layers as [|l0 t]; [discriminate|].
  set (layers := l0 :: t) in *.
  destruct (forallb (fun l => Nat.eqb _ _) layers) eqn:E2; cbn [negb]; [|discriminate].
  destruct (mem_str form ["original"; "tangent"; "jones"; "pol"]%string) eqn:E3; cbn [negb]; [|discriminate].
  destruct (lt_is1D _ && _)%bool eqn:E4; [discriminate|].
  intros H. ubind H hn hh. destruct hn as [G n]; cbn [fst snd] in H.
  destruct (max_entry G) as [maxN|] eqn:E5; [|discriminate].
  destruct (_ || _)%bool eqn:E6; [discriminate|].
  ubind H r hr. injection H; intros <-.
  exists l0, t, G, n, maxN, r. split; [reflexivity|]. split; [apply unique_spec; auto|].
  split. { intros l hl. rewrite forallb_forall in E2. apply E2 in hl. apply Nat.eqb_eq; auto. }
  split; [apply mem_str_spec; auto|]. cbn zeta.
  apply orb_false_elim in E6. destruct E6 as [E6 E7]. apply Z.leb_gt in E6.
  split. { intros h. rewrite h in E4. cbn [andb] in E4. apply negb_false_iff in E4. apply mem_str_spec; auto. }
  split; [auto|]. split; [auto|]. split; [lia|]. split; [|auto].
  intros h. rewrite h in E7; cbn [negb] in E7. rewrite andb_true_r in E7. apply Z.leb_gt in E7. lia.
Qed.

Lemma effective_ge2 u nh : (1 <= nh)%Z \/ u = true -> (2 <= effective_nh u nh)%Z.
Proof.
  unfold effective_nh. destruct u; cbn [andb].
  - destruct (Z.eqb_spec nh 1) as [->|]; cbn; lia.
  - intros [h|h]; [|discriminate]. destruct (Z.eqb_spec nh 1); lia.
Qed.

Lemma effective_uniform nh : effective_nh true nh = 2%Z.
Proof. unfold effective_nh. destruct (Z.eqb_spec nh 1) as [->|]; reflexivity. Qed.

(** Acceptance, for generated sets of orders. *)
Lemma sim_init_ok layers nh form l0 t G n :
  layers = l0 :: t -> NoDup (map pl_name layers) -> same_lattice layers (pl_lat l0) ->
  In form ["original"; "tangent"; "jones"; "pol"]%string ->
  (lt_is1D (lattices (pl_lat l0)) = true -> In form ["original"; "tangent"]%string) ->
  let lat := lattices (pl_lat l0) in
  get_harmonics argsort lat (effective_nh (forallb pl_uniform layers) nh) true = Ok (G, n) ->
  G <> [] -> (forall o, In o G -> 2 * fst o < fst (lt_disc lat) /\ 2 * snd o < fst (lt_disc lat) /\
     (lt_is1D lat = false -> 2 * fst o < snd (lt_disc lat) /\ 2 * snd o < snd (lt_disc lat)))%Z ->
  (exists r, reciprocal lat = Ok r) ->
  exists s, sim_init argsort lattices layers nh form = Ok s /\ sim_harmonics s = G /\ sim_nh s = n.
Proof.
  intros hl hn hs hf hf1 lat hh hG hd [r hr]. unfold sim_init.
  rewrite (proj2 (unique_spec _) hn); cbn [negb]. rewrite hl in *. set (layers' := l0 :: t) in *.
  replace (forallb (fun l => Nat.eqb (pl_lat l) (pl_lat l0)) layers') with true.
  2: { symmetry. apply forallb_forall. intros l hin. apply Nat.eqb_eq, hs; auto. }
  cbn [negb]. rewrite (proj2 (mem_str_spec _ _) hf); cbn [negb]. fold lat in hf1 |- *.
  replace (lt_is1D lat && _)%bool with false.
  2: { destruct (lt_is1D lat); cbn [andb]; auto. rewrite (proj2 (mem_str_spec _ _) (hf1 eq_refl)). reflexivity. }
  rewrite hh; cbn [bind fst snd].
  destruct (max_entry G) as [m|] eqn:E; [|destruct G; [congruence | discriminate]].
  destruct (max_entry_in _ E) as [o [ho hm]]. destruct (hd o ho) as [h1 [h2 h3]].
  replace ((fst (lt_disc lat) <=? 2 * m)%Z || _)%bool with false.
  2: { symmetry. apply orb_false_intro; [apply Z.leb_gt; lia|].
       destruct (lt_is1D lat); cbn [negb]; [apply andb_false_r|]. rewrite andb_true_r. apply Z.leb_gt.
       destruct (h3 eq_refl). lia. }
  rewrite hr; cbn [bind]. eexists; split; [reflexivity|]. auto.
Qed.

End Init.

(** ------------------------------------------------------------------ *)
(** * Lookup *)

Lemma pyindex_nonneg n i : (0 <= i < Z.of_nat n)%Z -> pyindex n i = Some (Z.to_nat i).
Proof. intros h. unfold pyindex. destruct (Z.leb_spec 0 i); [|lia]. destruct (Z.ltb_spec i (Z.of_nat n)); [auto|lia]. Qed.

Lemma pyindex_none n i : (i < - Z.of_nat n \/ Z.of_nat n <= i)%Z -> pyindex n i = None.
Proof.
  intros h. unfold pyindex. destruct (Z.leb_spec 0 i), (Z.ltb_spec i (Z.of_nat n)); cbn; try lia;
  destruct (Z.leb_spec (- Z.of_nat n) i), (Z.ltb_spec i 0); cbn; try lia; auto.
Qed.

Lemma pyindex_neg n i : (- Z.of_nat n <= i < 0)%Z -> pyindex n i = Some (Z.to_nat (Z.of_nat n + i)).
Proof.
  intros h. unfold pyindex. destruct (Z.leb_spec 0 i); [lia|].
  destruct (Z.leb_spec (- Z.of_nat n) i), (Z.ltb_spec i 0); cbn; try lia; auto.
Qed.

Lemma find_name_spec ls : forall i k l, NoDup (map pl_name ls) -> nth_error ls k = Some l ->
  find_name (pl_name l) i ls = Some (l, (i + k)%nat).
Proof.
  induction ls as [|x t IH]; intros i k l hn hk; [destruct k; discriminate|].
  inversion hn as [|? ? hx ht]; subst. destruct k as [|k]; cbn in hk |- *.
  - injection hk; intros ->. rewrite String.eqb_refl. f_equal; f_equal; lia.
  - destruct (String.eqb_spec (pl_name x) (pl_name l)) as [e|e].
    + exfalso. apply hx. rewrite e. apply in_map. apply nth_error_In in hk. auto.
    + rewrite (IH (S i) k l ht hk). f_equal; f_equal; lia.
Qed.

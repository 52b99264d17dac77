(** Theorems about construction and lookups (C09 - C14). *)
From Coq Require Import Reals ZArith String Bool List Lia Lra Permutation.
From Verif Require Import Base Lattice_Model Lattice_Spec Lattice_Proofs Lattice_Proofs2 Lattice_Proofs3
  Lattice_Examples Argsort Init_Model Init_Proofs.
Import ListNotations.
Set Implicit Arguments.

Definition formulations : list string := ["original"; "tangent"; "jones"; "pol"]%string.
Definition formulations_1D : list string := ["original"; "tangent"]%string.

(** Some order does not fit the grid: twice its larger index reaches the first
    number of points, or, for bi-periodic lattices, the second. *)
Definition too_coarse (is1D : bool) (disc : Z * Z) (G : list (Z * Z)) : Prop :=
  exists a b, In (a, b) G /\ ((fst disc <= 2 * Z.max (Z.abs a) (Z.abs b))%Z \/
    (is1D = false /\ (snd disc <= 2 * Z.max (Z.abs a) (Z.abs b))%Z)).

Section Props.
Variable argsort : list R -> list nat.
Hypothesis hsort : argsort_ok argsort.
Variable lattices : nat -> lattice.
Variables (layers : list pylayer) (nh : Z) (form : string).
Local Notation init := (sim_init argsort lattices layers nh form).

(** ** C09 *)

Theorem C09_lookup : forall s, init = Ok s -> NoDup (sim_harmonics s) ->
  (forall j a b, nth_error (sim_harmonics s) j = Some (a, b) ->
     get_order_index s (OSeq [a; b]) = Ok j /\
     forall A (v : list A) x, nth_error v j = Some x -> get_order s v (OSeq [a; b]) = Ok x) /\
  (forall a b, ~ In (a, b) (sim_harmonics s) -> get_order_index s (OSeq [a; b]) = Err KeyError) /\
  (forall k, get_order_index s (OInt k) =
     if lt_is1D (sim_lattice s) then get_order_index s (OSeq [k; 0%Z]) else Err ValueError) /\
  get_order_index s OOther = Err ValueError.
Proof.
  intros s H hn. destruct (sim_init_inv _ _ _ _ _ H) as [l0 [t [G [n [m [r h]]]]]].
  destruct h as [_ [_ [_ [_ [_ [_ [_ [_ [_ [_ es]]]]]]]]]].
  assert (hG : sim_harmonics s = G) by (rewrite es; auto).
  assert (hd : sim_dict s = build_dict G) by (rewrite es; auto).
  clear es. rewrite hG in *.
  split; [|split; [|split]].
  - intros j a b hj. pose proof (@build_dict_in G (a, b) j hn hj) as hl.
    assert (hi : get_order_index s (OSeq [a; b]) = Ok j).
    { unfold get_order_index. rewrite hd. unfold dlook in hl; cbn [fst snd] in hl.
      destruct (dget (build_dict G) a) as [inner|]; [|discriminate]. rewrite hl. reflexivity. }
    split; [exact hi|]. intros A v x hx. unfold get_order. rewrite hi; cbn [bind]. rewrite hx. reflexivity.
  - intros a b hno. pose proof (@build_dict_notin G (a, b) hn hno) as hl.
    unfold get_order_index. rewrite hd. unfold dlook in hl; cbn [fst snd] in hl.
    destruct (dget (build_dict G) a) as [inner|]; [|reflexivity]. rewrite hl. reflexivity.
  - intros k. reflexivity.
  - reflexivity.
Qed.

(** ** C10 *)

(** For generated orders the construction can only succeed when every difference
    of orders is a valid index of both axes, and a difference that wraps to zero is zero. *)
Theorem C10_indexing : forall s, init = Ok s -> built (sim_lattice s) -> generates (sim_lattice s) ->
  (1 <= nh)%Z \/ forallb pl_uniform layers = true ->
  forall a b c d, In (a, b) (sim_harmonics s) -> In (c, d) (sim_harmonics s) ->
  let N0 := fst (lt_disc (sim_lattice s)) in let N1 := snd (lt_disc (sim_lattice s)) in
  (- N0 < a - c < N0 /\ - N1 < b - d < N1 /\
   ((a - c) mod N0 = 0 -> (b - d) mod N1 = 0 -> (a, b) = (c, d)))%Z.
Proof.
  intros s H hb hg hnh a b c d hab hcd N0 N1.
  destruct (sim_init_inv _ _ _ _ _ H) as [l0 [t [G [n [m [r h]]]]]].
  destruct h as [_ [_ [_ [_ [_ [hh [hm [h1 [h2 [hr es]]]]]]]]]].
  assert (hG : sim_harmonics s = G) by (rewrite es; auto).
  assert (hl : sim_lattice s = lattices (pl_lat l0)) by (rewrite es; auto).
  rewrite hG in *. rewrite <- hl in *.
  destruct (@gh_wf _ hsort (sim_lattice s) (effective_nh (forallb pl_uniform layers) nh) true hg)
    as [G' [n' [hh' [_ [_ [hneg _]]]]]].
  { apply effective_ge2. tauto. }
  rewrite hh in hh'. injection hh'; intros; subst G' n'.
  assert (hbound : forall x y, In (x, y) G -> (Z.abs x <= m /\ Z.abs y <= m)%Z).
  { intros x y hxy. pose proof (@max_entry_ge G m (x, y) hm hxy) as hp.
    pose proof (@max_entry_ge G m (- x, - y)%Z hm (hneg _ _ hxy)) as hq. cbn [fst snd] in *. lia. }
  pose proof (hbound _ _ hab) as b1. pose proof (hbound _ _ hcd) as b2.
  assert (hN0 : (- N0 < a - c < N0)%Z) by (unfold N0; lia).
  assert (hN1 : (- N1 < b - d < N1)%Z).
  { remember (sim_lattice s) as lat. destruct hb as [per disc harm|L tr disc harm].
    - cbn [lt_harm lattice_1D] in hg. destruct hg as [hn _]. cbn in hn. subst harm.
      destruct (@gh_one_dim _ hsort per disc (effective_nh (forallb pl_uniform layers) nh) true)
        as [G' [n' [hh'' [[_ hG'] _]]]].
      rewrite hh in hh''. injection hh''; intros; subst G' n'.
      apply hG' in hab, hcd. unfold N1; cbn. lia.
    - unfold N1. specialize (h2 eq_refl). lia. }
  split; [auto|]. split; [auto|]. intros e1 e2.
  assert (hz : forall x N, (- N < x < N)%Z -> (x mod N = 0)%Z -> x = 0%Z).
  { intros x N hx e. apply Z.mod_divide in e; [|lia]. destruct e as [k hk]. subst x.
    assert (k = 0)%Z by nia. subst k. reflexivity. }
  f_equal; [pose proof (hz _ _ hN0 e1) | pose proof (hz _ _ hN1 e2)]; lia.
Qed.

(** ** C11 *)

Theorem C11_incident : forall s (A : Type) (zero : A) (a : A * A), init = Ok s ->
  In (0, 0)%Z (sim_harmonics s) -> NoDup (sim_harmonics s) -> sim_nh s = Z.of_nat (length (sim_harmonics s)) ->
  let k := length (sim_harmonics s) in
  length (incident zero s a) = (k + k)%nat /\ length (bN zero s) = (k + k)%nat /\
  (forall i, nth i (bN zero s) zero = zero) /\
  forall i, (i < k)%nat ->
    (nth_error (sim_harmonics s) i = Some (0, 0)%Z ->
       nth i (incident zero s a) zero = fst a /\ nth (k + i) (incident zero s a) zero = snd a) /\
    (nth_error (sim_harmonics s) i <> Some (0, 0)%Z ->
       nth i (incident zero s a) zero = zero /\ nth (k + i) (incident zero s a) zero = zero).
Proof.
  intros s A zero a H h0 hn hnh k.
  destruct (sim_init_inv _ _ _ _ _ H) as [l0 [t [G [n [m [r h]]]]]].
  destruct h as [_ [_ [_ [_ [_ [_ [_ [_ [_ [_ es]]]]]]]]]].
  assert (hG : sim_harmonics s = G) by (rewrite es; auto).
  assert (hi : sim_index0 s = zeroth_index G) by (rewrite es; auto).
  assert (hk : k = length G) by (unfold k; rewrite hG; auto).
  clear es. rewrite hG in *. clearbody k. rewrite <- hk in *.
  pose proof (zeroth_ok _ h0) as hz.
  assert (hlt : (zeroth_index G < k)%nat).
  { rewrite hk. apply zeroth_lt. intros ->. destruct h0. }
  assert (hlen : length (incident zero s a) = (k + k)%nat).
  { unfold incident. rewrite map_length, seq_length, hnh. lia. }
  split; [auto|]. split; [unfold bN; rewrite repeat_length, hnh; lia|].
  split; [intros i; unfold bN; apply nth_repeat|].
  assert (hnth : forall i, (i < k + k)%nat -> nth i (incident zero s a) zero =
     if Nat.eqb i (zeroth_index G) then fst a else if Nat.eqb i (k + zeroth_index G) then snd a else zero).
  { intros i hik. unfold incident. rewrite hi, hnh.
    set (f := fun i => _). rewrite nth_indep with (d' := f 0%nat).
    2: { rewrite map_length, seq_length. lia. }
    rewrite map_nth, seq_nth by lia. cbn [plus]. unfold f.
    destruct (Nat.eqb_spec i (zeroth_index G)); [auto|].
    destruct (Z.eqb_spec (Z.of_nat i) (Z.of_nat k + Z.of_nat (zeroth_index G))),
      (Nat.eqb_spec i (k + zeroth_index G)); auto; lia. }
  intros i hik. rewrite !hnth by lia. split; intros hi0.
  - assert (i = zeroth_index G).
    { rewrite NoDup_nth_error in hn. apply hn; [lia|]. congruence. }
    subst i. rewrite !Nat.eqb_refl. destruct (Nat.eqb_spec (k + zeroth_index G) (zeroth_index G)); [lia|auto].
  - assert (i <> zeroth_index G) by congruence.
    destruct (Nat.eqb_spec i (zeroth_index G)), (Nat.eqb_spec i (k + zeroth_index G)),
      (Nat.eqb_spec (k + i) (zeroth_index G)), (Nat.eqb_spec (k + i) (k + zeroth_index G)); auto; lia.
Qed.

(** ** C12 *)

Theorem C12_rejections :
  (~ NoDup (map pl_name layers) -> init = Err ValueError) /\
  (NoDup (map pl_name layers) -> forall l0 t, layers = l0 :: t ->
   let lat := lattices (pl_lat l0) in
   (~ same_lattice layers (pl_lat l0) -> init = Err AssertionError) /\
   (same_lattice layers (pl_lat l0) ->
    (~ In form formulations -> init = Err ValueError) /\
    (In form formulations -> lt_is1D lat = true -> ~ In form formulations_1D -> init = Err ValueError) /\
    (In form formulations -> (lt_is1D lat = true -> In form formulations_1D) ->
     built lat -> generates lat -> (exists r, reciprocal lat = Ok r) ->
     (1 <= nh)%Z \/ forallb pl_uniform layers = true ->
     exists G n, get_harmonics argsort lat (effective_nh (forallb pl_uniform layers) nh) true = Ok (G, n) /\
     (too_coarse (lt_is1D lat) (lt_disc lat) G -> init = Err ValueError) /\
     (~ too_coarse (lt_is1D lat) (lt_disc lat) G ->
        exists s, init = Ok s /\ sim_harmonics s = G /\ sim_nh s = n)))).
Proof.
  split.
  { intros h. unfold sim_init. destruct (unique _) eqn:E; [|reflexivity]. apply unique_spec in E. contradiction. }
  intros hn l0 t hl lat. split; [|intros hs; split; [|split]].
  - intros hs. unfold sim_init. rewrite (proj2 (unique_spec _) hn); cbn [negb]. rewrite hl in *.
    destruct (forallb (fun l => Nat.eqb (pl_lat l) (pl_lat l0)) (l0 :: t)) eqn:E; [|reflexivity].
    exfalso. apply hs. intros l hin. rewrite forallb_forall in E. apply Nat.eqb_eq, E; auto.
  - intros hf. unfold sim_init. rewrite (proj2 (unique_spec _) hn); cbn [negb]. rewrite hl in *.
    replace (forallb (fun l => Nat.eqb (pl_lat l) (pl_lat l0)) (l0 :: t)) with true.
    2: { symmetry. apply forallb_forall. intros l hin. apply Nat.eqb_eq, hs; auto. }
    cbn [negb]. destruct (mem_str form _) eqn:E; [|reflexivity]. apply mem_str_spec in E. contradiction.
  - intros hf h1 hf1. unfold sim_init. rewrite (proj2 (unique_spec _) hn); cbn [negb]. rewrite hl in *.
    replace (forallb (fun l => Nat.eqb (pl_lat l) (pl_lat l0)) (l0 :: t)) with true.
    2: { symmetry. apply forallb_forall. intros l hin. apply Nat.eqb_eq, hs; auto. }
    cbn [negb]. rewrite (proj2 (mem_str_spec form ["original"; "tangent"; "jones"; "pol"]%string) hf); cbn [negb]. fold lat. rewrite h1. cbn [andb].
    destruct (mem_str form _) eqn:E; [|reflexivity]. apply mem_str_spec in E. contradiction.
  - intros hf hf1 hb hg hr hnh.
    destruct (@gh_wf _ hsort lat (effective_nh (forallb pl_uniform layers) nh) true hg)
      as [G [n [hh [hnd [h0 [hneg [hlen hle]]]]]]].
    { apply effective_ge2. tauto. }
    exists G, n. split; [auto|]. split.
    + intros [a [b [hab hc]]].
      destruct init as [s|e] eqn:H.
      * exfalso. destruct (sim_init_inv _ _ _ _ _ H) as [l0' [t' [G' [n' [m [r h]]]]]].
        destruct h as [hl' [_ [_ [_ [_ [hh' [hm [h1 [h2 _]]]]]]]]].
        rewrite hl in hl'. injection hl'; intros; subst l0' t'. fold lat in hh', h1, h2.
        rewrite hh in hh'. injection hh'; intros; subst G' n'.
        pose proof (@max_entry_ge G m (a, b) hm hab) as hp.
        pose proof (@max_entry_ge G m (- a, - b)%Z hm (hneg _ _ hab)) as hq. cbn [fst snd] in *.
        destruct hc as [hc|[h1D hc]]; [lia|]. specialize (h2 h1D). lia.
      * revert H. unfold sim_init. rewrite (proj2 (unique_spec _) hn); cbn [negb].
        destruct layers as [|x u] eqn:EL; [discriminate hl|]. injection hl as ex eu; subst x u.
        rewrite <- EL in *. clear EL.
        replace (forallb (fun l => Nat.eqb (pl_lat l) (pl_lat l0)) layers) with true.
        2: { symmetry. apply forallb_forall. intros l hin. apply Nat.eqb_eq, hs; auto. }
        cbn [negb]. rewrite (proj2 (mem_str_spec form ["original"; "tangent"; "jones"; "pol"]%string) hf); cbn [negb]. fold lat.
        replace (lt_is1D lat && _)%bool with false.
        2: { destruct (lt_is1D lat); cbn [andb]; auto. rewrite (proj2 (mem_str_spec form ["original"; "tangent"]%string) (hf1 eq_refl)). reflexivity. }
        rewrite hh; cbn [bind fst snd].
        destruct (max_entry G) as [m|]; [|congruence]. destruct (_ || _)%bool; [congruence|].
        destruct hr as [r hr]. rewrite hr; cbn [bind]. discriminate.
    + intros hc. apply (@sim_init_ok argsort lattices layers nh form l0 t G n hl hn hs hf hf1 hh).
      * intros ->. destruct h0.
      * intros [a b] hab. fold lat. cbn [fst snd].
        assert (h1 : (2 * Z.max (Z.abs a) (Z.abs b) < fst (lt_disc lat))%Z).
        { destruct (Z.lt_ge_cases (2 * Z.max (Z.abs a) (Z.abs b)) (fst (lt_disc lat))) as [|hge]; [auto|].
          exfalso; apply hc; exists a, b. split; [auto|left; auto]. }
        split; [lia|]. split; [lia|]. intros h1D.
        destruct (Z.lt_ge_cases (2 * Z.max (Z.abs a) (Z.abs b)) (snd (lt_disc lat))) as [|hge]; [lia|].
        exfalso; apply hc; exists a, b. split; [auto|right; auto].
      * exact hr.
Qed.

(** ** C13 *)

Theorem C13_uniform : forall s, init = Ok s -> generates (sim_lattice s) ->
  forallb pl_uniform layers = true ->
  sim_harmonics s = [(0, 0)%Z] /\ sim_nh s = 1%Z /\ sim_index0 s = 0%nat.
Proof.
  intros s H hg hu. destruct (sim_init_inv _ _ _ _ _ H) as [l0 [t [G [n [m [r h]]]]]].
  destruct h as [_ [_ [_ [_ [_ [hh [_ [_ [_ [_ es]]]]]]]]]].
  assert (hl : sim_lattice s = lattices (pl_lat l0)) by (rewrite es; auto). rewrite hl in hg.
  rewrite hu, effective_uniform in hh. rewrite (@gh_two _ hsort _ true hg) in hh.
  injection hh; intros; subst G n. rewrite es. repeat split.
Qed.

(** ** C14 *)

Theorem C14_get_layer : NoDup (map pl_name layers) ->
  (forall k l, nth_error layers k = Some l ->
     get_layer layers (IdName (pl_name l)) = Ok (l, Z.of_nat k) /\
     get_layer layers (IdObject (pl_name l)) = Ok (l, Z.of_nat k) /\
     get_layer layers (IdInt (Z.of_nat k)) = Ok (l, Z.of_nat k)) /\
  (forall i, (0 <= i < Z.of_nat (length layers))%Z -> exists l,
     nth_error layers (Z.to_nat i) = Some l /\ get_layer layers (IdInt i) = Ok (l, i)) /\
  (forall i, (- Z.of_nat (length layers) <= i < 0)%Z -> exists l,
     nth_error layers (Z.to_nat (Z.of_nat (length layers) + i)) = Some l /\ get_layer layers (IdInt i) = Ok (l, i)) /\
  (forall x, ~ In x (map pl_name layers) -> get_layer layers (IdName x) = Err ValueError /\
                                           get_layer layers (IdObject x) = Err ValueError) /\
  (forall i, (i < - Z.of_nat (length layers) \/ Z.of_nat (length layers) <= i)%Z ->
     get_layer layers (IdInt i) = Err IndexError) /\
  get_layer layers IdOther = Err ValueError.
Proof.
  intros hn.
  assert (hint : forall i, (0 <= i < Z.of_nat (length layers))%Z -> exists l,
     nth_error layers (Z.to_nat i) = Some l /\ get_layer layers (IdInt i) = Ok (l, i)).
  { intros i hi. unfold get_layer, pynth. rewrite pyindex_nonneg by auto.
    destruct (nth_error layers (Z.to_nat i)) as [l|] eqn:E.
    - exists l. split; reflexivity.
    - apply nth_error_None in E. lia. }
  assert (hneg : forall i, (- Z.of_nat (length layers) <= i < 0)%Z -> exists l,
     nth_error layers (Z.to_nat (Z.of_nat (length layers) + i)) = Some l /\ get_layer layers (IdInt i) = Ok (l, i)).
  { intros i hi. unfold get_layer, pynth. rewrite pyindex_neg by auto.
    destruct (nth_error layers (Z.to_nat (Z.of_nat (length layers) + i))) as [l|] eqn:E.
    - exists l. split; reflexivity.
    - apply nth_error_None in E. lia. }
  split; [|split; [exact hint|split; [exact hneg|split; [|split]]]].
  - intros k l hk.
    assert (hstr : get_layer_by_str (pl_name l) layers = Ok (l, Z.of_nat k)).
    { unfold get_layer_by_str. rewrite (proj2 (mem_str_spec _ _)).
      - rewrite (@find_name_spec layers 0 k l hn hk). reflexivity.
      - apply in_map. apply nth_error_In in hk. auto. }
    split; [exact hstr|]. split; [exact hstr|].
    assert (hlt : (k < length layers)%nat) by (apply nth_error_Some; congruence).
    destruct (hint (Z.of_nat k) ltac:(lia)) as [l' [h1 h2]]. rewrite Nat2Z.id in h1. congruence.
  - intros x hx. assert (e : mem_str x (map pl_name layers) = false).
    { destruct (mem_str x _) eqn:E; [|auto]. apply mem_str_spec in E. contradiction. }
    unfold get_layer, get_layer_by_str. rewrite e. auto.
  - intros i hi. unfold get_layer, pynth. rewrite pyindex_none by lia. reflexivity.
  - reflexivity.
Qed.

End Props.

Theorem C12_layer : forall thickness mu,
  (forall t, thickness = Some t -> (t < 0)%R -> layer_init thickness mu = Err ValueError) /\
  ((forall t, thickness = Some t -> (0 <= t)%R) ->
   forall re im, mu = MuScalar re im ->
   (re = 1%R /\ im = 0%R -> layer_init thickness mu = Ok tt) /\
   (~ (re = 1%R /\ im = 0%R) -> layer_init thickness mu = Err NotImplementedError)).
Proof.
  intros th mu. split.
  - intros t -> ht. unfold layer_init. destruct (Rlt_dec t 0); [reflexivity|contradiction].
  - intros h re im ->. unfold layer_init.
    replace (match th with Some t => if Rlt_dec t 0 then true else false | None => false end) with false.
    2: { destruct th as [t|]; [|auto]. specialize (h t eq_refl). destruct (Rlt_dec t 0); [lra|auto]. }
    destruct (Req_EM_T re 1), (Req_EM_T im 0); split; intros; try tauto; auto.
Qed.

Print Assumptions C09_lookup.
Print Assumptions C10_indexing.
Print Assumptions C11_incident.
Print Assumptions C12_rejections.
Print Assumptions C12_layer.
Print Assumptions C13_uniform.
Print Assumptions C14_get_layer.

(** ** Concrete cases *)

Definition case_layers : list pylayer :=
  [PyLayer "air" 0 true; PyLayer "grating" 0 false; PyLayer "glass" 0 true]%string.

(** a square lattice with nine orders, constructed *)
Example C12_case : exists s, sim_init isort (fun _ => square false) case_layers 12 "jones" = Ok s /\
  sim_nh s = 9%Z /\ In (1, -1)%Z (sim_harmonics s) /\ NoDup (sim_harmonics s) /\ sim_lattice s = square false.
Proof.
  destruct (C12_rejections isort_ok (fun _ => square false) case_layers 12 "jones") as [_ h].
  assert (hn : NoDup (map pl_name case_layers)).
  { cbn. repeat (constructor; [cbn [In]; intros h'; repeat destruct h' as [h'|h']; try discriminate; auto|]). constructor. }
  specialize (h hn _ _ eq_refl). cbn zeta in h. destruct h as [_ h].
  destruct h as [_ [_ h]]. { intros l hl. cbn in hl. repeat destruct hl as [<-|hl]; auto. destruct hl. }
  assert (hD : det2 (Mat2 1 0 0 1) <> 0%R) by (unfold det2; cbn; lra).
  destruct h as [G [n [hG [_ h]]]].
  - cbn; auto.
  - cbn; discriminate.
  - constructor.
  - split; [reflexivity|]. cbn [lt_trunc square lattice_2D]. exact hD.
  - eexists. apply rec_square.
  - left; lia.
  - cbn [case_layers forallb pl_uniform] in hG. change (effective_nh false 12) with 12%Z in hG.
    destruct (@gh_parallel isort isort_ok (Mat2 1 0 0 1) (256, 256)%Z 12%Z true hD ltac:(lia)) as [G' [M [hG' [h1 [h2 [hnd h3]]]]]].
    assert (hM : M = 1%Z) by nia. subst M. fold (square false) in hG'.
    change (get_harmonics isort (square false) 12 true = Ok (G, n)) in hG.
    rewrite hG in hG'. injection hG'; intros en eG; subst G' n.
    destruct h as [s [hs1 [hs2 hs3]]].
    + intros [a [b [hab hc]]]. apply h3 in hab. cbn [lt_disc lt_is1D square lattice_2D fst snd] in hc. lia.
    + exists s. split; [exact hs1|]. split; [exact hs3|]. rewrite hs2. split; [apply h3; lia|]. split; [exact hnd|].
      destruct (sim_init_inv _ _ _ _ _ hs1) as [l0 [t [G' [n' [m [r hh]]]]]].
      destruct hh as [_ [_ [_ [_ [_ [_ [_ [_ [_ [_ es]]]]]]]]]]. rewrite es. reflexivity.
Qed.

Example C09_case : exists s j, sim_init isort (fun _ => square false) case_layers 12 "jones" = Ok s /\
  get_order_index s (OSeq [1; -1]%Z) = Ok j /\ nth_error (sim_harmonics s) j = Some (1, -1)%Z /\
  get_order_index s (OSeq [2; 0]%Z) = Err KeyError.
Proof.
  destruct C12_case as [s [H [h9 [hin [hnd hlat]]]]].
  destruct (In_nth_error _ _ hin) as [j hj]. exists s, j.
  destruct (C09_lookup _ _ _ _ _ H hnd) as [h1 [h2 _]].
  split; [exact H|]. split; [apply (h1 j 1%Z (-1)%Z hj)|]. split; [exact hj|].
  apply h2. intros h20.
  destruct (@gh_parallel isort isort_ok (Mat2 1 0 0 1) (256, 256)%Z 12%Z true) as [G' [M [hG' [hM [_ [_ h3]]]]]].
  { unfold det2; cbn; lra. } { lia. }
  destruct (sim_init_inv _ _ _ _ _ H) as [l0 [t [G [n [m [r hh]]]]]].
  destruct hh as [hl [_ [_ [_ [_ [hh [_ [_ [_ [_ es]]]]]]]]]].
  change (effective_nh (forallb pl_uniform case_layers) 12) with 12%Z in hh.
  fold (square false) in hG'. rewrite hh in hG'. injection hG' as e1 e2. subst G'.
  rewrite es in h20. cbn [sim_harmonics] in h20. apply h3 in h20. assert (M = 1%Z) by nia. lia.
Qed.

(** three uniform layers, 500 orders requested, circular truncation: one order *)
Example C13_case : exists s,
  sim_init isort (fun _ => square true) [PyLayer "a" 0 true; PyLayer "b" 0 true; PyLayer "c" 0 true]%string 500 "original" = Ok s /\
  sim_harmonics s = [(0, 0)%Z].
Proof.
  assert (hg : generates (square true)).
  { split; [reflexivity|]. exists (Mat2 (2 * PI) 0 0 (2 * PI)). split; [apply rec_square|].
    apply separates_metric. exact sep_square. }
  set (ls := [_; _; _]).
  destruct (@sim_init_ok isort (fun _ => square true) ls 500 "original" (PyLayer "a" 0 true) (tl ls)
     [(0, 0)%Z] 1%Z eq_refl) as [s [hs [h1 _]]].
  - cbn. repeat (constructor; [cbn [In]; intros h'; repeat destruct h' as [h'|h']; try discriminate; auto|]). constructor.
  - intros l hl. cbn in hl. repeat destruct hl as [<-|hl]; auto. destruct hl.
  - cbn; auto.
  - cbn; discriminate.
  - change (forallb pl_uniform ls) with true. rewrite effective_uniform. apply gh_two; [apply isort_ok | exact hg].
  - discriminate.
  - intros o [<-|[]]. cbn. lia.
  - eexists; apply rec_square.
  - exists s. auto.
Qed.

Example C14_case : get_layer case_layers (IdName "grating") = Ok (PyLayer "grating" 0 false, 1%Z) /\
  get_layer case_layers (IdInt (-1)) = Ok (PyLayer "glass" 0 true, (-1)%Z) /\
  get_layer case_layers (IdName "gold") = Err ValueError.
Proof. repeat split. Qed.

Example C10_case : exists s, sim_init isort (fun _ => square false) case_layers 12 "jones" = Ok s /\
  built (sim_lattice s) /\ generates (sim_lattice s).
Proof.
  destruct C12_case as [s [H [_ [_ [_ hlat]]]]]. exists s. split; [exact H|]. rewrite hlat.
  split; [constructor|]. split; [reflexivity|]. cbn. unfold det2; cbn; lra.
Qed.

Example C11_case : exists s, sim_init isort (fun _ => square false) case_layers 12 "jones" = Ok s /\
  nth (sim_index0 s) (incident 0%Z s (7, 9)%Z) 0%Z = 7%Z.
Proof.
  destruct C12_case as [s [H [h9 [_ [hnd hlat]]]]]. exists s. split; [exact H|].
  assert (hg : generates (square false)).
  { split; [reflexivity|]. cbn. unfold det2; cbn; lra. }
  destruct (@gh_wf isort isort_ok (square false) 12%Z true hg ltac:(lia)) as [G' [n' [hG' [_ [h0 [_ [hlen _]]]]]]].
  destruct (sim_init_inv _ _ _ _ _ H) as [l0 [t [G [n [m [r hh]]]]]].
  destruct hh as [hl [_ [_ [_ [_ [hh [_ [_ [_ [_ es]]]]]]]]]].
  change (effective_nh (forallb pl_uniform case_layers) 12) with 12%Z in hh.
  rewrite hh in hG'. injection hG' as e1 e2. subst G' n'.
  assert (hG : sim_harmonics s = G) by (rewrite es; auto). assert (hn : sim_nh s = n) by (rewrite es; auto).
  assert (hi : sim_index0 s = zeroth_index G) by (rewrite es; auto).
  assert (hin : In (0, 0)%Z (sim_harmonics s)) by (rewrite hG; auto).
  assert (hl' : sim_nh s = Z.of_nat (length (sim_harmonics s))) by (rewrite hn, hG; auto).
  destruct (C11_incident _ _ _ _ _ 0%Z (7, 9)%Z H hin hnd hl') as [_ [_ [_ h]]].
  rewrite hi. apply h; rewrite hG; [apply zeroth_lt; intros ->; destruct h0 | apply zeroth_ok; auto].
Qed.

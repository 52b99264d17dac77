(** The cached methods return what the cache-free specification says. *)
From Coq Require Import List ZArith Bool Arith Lia.
From Verif Require Import Base Init_Model State_Model State_Spec.
Import ListNotations.
Set Implicit Arguments.

Section Proofs.
Variables (P T E Pat Q G M Amp Eff Zt Fld Str Cx : Type).
Notation view := (view T E Pat Q G).
Notation heap := (heap T E Pat Q G).
Notation lobj := (lobj T E Pat Q G).
Notation sim := (sim P M).
Notation st := (st P T E Pat Q G M).
Notation act := (act P T E Pat Q G M).
Variable unif : E -> bool.
Variable build_u : P -> E -> res Q.
Variable build_p : P -> E -> res (Pat * Q).
Variable modes_u : P -> E -> res G.
Variable modes_p : Pat -> res G.
Variable S0 : P -> M.
Variable step : P -> view -> view -> M -> res M.
Variable amp0 : P -> M -> Amp.
Variable ampN : P -> M -> Amp.
Variable ampI : P -> M -> M -> res Amp.
Variable eff : P -> view -> view -> M -> res Eff.
Variable fld : P -> view -> Zt -> Amp -> res Fld.
Variable str : P -> view -> Fld -> res Str.
Variable cx : P -> view -> view -> Fld -> Fld -> res Cx.
Variable z0 : Zt.

Notation look := (@look T E Pat Q G unif).
Notation solved_view := (@solved_view P T E Pat Q G unif build_u build_p modes_u modes_p).
Notation solved_views := (@solved_views P T E Pat Q G unif build_u build_p modes_u modes_p).
Notation build := (build unif build_u build_p).
Notation modes := (modes unif modes_u modes_p).
Notation solve_one := (solve_one unif build_u build_p modes_u modes_p).
Notation solve_all := (solve_all unif build_u build_p modes_u modes_p).
Notation usable := (usable unif).
Notation copies_ok := (copies_ok unif).

(** Objects with the same user-visible data. *)
Definition same_obj (o o' : lobj) : Prop :=
  o_thick o = o_thick o' /\ o_eps o = o_eps o' /\ o_copy_of o = o_copy_of o'.
Definition same (h h' : heap) : Prop := forall a, same_obj (h a) (h' a).

Lemma same_refl h : same h h.
Proof. intros a. split; [|split]; reflexivity. Qed.
Lemma same_trans h1 h2 h3 : same h1 h2 -> same h2 h3 -> same h1 h3.
Proof.
  intros A B a. destruct (A a) as [? [? ?]], (B a) as [? [? ?]].
  split; [|split]; congruence.
Qed.
Lemma same_sym h h' : same h h' -> same h' h.
Proof. intros A a. destruct (A a) as [? [? ?]]. split; [|split]; congruence. Qed.

Lemma same_data h h' ls : same h h' -> data h ls = data h' ls.
Proof.
  intros A. unfold data. apply map_ext. intros a. destruct (A a) as [-> [-> _]]. reflexivity.
Qed.

Lemma same_copies h h' : same h h' -> forall ls bef, copies_ok h bef ls -> copies_ok h' bef ls.
Proof.
  intros A. induction ls as [|a t IH]; intros bef; cbn [State_Spec.copies_ok]; [auto|].
  destruct (A a) as [_ [e1 <-]].
  intros [C R]. split; [|auto].
  destruct (o_copy_of (h a)) as [b|]; [|auto].
  destruct (A b) as [_ [e2 _]]. rewrite <- e2, <- e1. exact C.
Qed.

Lemma upd_same h a o : same_obj (h a) o -> same h (upd h a o).
Proof.
  intros A b. unfold upd. destruct (Nat.eqb_spec b a); [subst; exact A|].
  split; [|split]; reflexivity.
Qed.
Lemma upd_eq (h : heap) a o : upd h a o a = o.
Proof. unfold upd. now rewrite Nat.eqb_refl. Qed.
Lemma upd_neq (h : heap) a o b : b <> a -> upd h a o b = h b.
Proof. unfold upd. intros. destruct (Nat.eqb_spec b a); congruence. Qed.

Definition dat (o : lobj) : T * E := (o_thick o, o_eps o).

(** The layer at [a] carries the attributes of a freshly solved layer. *)
Definition solved_at (p : P) (h : heap) (a : nat) : Prop :=
  solved_view p (dat (h a)) = Ok (look h a).

Lemma solved_at_ext p h h' a : h' a = h a -> solved_at p h a -> solved_at p h' a.
Proof. unfold solved_at, State_Model.look. intros ->. auto. Qed.

(** One layer: the outcome and the attributes left behind. *)
Definition copy_ready (p : P) (h : heap) (a : nat) : Prop :=
  match o_copy_of (h a) with
  | None => True
  | Some b => b <> a /\ solved_at p h b /\ o_eps (h b) = o_eps (h a) /\ unif (o_eps (h a)) = false
  end.

Lemma solve_one_spec p h a : copy_ready p h a ->
  forall h' r, solve_one p h a = (h', r) ->
  (forall b, b <> a -> h' b = h b) /\ same h h' /\
  match solved_view p (dat (h a)) with
  | Ok v => r = Ok tt /\ look h' a = v
  | Err e => r = Err e
  end.
Proof.
  intros C h' r. unfold State_Model.solve_one, State_Model.build, State_Spec.solved_view, dat.
  unfold copy_ready in C.
  destruct (o_copy_of (h a)) as [b|] eqn:Ec.
  - (* a copy *)
    destruct C as [ba [sb [eb ua]]]. rewrite ua.
    unfold solved_at, State_Spec.solved_view, dat, State_Model.look in sb.
    rewrite eb, ua in sb.
    apply bind_ok in sb. destruct sb as [[m q] [E1 sb]].
    apply bind_ok in sb. destruct sb as [g [E2 sb]]. cbn [fst snd] in *.
    injection sb as e1 e2 e3. rewrite <- e1, <- e2.
    unfold State_Model.modes. rewrite upd_eq. cbn [set_built o_eps o_pat o_copy_of].
    rewrite ua, Ec, upd_neq by exact ba. rewrite <- e3.
    intros X. injection X as <- <-. rewrite E1. cbn [bind fst snd]. rewrite E2. cbn [bind].
    split; [|split; [|split]].
    + intros c ca. now rewrite !upd_neq.
    + eapply same_trans; [apply upd_same|apply upd_same]; [|rewrite upd_eq];
        cbn; unfold same_obj; cbn; auto.
    + reflexivity.
    + unfold State_Model.look. rewrite upd_eq. cbn. now rewrite ua.
  - destruct (unif (o_eps (h a))) eqn:ua.
    + destruct (build_u p (o_eps (h a))) as [q|e] eqn:E1; cbn [bind].
      2:{ intros X. injection X as <- <-. split; [auto|split; [apply same_refl|auto]]. }
      unfold State_Model.modes. rewrite upd_eq. cbn [set_built o_eps o_pat o_copy_of].
      rewrite ua. destruct (modes_u p (o_eps (h a))) as [g|e] eqn:E2; cbn [bind];
        intros X; injection X as <- <-.
      * split; [|split; [|split]].
        -- intros c ca. now rewrite !upd_neq.
        -- eapply same_trans; [apply upd_same|apply upd_same]; [|rewrite upd_eq];
             cbn; unfold same_obj; cbn; auto.
        -- reflexivity.
        -- unfold State_Model.look. rewrite upd_eq. cbn. now rewrite ua.
      * split; [|split]; [|apply upd_same; unfold same_obj; cbn; auto|reflexivity].
        intros c ca. now rewrite !upd_neq.
    + destruct (build_p p (o_eps (h a))) as [[m q]|e] eqn:E1; cbn [bind fst snd].
      2:{ intros X. injection X as <- <-. split; [auto|split; [apply same_refl|auto]]. }
      unfold State_Model.modes. rewrite upd_eq. cbn [set_built o_eps o_pat o_copy_of].
      rewrite ua, Ec. destruct (modes_p m) as [g|e] eqn:E2; cbn [bind];
        intros X; injection X as <- <-.
      * split; [|split; [|split]].
        -- intros c ca. now rewrite !upd_neq.
        -- eapply same_trans; [apply upd_same|apply upd_same]; [|rewrite upd_eq];
             cbn; unfold same_obj; cbn; auto.
        -- reflexivity.
        -- unfold State_Model.look. rewrite upd_eq. cbn. now rewrite ua.
      * split; [|split]; [|apply upd_same; unfold same_obj; cbn; auto|reflexivity].
        intros c ca. now rewrite !upd_neq.
Qed.

Lemma solve_all_spec p : forall ls h bef,
  NoDup ls -> (forall a, In a ls -> ~ In a bef) -> copies_ok h bef ls ->
  (forall b, In b bef -> solved_at p h b) ->
  forall h' r, solve_all p h ls = (h', r) ->
  (forall b, ~ In b ls -> h' b = h b) /\ same h h' /\
  match solved_views p (data h ls) with
  | Ok vs => r = Ok tt /\ map (look h') ls = vs
  | Err e => r = Err e
  end.
Proof.
  induction ls as [|a t IH]; intros h bef ND DJ CO SB h' r; cbn [State_Model.solve_all].
  - intros X. injection X as <- <-. cbn. split; [auto|split; [apply same_refl|auto]].
  - destruct (solve_one p h a) as [h1 r1] eqn:E1.
    assert (CR : copy_ready p h a).
    { cbn in CO. destruct CO as [CO _]. unfold copy_ready.
      destruct (o_copy_of (h a)) as [b|]; [|exact I].
      destruct CO as [ib [e u]]. split; [|auto].
      intros ->. apply (DJ a); [left; auto|exact ib]. }
    destruct (@solve_one_spec p h a CR h1 r1 E1) as [K1 [SM R1]].
    cbn [data map State_Spec.solved_views]. fold (data h t).
    change (o_thick (h a), o_eps (h a)) with (dat (h a)).
    assert (SA := SM a). destruct SA as [st1 [se1 sc1]].
    inversion ND as [|? ? NA ND']; subst.
    destruct (solved_view p (dat (h a))) as [v|e] eqn:Ev; cbn [bind].
    2:{ subst r1. intros X. injection X as <- <-. split; [|split; auto].
        intros b nb. apply K1. intros ->. apply nb. now left. }
    destruct R1 as [-> LV].
    intros E2.
    assert (CO' : copies_ok h1 (a :: bef) t).
    { cbn in CO. destruct CO as [_ CO]. eapply same_copies; eauto. }
    destruct (IH h1 (a :: bef)) with (h' := h') (r := r) as [K2 [SM2 R2]]; auto.
    + intros b ib [->|ib2]; [auto|]. apply (DJ b); [now right|auto].
    + intros b [<-|ib].
      * unfold solved_at. unfold dat. rewrite <- st1, <- se1. fold (dat (h a)).
        rewrite Ev. now rewrite LV.
      * apply solved_at_ext with (h := h); [|auto].
        apply K1. intros ->. apply (DJ a); [now left|auto].
    + split; [|split].
      * intros b nb. rewrite K2, K1; auto; intros X; apply nb; [subst; now left|now right].
      * eapply same_trans; eauto.
      * rewrite <- (same_data t SM) in R2.
        destruct (solved_views p (data h t)) as [vs|e]; cbn [bind]; [|auto].
        destruct R2 as [-> R2]. split; [reflexivity|]. cbn [map]. f_equal; [|exact R2].
        unfold State_Model.look in *. rewrite (K2 a NA). exact LV.
Qed.

(** ------------------------------------------------------------------ *)
(** * The invariant *)
Section Inv.
(** the heap when the simulation was (last) in a consistent state *)
Variable h0 : heap.
Variable p : P.
Variable ls : list nat.
Hypothesis US : usable h0 ls.
Let d := data h0 ls.

Notation s_product := (s_product step).
Notation S_between := (S_between unif build_u build_p modes_u modes_p S0 step p d).
Notation S_full := (S_full unif build_u build_p modes_u modes_p S0 step p d).

Record good (s : st) : Prop := Good {
  g_par : s_par (snd s) = p;
  g_layers : s_layers (snd s) = ls;
  g_out : forall a, ~ In a ls -> fst s a = h0 a;
  g_same : same h0 (fst s);
  g_solved : s_solved (snd s) = true -> solved_views p d = Ok (map (look (fst s)) ls);
  g_cache : forall a i x, s_cache (snd s) a i = Some x -> S_between a (i + 1) = Ok x;
  g_S : forall x, s_S (snd s) = Some x -> S_full = Ok x }.

Definition solved (s : st) : Prop := s_solved (snd s) = true.

(** [m] keeps the invariant, returns [r], and reaches [post] when it succeeds. *)
Definition tr (pre : st -> Prop) A (m : act A) (r : res A) (post : st -> Prop) : Prop :=
  forall s, good s -> pre s ->
    snd (m s) = r /\ good (fst (m s)) /\ (is_ok r = true -> post (fst (m s))).

Definition any (s : st) : Prop := True.

Lemma tr_bind pre A (m : act A) r mid B (f : A -> act B) g post :
  tr pre m r mid -> (forall a, r = Ok a -> tr mid (f a) (g a) post) ->
  tr pre (seqa m f) (bind r g) post.
Proof.
  intros H1 H2 s Gs Ps. destruct (H1 s Gs Ps) as [e [G1 M1]].
  unfold seqa. destruct (m s) as [s' [a|e']] eqn:Em; cbn [fst snd] in *; subst r; cbn [bind].
  - apply (H2 a eq_refl s' G1). apply M1. reflexivity.
  - cbn. split; [auto|split; [auto|discriminate]].
Qed.

Lemma tr_bind_ok (pre : st -> Prop) A (m : act A) x mid B (f : A -> act B) r (post : st -> Prop) :
  tr pre m (Ok x) mid -> tr mid (f x) r post -> tr pre (seqa m f) r post.
Proof.
  intros H1 H2. apply (@tr_bind pre A m (Ok x) mid B f (fun _ => r) post H1).
  intros a Ea. injection Ea as <-. exact H2.
Qed.

Lemma tr_weaken (pre pre' : st -> Prop) A (m : act A) r (post post' : st -> Prop) :
  tr pre m r post -> (forall s, pre' s -> pre s) -> (forall s, post s -> post' s) ->
  tr pre' m r post'.
Proof.
  intros H A1 A2 s Gs Ps. destruct (H s Gs (A1 s Ps)) as [e [G1 M1]].
  split; [auto|split; auto].
Qed.

Lemma tr_eq pre A (m : act A) r r' post : tr pre m r post -> r = r' -> tr pre m r' post.
Proof. intros H <-. exact H. Qed.

Lemma tr_lift pre A (r : res A) : tr pre (@lift P T E Pat Q G M A r) r pre.
Proof. intros s Gs Ps. cbn. auto. Qed.
Lemma tr_ret pre A (a : A) : tr pre (@ret P T E Pat Q G M A a) (Ok a) pre.
Proof. intros s Gs Ps. cbn. auto. Qed.
Lemma tr_fail pre A e : tr pre (@fail P T E Pat Q G M A e) (Err e) pre.
Proof. intros s Gs Ps. cbn. auto. Qed.
Lemma tr_par pre : tr pre (@par P T E Pat Q G M) (Ok p) pre.
Proof. intros s Gs Ps. cbn. rewrite (g_par Gs). auto. Qed.
Lemma tr_n pre : tr pre (@n_layers P T E Pat Q G M) (Ok (Z.of_nat (length ls))) pre.
Proof. intros s Gs Ps. cbn. rewrite (g_layers Gs). auto. Qed.
Lemma tr_layer pre i : tr pre (@layer_at P T E Pat Q G M i) (pynth ls i) pre.
Proof. intros s Gs Ps. cbn. rewrite (g_layers Gs). auto. Qed.

Lemma pynth_map A B (f : A -> B) (l : list A) i :
  pynth (map f l) i = let! x := pynth l i in Ok (f x).
Proof.
  unfold pynth. rewrite map_length. destruct (pyindex (length l) i) as [k|]; [|reflexivity].
  rewrite nth_error_map. destruct (nth_error l k); reflexivity.
Qed.

Lemma pynth_in A (l : list A) i x : pynth l i = Ok x -> In x l.
Proof.
  unfold pynth. destruct (pyindex (length l) i); [|discriminate].
  unfold of_option. destruct (nth_error l n) eqn:e; [|discriminate].
  intros X. injection X as <-. eapply nth_error_In; eauto.
Qed.

Lemma solved_views_in l vs x : solved_views p l = Ok vs -> In x l ->
  exists v, solved_view p x = Ok v.
Proof.
  revert vs. induction l as [|y t IH]; intros vs H [].
  - subst. cbn in H. apply bind_ok in H. destruct H as [v [H _]]. eauto.
  - cbn in H. apply bind_ok in H. destruct H as [v [_ H]].
    apply bind_ok in H. destruct H as [r [H _]]. eapply IH; eauto.
Qed.

Lemma solved_views_pynth l vs i : solved_views p l = Ok vs ->
  pynth vs i = let! x := pynth l i in solved_view p x.
Proof.
  intros H.
  assert (L : length vs = length l).
  { revert vs H. induction l as [|y t IH]; intros vs H; cbn in H.
    - injection H as <-. reflexivity.
    - apply bind_ok in H. destruct H as [v [_ H]].
      apply bind_ok in H. destruct H as [r [H1 H]]. injection H as <-. cbn. f_equal. auto. }
  unfold pynth. rewrite L. destruct (pyindex (length l) i) as [k|]; [|reflexivity].
  clear L i. revert l vs H. induction k as [|k IH]; intros l vs H; destruct l as [|y t]; cbn in H.
  - injection H as <-. reflexivity.
  - apply bind_ok in H. destruct H as [v [E1 H]].
    apply bind_ok in H. destruct H as [r [H1 H]]. injection H as <-. cbn. auto.
  - injection H as <-. reflexivity.
  - apply bind_ok in H. destruct H as [v [E1 H]].
    apply bind_ok in H. destruct H as [r [H1 H]]. injection H as <-. cbn. apply IH. auto.
Qed.

(** In a solved state the attributes of a layer are those of a fresh one. *)
Lemma tr_see a : In a ls ->
  tr solved (@see P T E Pat Q G M unif a) (solved_view p (dat (h0 a))) solved.
Proof.
  intros ia s Gs Ps. cbn. split; [|auto].
  assert (H := g_solved Gs Ps).
  destruct (In_nth_error _ _ ia) as [k ek].
  assert (X := @solved_views_pynth d _ (Z.of_nat k) H).
  unfold d, data in X. rewrite !pynth_map in X.
  assert (kl : k < length ls) by (apply nth_error_Some; congruence).
  assert (Y : pynth ls (Z.of_nat k) = Ok a).
  { unfold pynth, pyindex.
    replace ((0 <=? Z.of_nat k)%Z && (Z.of_nat k <? Z.of_nat (length ls))%Z)%bool with true.
    - rewrite Nat2Z.id, ek. reflexivity.
    - symmetry. apply andb_true_iff. split; [apply Z.leb_le|apply Z.ltb_lt]; lia. }
  rewrite Y in X. cbn in X. symmetry. exact X || (rewrite <- X; reflexivity).
Qed.

Lemma tr_solve : tr any (@solve P T E Pat Q G M unif build_u build_p modes_u modes_p)
  (let! _ := solved_views p d in Ok tt) solved.
Proof.
  intros [h m] Gs _. unfold solve. destruct Gs as [gp gl go gs gv gc gS]. cbn [fst snd] in *.
  destruct US as [ND CO].
  destruct (solve_all (s_par m) h (s_layers m)) as [h1 r] eqn:Es.
  rewrite gp, gl in *.
  destruct (@solve_all_spec p ls h [] ND) with (h' := h1) (r := r) as [K [SM R]]; auto.
  { eapply same_copies; eauto. }
  { intros b []. }
  rewrite <- (same_data ls gs) in R. fold d in R.
  assert (GO : forall a, ~ In a ls -> h1 a = h0 a) by (intros; rewrite K, go; auto).
  assert (GS : same h0 h1) by (eapply same_trans; eauto).
  destruct (solved_views p d) as [vs|e] eqn:Ed; cbn [bind].
  - destruct R as [-> <-]. cbn. split; [auto|split].
    + constructor; cbn; auto.
    + intros _. unfold solved. reflexivity.
  - subst r. cbn. split; [auto|split].
    + constructor; cbn; auto. intros X. specialize (gv X). congruence.
    + discriminate.
Qed.

Lemma tr_ensure : tr any (@ensure_solved P T E Pat Q G M unif build_u build_p modes_u modes_p)
  (let! _ := solved_views p d in Ok tt) solved.
Proof.
  intros s Gs Ps. unfold ensure_solved. destruct (s_solved (snd s)) eqn:E1.
  - cbn. rewrite (g_solved Gs E1). cbn. auto.
  - apply tr_solve; auto.
Qed.

Lemma tr_store a i x : S_between a (i + 1) = Ok x ->
  tr solved (@store P T E Pat Q G M a i x) (Ok tt) solved.
Proof.
  intros H [h m] Gs Ps. destruct Gs as [gp gl go gs gv gc gS]. cbn [fst snd] in *.
  cbn. split; [auto|split; [|auto]]. constructor; cbn; auto.
  intros a' i' x'. unfold cache_set.
  destruct (Z.eqb_spec a' a), (Z.eqb_spec i' i); cbn; subst; auto.
  intros X. injection X as <-. exact H.
Qed.

Lemma tr_set_S x : S_full = Ok x ->
  tr solved (@set_S P T E Pat Q G M x) (Ok tt) solved.
Proof.
  intros H [h m] Gs Ps. destruct Gs as [gp gl go gs gv gc gS]. cbn [fst snd] in *.
  cbn. split; [auto|split; [|auto]]. constructor; cbn; auto.
  intros x' X. injection X as <-. exact H.
Qed.

(** Ranges *)
Lemma zrange_nil a b : (b <= a)%Z -> zrange a b = [].
Proof. intros. unfold zrange. replace (Z.to_nat (b - a)) with 0 by lia. reflexivity. Qed.

Lemma zrange_snoc a b : (a <= b)%Z -> zrange a (b + 1) = zrange a b ++ [b].
Proof.
  intros. unfold zrange. replace (Z.to_nat (b + 1 - a)) with (S (Z.to_nat (b - a))) by lia.
  rewrite seq_S, map_app. cbn. repeat f_equal. lia.
Qed.

Lemma s_product_snoc vs x l i :
  s_product p vs x (l ++ [i]) =
  let! y := s_product p vs x l in
  let! v := pynth vs i in let! v' := pynth vs (i + 1) in step p v v' y.
Proof.
  revert x. induction l as [|j t IH]; intros x; cbn.
  - destruct (pynth vs i); cbn; [|auto]. destruct (pynth vs (i + 1)); cbn; [|auto].
    destruct (step p a a0 x); reflexivity.
  - destruct (pynth vs j); cbn; [|auto]. destruct (pynth vs (j + 1)); cbn; [|auto].
    destruct (step p a a0 x); cbn; auto.
Qed.

(** The loop, started at any point [j] of the range with the right partial product. *)
Lemma tr_loop vs a : solved_views p d = Ok vs ->
  forall k j x, (a <= j)%Z ->
  (a = j /\ x = S0 p \/ S_between a j = Ok x) ->
  tr solved (@s_loop P T E Pat Q G M unif step a x (map (fun i => (j + Z.of_nat i)%Z) (seq 0 k)))
     (s_product p vs x (map (fun i => (j + Z.of_nat i)%Z) (seq 0 k))) solved.
Proof.
  intros EV. induction k as [|k IH]; intros j x aj HX; cbn [seq map s_loop State_Spec.s_product].
  - apply tr_ret.
  - replace (j + Z.of_nat 0)%Z with j by lia.
    assert (V : forall i, pynth vs i = let! l := pynth ls i in solved_view p (dat (h0 l))).
    { intros i. rewrite (@solved_views_pynth d _ i EV). unfold d, data. rewrite pynth_map.
      destruct (pynth ls i); reflexivity. }
    rewrite !V.
    assert (IHH : forall y, S_between a (j + 1) = Ok y ->
      tr solved (@s_loop P T E Pat Q G M unif step a y (map (fun i => (j + Z.of_nat i)%Z) (seq 1 k)))
        (s_product p vs y (map (fun i => (j + Z.of_nat i)%Z) (seq 1 k))) solved).
    { intros y Hy. rewrite <- seq_shift, !map_map.
      replace (map (fun i => (j + Z.of_nat (S i))%Z) (seq 0 k))
        with (map (fun i => (j + 1 + Z.of_nat i)%Z) (seq 0 k)).
      - apply IH; [lia|right; exact Hy].
      - apply map_ext. intros. lia. }
    (* rearrange the specification to follow the program *)
    eapply tr_eq with (r :=
      let! l := pynth ls j in
      let! l' := pynth ls (j + 1) in
      let! v := solved_view p (dat (h0 l)) in
      let! v' := solved_view p (dat (h0 l')) in
      let! q := Ok p in
      let! y := step q v v' x in
      let! _ := Ok tt in
      s_product p vs y (map (fun i => (j + Z.of_nat i)%Z) (seq 1 k))).
    2:{ destruct (pynth ls j) as [l|] eqn:E1; cbn [bind]; [|auto].
        assert (W := V j). rewrite E1 in W. cbn [bind] in W.
        destruct (@solved_views_in d _ (dat (h0 l)) EV) as [v Ev].
        { unfold d, data. change (dat (h0 l)) with ((fun a => (o_thick (h0 a), o_eps (h0 a))) l).
          apply in_map. eapply pynth_in; eauto. }
        rewrite Ev. cbn [bind].
        destruct (pynth ls (j + 1)) as [l'|]; cbn [bind]; reflexivity. }
    eapply tr_bind; [apply tr_layer|intros l El].
    eapply tr_bind; [apply tr_layer|intros l' El'].
    eapply tr_bind; [apply tr_see; eapply pynth_in; eauto|intros v Ev].
    eapply tr_bind; [apply tr_see; eapply pynth_in; eauto|intros v' Ev'].
    eapply tr_bind; [apply tr_par|intros q Eq]. injection Eq as <-.
    eapply tr_bind; [apply tr_lift|intros y Ey].
    assert (BY : S_between a (j + 1) = Ok y).
    { unfold State_Spec.S_between. rewrite EV. cbn [bind].
      replace (a <? j + 1)%Z with true by (symmetry; apply Z.ltb_lt; lia).
      rewrite zrange_snoc by lia. rewrite s_product_snoc, !V, El, El'. cbn [bind].
      rewrite Ev, Ev'. cbn [bind].
      assert (X : s_product p vs (S0 p) (zrange a j) = Ok x).
      { destruct HX as [[-> ->]|HX].
        - rewrite zrange_nil by lia. reflexivity.
        - unfold State_Spec.S_between in HX. rewrite EV in HX. cbn [bind] in HX.
          destruct (a <? j)%Z; [exact HX|discriminate]. }
      rewrite X. cbn [bind]. exact Ey. }
    eapply tr_bind; [apply tr_store; exact BY|intros ? _].
    apply IHH. exact BY.
Qed.

Lemma tr_range a b : tr solved (@get_S_range P T E Pat Q G M unif S0 step a b) (S_between a b) solved.
Proof.
  intros s Gs Ps.
  assert (EV := g_solved Gs Ps). set (vs := map (look (fst s)) ls) in *. clearbody vs.
  unfold get_S_range.
  destruct (Z.ltb_spec a b) as [ab|ab].
  - destruct (zrange a b) as [|i0 is0] eqn:Er.
    { exfalso. unfold zrange in Er. destruct (Z.to_nat (b - a)) eqn:e; [lia|discriminate]. }
    destruct (s_cache (snd s) a (b - 1)) as [x|] eqn:Ec.
    + assert (X := g_cache Gs _ _ Ec). replace (b - 1 + 1)%Z with b in X by lia.
      cbn. rewrite X. auto.
    + rewrite <- Er. unfold zrange.
      assert (X := tr_loop EV (Z.to_nat (b - a)) (j := a) (x := S0 p) (Z.le_refl a)
                     (or_introl (conj eq_refl eq_refl))).
      assert (Y := @tr_bind solved P (@par P T E Pat Q G M) (Ok p) solved M
                (fun p0 => s_loop unif step a (S0 p0)
                   (map (fun k => (a + Z.of_nat k)%Z) (seq 0 (Z.to_nat (b - a)))))
                (fun q => s_product q vs (S0 q) (zrange a b)) solved (tr_par solved)).
      refine (_ (Y _ s Gs Ps)).
      * cbn [bind]. unfold State_Spec.S_between. rewrite EV. cbn [bind].
        replace (a <? b)%Z with true by (symmetry; apply Z.ltb_lt; lia). auto.
      * intros q Eq. injection Eq as <-. exact X.
  - rewrite zrange_nil by lia. cbn. unfold State_Spec.S_between. rewrite EV. cbn [bind].
    replace (a <? b)%Z with false by (symmetry; apply Z.ltb_ge; lia). auto.
Qed.

Lemma data_length : length d = length ls.
Proof. unfold d, data. apply map_length. Qed.

Lemma between_views a b : (let! _ := solved_views p d in S_between a b) = S_between a b.
Proof. unfold State_Spec.S_between. destruct (solved_views p d); reflexivity. Qed.

Notation get_S := (@get_S P T E Pat Q G M unif build_u build_p modes_u modes_p S0 step).
Notation the_S := (@the_S P T E Pat Q G M unif build_u build_p modes_u modes_p S0 step).

Lemma tr_get_S_some a b : tr any (get_S (Some (a, b))) (S_between a b) solved.
Proof.
  eapply tr_eq.
  - eapply tr_bind; [apply tr_ensure|intros ? _; apply tr_range].
  - rewrite <- between_views. destruct (solved_views p d); reflexivity.
Qed.

Lemma tr_get_S_none : tr any (get_S None) S_full solved.
Proof.
  eapply tr_eq.
  - eapply tr_bind; [apply tr_ensure|intros ? _].
    eapply tr_bind_ok; [apply tr_n|].
    eapply tr_bind; [apply tr_range|intros x Ex].
    eapply tr_bind_ok; [apply tr_set_S|apply tr_ret].
    unfold State_Spec.S_full, State_Spec.n. rewrite data_length. exact Ex.
  - cbn. unfold State_Spec.S_full, State_Spec.n. rewrite data_length.
    rewrite <- (between_views 0 (Z.of_nat (length ls) - 1)).
    destruct (solved_views p d); cbn [bind]; [|reflexivity].
    destruct (S_between _ _); reflexivity.
Qed.

Lemma tr_the_S : tr any the_S S_full any.
Proof.
  intros s Gs Ps. unfold State_Model.the_S. destruct (s_S (snd s)) as [x|] eqn:Ex.
  - cbn. rewrite (g_S Gs Ex). unfold any. auto.
  - destruct (tr_get_S_none Gs Ps) as [A [B C]]. unfold any. auto.
Qed.

Lemma pynth_data i : pynth d i = let! l := pynth ls i in Ok (dat (h0 l)).
Proof. unfold d, data. apply pynth_map. Qed.

Lemma tr_amplitudes i :
  tr any (@amplitudes P T E Pat Q G M Amp unif build_u build_p modes_u modes_p S0 step
            amp0 ampN ampI i)
     (amp_spec unif build_u build_p modes_u modes_p S0 step amp0 ampN ampI p d i) any.
Proof.
  eapply tr_eq.
  - eapply tr_bind; [apply tr_layer|intros l El].
    eapply tr_bind_ok; [apply tr_n|].
    eapply tr_bind_ok; [apply tr_par|].
    instantiate (1 := fun _ =>
      if (i =? 0)%Z then let! x := S_full in Ok (amp0 p x)
      else if ((i =? n d - 1) || (i =? -1))%bool%Z then let! x := S_full in Ok (ampN p x)
      else let! x := S_between 0 i in let! y := S_between i (n d - 1) in ampI p x y).
    cbn beta. unfold n. rewrite data_length.
    destruct (i =? 0)%Z; [|destruct ((i =? Z.of_nat (length ls) - 1) || (i =? -1))%bool%Z].
    + eapply tr_bind; [apply tr_the_S|intros; apply tr_ret].
    + eapply tr_bind; [apply tr_the_S|intros; apply tr_ret].
    + eapply tr_bind; [apply tr_get_S_some|intros x Ex].
      eapply tr_bind with (mid := any);
        [eapply tr_weaken; [apply tr_get_S_some|unfold any; auto|unfold any; auto]|].
      intros y Ey. apply tr_lift.
  - unfold amp_spec. rewrite pynth_data. destruct (pynth ls i); reflexivity.
Qed.

Notation amplitudes := (@amplitudes P T E Pat Q G M Amp unif build_u build_p modes_u modes_p S0 step
            amp0 ampN ampI).
Notation field := (@field P T E Pat Q G M Amp Zt Fld unif build_u build_p modes_u modes_p S0 step
            amp0 ampN ampI fld).
Notation amp_spec := (amp_spec unif build_u build_p modes_u modes_p S0 step amp0 ampN ampI p d).
Notation field_spec := (field_spec unif build_u build_p modes_u modes_p S0 step amp0 ampN ampI fld p d).

(** Attributes can be read once the layers are solved. *)
Lemma full_views x : S_full = Ok x -> exists vs, solved_views p d = Ok vs.
Proof.
  unfold State_Spec.S_full, State_Spec.S_between.
  destruct (solved_views p d) as [vs|]; [eauto|discriminate].
Qed.

Definition keeps_solved A (m : act A) : Prop :=
  forall s, s_solved (snd s) = true -> s_solved (snd (fst (m s))) = true.

Lemma ks_bind A B (m : act A) (f : A -> act B) :
  keeps_solved m -> (forall a, keeps_solved (f a)) -> keeps_solved (seqa m f).
Proof.
  intros H1 H2 s Hs. unfold seqa. specialize (H1 s Hs).
  destruct (m s) as [s' [a|e]]; [|exact H1]. apply H2. exact H1.
Qed.
Lemma ks_ensure : keeps_solved (@ensure_solved P T E Pat Q G M unif build_u build_p modes_u modes_p).
Proof. intros s Hs. unfold ensure_solved. rewrite Hs. exact Hs. Qed.
Lemma ks_store a i x : keeps_solved (@store P T E Pat Q G M a i x).
Proof. intros [h m] Hs. exact Hs. Qed.
Lemma ks_set_S x : keeps_solved (@set_S P T E Pat Q G M x).
Proof. intros [h m] Hs. exact Hs. Qed.
Lemma ks_loop a : forall is x, keeps_solved (@s_loop P T E Pat Q G M unif step a x is).
Proof.
  induction is as [|i t IH]; intros x; cbn [s_loop]; [intros s Hs; exact Hs|].
  repeat (apply ks_bind; [try (intros s Hs; exact Hs)|intros]).
  - apply ks_store.
  - apply IH.
Qed.
Lemma ks_range a b : keeps_solved (@get_S_range P T E Pat Q G M unif S0 step a b).
Proof.
  intros s Hs. unfold get_S_range. destruct (zrange a b); [exact Hs|].
  destruct (s_cache (snd s) a (b - 1)); [exact Hs|].
  revert s Hs. apply ks_bind; [intros s Hs; exact Hs|intros; apply ks_loop].
Qed.
Lemma ks_get_S ix : keeps_solved (get_S ix).
Proof.
  apply ks_bind; [apply ks_ensure|]. intros _. destruct ix as [[a b]|]; [apply ks_range|].
  apply ks_bind; [intros s Hs; exact Hs|intros].
  apply ks_bind; [apply ks_range|intros].
  apply ks_bind; [apply ks_set_S|intros]. intros s Hs. exact Hs.
Qed.
Lemma ks_the_S : keeps_solved the_S.
Proof.
  intros s Hs. unfold State_Model.the_S. destruct (s_S (snd s)); [exact Hs|]. now apply ks_get_S.
Qed.
Lemma ks_amplitudes i : keeps_solved (amplitudes i).
Proof.
  unfold State_Model.amplitudes. do 3 (apply ks_bind; [intros s Hs; exact Hs|intros]).
  destruct (i =? 0)%Z; [|destruct (_ || _)%bool].
  - apply ks_bind; [apply ks_the_S|intros ? s Hs; exact Hs].
  - apply ks_bind; [apply ks_the_S|intros ? s Hs; exact Hs].
  - apply ks_bind; [apply ks_get_S|intros]. apply ks_bind; [apply ks_get_S|intros].
    intros s Hs. exact Hs.
Qed.

Lemma tr_keep A (m : act A) r post : tr any m r post -> keeps_solved m -> tr solved m r solved.
Proof.
  intros H K s Gs Ps. destruct (H s Gs I) as [e [G1 _]]. split; [auto|split; [auto|]].
  intros _. apply K. exact Ps.
Qed.

Lemma tr_field i z : tr any (field i z) (field_spec i z) any.
Proof.
  eapply tr_eq.
  - eapply tr_bind; [apply tr_layer|intros a Ea].
    eapply tr_bind; [apply tr_ensure|intros ? Ev].
    eapply tr_bind; [apply (tr_keep (@tr_amplitudes i)); apply ks_amplitudes|intros w Ew].
    eapply tr_bind; [apply tr_see; eapply pynth_in; eauto|intros v Evv].
    eapply tr_bind_ok; [apply tr_par|].
    eapply tr_weaken; [apply tr_lift| |unfold any; auto]. intros s Hs; exact Hs.
  - unfold State_Spec.field_spec. rewrite pynth_data.
    destruct (pynth ls i); cbn [bind]; [|reflexivity].
    destruct (solved_views p d); reflexivity.
Qed.

Lemma ks_field i z : keeps_solved (field i z).
Proof.
  unfold State_Model.field. apply ks_bind; [intros s Hs; exact Hs|intros].
  apply ks_bind; [apply ks_ensure|intros]. apply ks_bind; [apply ks_amplitudes|intros].
  apply ks_bind; [intros s Hs; exact Hs|intros]. apply ks_bind; [intros s Hs; exact Hs|intros].
  intros s Hs. exact Hs.
Qed.

(** When [field] succeeds the layers are solved. *)
Lemma tr_field_solved i z : tr any (field i z) (field_spec i z) solved.
Proof.
  intros s Gs Ps. destruct (tr_field i z Gs Ps) as [e [G1 _]]. split; [auto|split; [auto|]].
  intros Hok. clear G1. revert e Hok. generalize (field_spec i z). intros r e Hok.
  unfold State_Model.field, seqa in *. cbn [layer_int layer_at] in *.
  unfold layer_int, layer_at in *.
  destruct (pynth (s_layers (snd s)) i) as [a|]; [|cbn in e; subst r; discriminate].
  destruct (tr_ensure Gs Ps) as [E1 [G1 S1]].
  destruct (ensure_solved unif build_u build_p modes_u modes_p s) as [s1 [u|]];
    [|cbn in e; subst r; discriminate].
  cbn [fst snd] in *.
  assert (Hs : solved s1) by (apply S1; rewrite <- E1; reflexivity).
  assert (K := @ks_amplitudes i s1 Hs).
  destruct (amplitudes i s1) as [s2 [w|]]; [|exact K].
  cbn in *. exact K.
Qed.

Lemma tr_eff : tr any
  (@efficiencies P T E Pat Q G M Eff unif build_u build_p modes_u modes_p S0 step eff)
  (eff_spec unif build_u build_p modes_u modes_p S0 step eff p d) any.
Proof.
  eapply tr_eq.
  - eapply tr_bind; [apply tr_the_S|intros y Ey].
    eapply tr_bind; [apply tr_the_S|intros x Ex].
    eapply tr_bind; [apply tr_layer|intros a Ea].
    eapply tr_bind; [apply tr_ensure|intros ? Ev].
    eapply tr_bind; [apply tr_layer|intros b Eb].
    eapply tr_bind; [apply tr_see; eapply pynth_in; eauto|intros v Evv].
    eapply tr_bind; [apply tr_see; eapply pynth_in; eauto|intros v' Evv'].
    eapply tr_bind_ok; [apply tr_par|].
    eapply tr_weaken; [apply tr_lift| |unfold any; auto]. intros s Hs; exact Hs.
  - unfold eff_spec. rewrite !pynth_data.
    destruct S_full as [x|] eqn:Ex; cbn [bind]; [|reflexivity].
    destruct (full_views Ex) as [vs ->]. cbn [bind].
    destruct (pynth ls 0); cbn [bind]; [|reflexivity].
    destruct (pynth ls (-1)); reflexivity.
Qed.

Lemma tr_cx iN i0 : tr any
  (@complex_orders P T E Pat Q G M Amp Zt Fld Cx unif build_u build_p modes_u modes_p S0 step
     amp0 ampN ampI fld cx z0 iN i0)
  (cx_spec unif build_u build_p modes_u modes_p S0 step amp0 ampN ampI fld cx z0 p d iN i0) any.
Proof.
  eapply tr_eq.
  - eapply tr_bind; [apply tr_the_S|intros y Ey].
    eapply tr_bind; [apply tr_field_solved|intros t Et].
    eapply tr_bind; [apply (tr_keep (tr_field _ _)); apply ks_field|intros b Eb].
    eapply tr_bind; [apply tr_layer|intros a Ea].
    eapply tr_bind; [apply tr_layer|intros a' Ea'].
    eapply tr_bind; [apply tr_see; eapply pynth_in; eauto|intros v Evv].
    eapply tr_bind; [apply tr_see; eapply pynth_in; eauto|intros v' Evv'].
    eapply tr_bind_ok; [apply tr_par|].
    eapply tr_weaken; [apply tr_lift| |unfold any; auto]. intros s Hs; exact Hs.
  - unfold cx_spec. rewrite !pynth_data.
    destruct S_full as [x|] eqn:Ex; cbn [bind]; [|reflexivity].
    destruct (field_spec _ _); cbn [bind]; [|reflexivity].
    destruct (field_spec _ _); cbn [bind]; [|reflexivity].
    destruct (pynth ls 0); cbn [bind]; [|reflexivity].
    destruct (pynth ls (-1)); reflexivity.
Qed.

Lemma tr_str i z : tr any
  (@stress P T E Pat Q G M Amp Zt Fld Str unif build_u build_p modes_u modes_p S0 step
     amp0 ampN ampI fld str i z)
  (str_spec unif build_u build_p modes_u modes_p S0 step amp0 ampN ampI fld str p d i z) any.
Proof.
  eapply tr_eq.
  - eapply tr_bind; [apply tr_layer|intros a Ea].
    eapply tr_bind; [apply tr_field_solved|intros t Et].
    eapply tr_bind; [apply tr_see; eapply pynth_in; eauto|intros v Evv].
    eapply tr_bind_ok; [apply tr_par|].
    eapply tr_weaken; [apply tr_lift| |unfold any; auto]. intros s Hs; exact Hs.
  - unfold str_spec. rewrite !pynth_data. destruct (pynth ls i); reflexivity.
Qed.

Notation ask := (@ask P T E Pat Q G M Amp Eff Zt Fld Str Cx unif build_u build_p modes_u modes_p
  S0 step amp0 ampN ampI eff fld str cx z0).
Notation answer_spec := (@answer_spec P T E Pat Q G M Amp Eff Zt Fld Str Cx unif build_u build_p
  modes_u modes_p S0 step amp0 ampN ampI eff fld str cx z0).

Lemma tr_amap A B (f : A -> B) (m : act A) r post : tr any m r post -> tr any (amap f m) (rmap f r) any.
Proof.
  intros H. eapply tr_bind; [exact H|]. intros a Ea.
  eapply tr_weaken; [apply tr_ret| |unfold any; auto]. intros s Hs; exact Hs.
Qed.

Theorem tr_ask q : tr any (ask q) (answer_spec p d q) any.
Proof.
  destruct q as [|[[a b]|]|i|i z| |iN i0|i z]; cbn [State_Model.ask State_Spec.answer_spec].
  - eapply tr_eq; [eapply tr_amap; apply tr_solve|].
    destruct (solved_views p d); reflexivity.
  - eapply tr_amap; apply tr_get_S_some.
  - eapply tr_amap; apply tr_get_S_none.
  - eapply tr_amap; apply tr_amplitudes.
  - eapply tr_amap; apply tr_field.
  - eapply tr_amap; apply tr_eff.
  - eapply tr_amap; apply tr_cx.
  - eapply tr_amap; apply tr_str.
Qed.

End Inv.

Arguments good : clear implicits.

(** A new simulation is consistent, on any heap. *)
Lemma good_new p ls h : good h p ls (h, new_sim M p ls).
Proof.
  constructor; cbn; auto; try discriminate. apply same_refl.
Qed.

(** The invariant does not depend on the reference heap beyond the layers' data. *)
Lemma good_rebase h0 h1 p ls h m :
  good h0 p ls (h, m) -> data h1 ls = data h0 ls ->
  (forall a, In a ls -> h1 a = h a) -> good h1 p ls (h1, m).
Proof.
  intros [gp gl go gs gv gc gS] ed eh. cbn [fst snd] in *.
  constructor; cbn; auto.
  - apply same_refl.
  - intros Hs. rewrite ed, (gv Hs). f_equal. apply map_ext_in. intros a ia.
    unfold State_Model.look. rewrite eh; auto.
  - rewrite ed. exact gc.
  - rewrite ed. exact gS.
Qed.

Lemma good_fail_free h0 p ls s : good h0 p ls s -> same h0 (fst s).
Proof. apply g_same. Qed.

End Proofs.

(** Histories of operations on any number of simulations sharing a heap of layers. *)
From Coq Require Import List ZArith Bool Arith Lia.
From Verif Require Import Base Init_Model State_Model State_Spec State_Proofs.
Import ListNotations.
Set Implicit Arguments.

Section World.
Variables (P T E Pat Q G M Amp Eff Zt Fld Str Cx : Type).
Notation view := (view T E Pat Q G).
Notation heap := (heap T E Pat Q G).
Notation lobj := (lobj T E Pat Q G).
Notation sim := (sim P M).
Notation st := (st P T E Pat Q G M).
Notation act := (act P T E Pat Q G M).
Notation world := (world P T E Pat Q G M).
Notation op := (op P T E Zt).
Variable unif : E -> bool.
Variable build_u : P -> E -> res Q.
Variable build_p : P -> E -> res (Pat * Q).
Variable modes_u : P -> E -> res G.
Variable modes_p : Pat -> res G.
Variable S0 : P -> M.
Variable step : P -> view -> view -> M -> res M.
Variable amp0 : P -> M -> Amp.
Variable ampN : P -> M -> Amp.
Variable ampI : P -> M -> M -> res Amp.
Variable eff : P -> view -> view -> M -> res Eff.
Variable fld : P -> view -> Zt -> Amp -> res Fld.
Variable str : P -> view -> Fld -> res Str.
Variable cx : P -> view -> view -> Fld -> Fld -> res Cx.
Variable z0 : Zt.

Notation ask := (@ask P T E Pat Q G M Amp Eff Zt Fld Str Cx unif build_u build_p modes_u modes_p
  S0 step amp0 ampN ampI eff fld str cx z0).
Notation answer_spec := (@answer_spec P T E Pat Q G M Amp Eff Zt Fld Str Cx unif build_u build_p
  modes_u modes_p S0 step amp0 ampN ampI eff fld str cx z0).
Notation exec := (@exec P T E Pat Q G M Amp Eff Zt Fld Str Cx unif build_u build_p modes_u modes_p
  S0 step amp0 ampN ampI eff fld str cx z0).
Notation run := (@run P T E Pat Q G M Amp Eff Zt Fld Str Cx unif build_u build_p modes_u modes_p
  S0 step amp0 ampN ampI eff fld str cx z0).
Notation good := (@good P T E Pat Q G M unif build_u build_p modes_u modes_p S0 step).
Notation usable := (usable unif).

(** ** Any method only writes the layers of its own simulation *)
Record within (s s' : st) : Prop := Within {
  w_par : s_par (snd s') = s_par (snd s);
  w_layers : s_layers (snd s') = s_layers (snd s);
  w_out : forall a, ~ In a (s_layers (snd s)) -> fst s' a = fst s a;
  w_same : same (fst s) (fst s') }.

Lemma within_refl s : within s s.
Proof. constructor; auto. apply same_refl. Qed.
Lemma within_trans s1 s2 s3 : within s1 s2 -> within s2 s3 -> within s1 s3.
Proof.
  intros [a1 b1 c1 d1] [a2 b2 c2 d2]. constructor; try congruence.
  - intros a na. rewrite c2, c1; auto. congruence.
  - eapply same_trans; eauto.
Qed.

Definition framed A (m : act A) : Prop := forall s, within s (fst (m s)).

Lemma fr_bind A B (m : act A) (f : A -> act B) :
  framed m -> (forall a, framed (f a)) -> framed (seqa m f).
Proof.
  intros H1 H2 s. unfold seqa. specialize (H1 s).
  destruct (m s) as [s' [a|e]]; [|exact H1].
  eapply within_trans; [exact H1|apply H2].
Qed.
Lemma fr_id A (r : st -> res A) : framed (fun s => (s, r s)).
Proof. intros s. apply within_refl. Qed.
Hint Resolve fr_id : core.

Lemma upd_within (h : heap) a o : same_obj (h a) o -> same h (upd h a o).
Proof. apply upd_same. Qed.

Lemma same_mod (o o' : lobj) : o_thick o = o_thick o' -> o_eps o = o_eps o' ->
  o_copy_of o = o_copy_of o' -> same_obj o o'.
Proof. unfold same_obj. auto. Qed.

Lemma build_frame p (h : heap) a : (forall b, b <> a -> fst (build unif build_u build_p p h a) b = h b) /\
  same h (fst (build unif build_u build_p p h a)).
Proof.
  unfold build.
  assert (K : forall o, same_obj (h a) o ->
     (forall b, b <> a -> upd h a o b = h b) /\ same h (upd h a o)).
  { intros o So. split; [|now apply upd_same]. intros. now apply upd_neq. }
  assert (I : (forall b, b <> a -> h b = h b) /\ same h h) by (split; [auto|apply same_refl]).
  destruct (o_copy_of (h a)) as [c|] eqn:Ec.
  - destruct (o_pat (h c)); cbn; [|exact I].
    destruct (o_Q (h c)); cbn; apply K; apply same_mod; auto.
  - destruct (unif (o_eps (h a))).
    + destruct (build_u p (o_eps (h a))); cbn; [|exact I]. apply K; apply same_mod; auto.
    + destruct (build_p p (o_eps (h a))) as [[? ?]|]; cbn; [|exact I].
      apply K; apply same_mod; auto.
Qed.

Lemma modes_frame p (h : heap) a : (forall b, b <> a -> fst (modes unif modes_u modes_p p h a) b = h b) /\
  same h (fst (modes unif modes_u modes_p p h a)).
Proof.
  unfold modes.
  assert (K : forall o, same_obj (h a) o ->
     (forall b, b <> a -> upd h a o b = h b) /\ same h (upd h a o)).
  { intros o So. split; [|now apply upd_same]. intros. now apply upd_neq. }
  assert (I : (forall b, b <> a -> h b = h b) /\ same h h) by (split; [auto|apply same_refl]).
  destruct (unif (o_eps (h a))).
  - destruct (modes_u p (o_eps (h a))); cbn; [|exact I]. apply K; apply same_mod; auto.
  - destruct (o_pat (h a)); [|exact I].
    destruct (o_copy_of (h a)) as [c|].
    + destruct (o_G (h c)); cbn; [|exact I]. apply K; apply same_mod; auto.
    + destruct (modes_p p0); cbn; [|exact I]. apply K; apply same_mod; auto.
Qed.

Lemma solve_all_frame p : forall ls (h : heap),
  let h' := fst (solve_all unif build_u build_p modes_u modes_p p h ls) in
  (forall b, ~ In b ls -> h' b = h b) /\ same h h'.
Proof.
  induction ls as [|a t IH]; intros h; cbn.
  - split; [auto|apply same_refl].
  - unfold solve_one.
    destruct (build_frame p h a) as [B1 B2].
    destruct (build unif build_u build_p p h a) as [h1 [u|e]]; cbn [fst] in *.
    2:{ split; [|auto]. intros b nb. apply B1. intros ->. apply nb. now left. }
    destruct (modes_frame p h1 a) as [M1 M2].
    destruct (modes unif modes_u modes_p p h1 a) as [h2 [u'|e]]; cbn [fst] in *.
    + destruct (IH h2) as [I1 I2]. split.
      * intros b nb. assert (ba : b <> a) by (intros ->; apply nb; now left).
        rewrite I1 by (intros X; apply nb; now right). rewrite M1, B1; auto.
      * eapply same_trans; [exact B2|]. eapply same_trans; eauto.
    + split; [|eapply same_trans; eauto].
      intros b nb. rewrite M1, B1; auto; intros ->; apply nb; now left.
Qed.

Lemma fr_solve : framed (@solve P T E Pat Q G M unif build_u build_p modes_u modes_p).
Proof.
  intros [h m]. unfold solve. destruct (@solve_all_frame (s_par m) (s_layers m) h) as [A B].
  destruct (solve_all unif build_u build_p modes_u modes_p (s_par m) h (s_layers m)) as [h1 [u|e]];
    cbn [fst] in *; constructor; cbn; auto.
Qed.
Lemma fr_ensure : framed (@ensure_solved P T E Pat Q G M unif build_u build_p modes_u modes_p).
Proof. intros s. unfold ensure_solved. destruct (s_solved (snd s)); [apply within_refl|apply fr_solve]. Qed.
Lemma fr_store a i x : framed (@store P T E Pat Q G M a i x).
Proof. intros [h m]. constructor; cbn; auto. apply same_refl. Qed.
Lemma fr_set_S x : framed (@set_S P T E Pat Q G M x).
Proof. intros [h m]. constructor; cbn; auto. apply same_refl. Qed.

Ltac fr := repeat match goal with |- framed (seqa _ _) => apply fr_bind; [try apply fr_id|intros] end; try apply fr_id.

Lemma fr_loop a : forall is x, framed (@s_loop P T E Pat Q G M unif step a x is).
Proof.
  induction is as [|i t IH]; intros x; cbn [s_loop]; [apply fr_id|].
  fr; [apply fr_store|apply IH].
Qed.
Lemma fr_range a b : framed (@get_S_range P T E Pat Q G M unif S0 step a b).
Proof.
  intros s. unfold get_S_range. destruct (zrange a b); [apply within_refl|].
  destruct (s_cache (snd s) a (b - 1)); [apply within_refl|].
  revert s. change (framed (seqa (@par P T E Pat Q G M) (fun p => s_loop unif step a (S0 p) (z :: l)))).
  apply fr_bind; [apply fr_id|intros; apply fr_loop].
Qed.
Lemma fr_get_S ix : framed (@get_S P T E Pat Q G M unif build_u build_p modes_u modes_p S0 step ix).
Proof.
  apply fr_bind; [apply fr_ensure|intros _]. destruct ix as [[a b]|]; [apply fr_range|].
  fr; [apply fr_range|apply fr_set_S].
Qed.
Lemma fr_the_S : framed (@the_S P T E Pat Q G M unif build_u build_p modes_u modes_p S0 step).
Proof. intros s. unfold the_S. destruct (s_S (snd s)); [apply within_refl|apply fr_get_S]. Qed.
Lemma fr_amplitudes i : framed (@amplitudes P T E Pat Q G M Amp unif build_u build_p modes_u modes_p
  S0 step amp0 ampN ampI i).
Proof.
  unfold amplitudes. do 3 (apply fr_bind; [apply fr_id|intros]).
  destruct (i =? 0)%Z; [|destruct (_ || _)%bool]; fr; try apply fr_the_S; apply fr_get_S.
Qed.
Lemma fr_field i z : framed (@field P T E Pat Q G M Amp Zt Fld unif build_u build_p modes_u modes_p
  S0 step amp0 ampN ampI fld i z).
Proof. unfold field. fr; [apply fr_ensure|apply fr_amplitudes]. Qed.

Theorem fr_ask q : framed (ask q).
Proof.
  destruct q as [|[[a b]|]|i|i z| |iN i0|i z]; cbn [State_Model.ask]; unfold amap;
    (apply fr_bind; [|intros; apply fr_id]).
  - apply fr_solve.
  - apply fr_get_S.
  - apply fr_get_S.
  - apply fr_amplitudes.
  - apply fr_field.
  - unfold efficiencies. fr; try apply fr_the_S. apply fr_ensure.
  - unfold complex_orders. fr; try apply fr_the_S; apply fr_field.
  - unfold stress. fr. apply fr_field.
Qed.

(** ** A simulation in a consistent state *)
Section Healthy.
Variables (k : nat) (p : P) (ls : list nat).

Record healthy (w : world) : Prop := Healthy {
  hl_usable : usable (w_heap w) ls;
  hl_good : good (w_heap w) p ls (w_heap w, w_sims w k) }.

Lemma upd_sim_eq (f : nat -> sim) m : upd_sim f k m k = m.
Proof. unfold upd_sim. now rewrite Nat.eqb_refl. Qed.
Lemma upd_sim_neq (f : nat -> sim) j m : k <> j -> upd_sim f j m k = f k.
Proof. unfold upd_sim. destruct (Nat.eqb_spec k j); congruence. Qed.

Lemma healthy_new w : usable (w_heap w) ls ->
  healthy (fst (exec (ONew T E Zt k p ls) w)).
Proof.
  intros U. cbn. constructor; cbn; [exact U|]. rewrite upd_sim_eq. apply good_new.
Qed.

(** reset() and reset('all') restore consistency whatever happened before. *)
Lemma healthy_reset w : s_par (w_sims w k) = p -> s_layers (w_sims w k) = ls ->
  usable (w_heap w) ls -> healthy (fst (exec (OReset P T E Zt k RAll) w)).
Proof.
  intros e1 e2 U. cbn. constructor; cbn; [exact U|]. rewrite upd_sim_eq.
  constructor; cbn; auto; try discriminate. apply same_refl.
Qed.

Lemma same_usable (h h' : heap) : same h h' -> usable h ls -> usable h' ls.
Proof. intros S [A B]. split; [exact A|]. eapply same_copies; eauto. Qed.

Lemma usable_ext (h h' : heap) : (forall a, In a ls -> h' a = h a) -> usable h ls -> usable h' ls.
Proof.
  intros X [A B]. split; [exact A|].
  assert (K : forall l bef, incl l ls -> incl bef ls -> copies_ok unif h bef l -> copies_ok unif h' bef l).
  { induction l as [|a t IH]; intros bef I1 I2; cbn [copies_ok]; [auto|].
    rewrite (X a) by (apply I1; now left).
    intros [C D]. split.
    - destruct (o_copy_of (h a)) as [b|]; [|auto]. destruct C as [C1 C2].
      split; [exact C1|]. rewrite (X b); auto.
    - apply IH; auto.
      + intros c ic. apply I1. now right.
      + intros c [<-|ic]; [apply I1; now left|auto]. }
  apply K; auto using incl_refl. intros c [].
Qed.

(** A query is answered as specified, and consistency is kept. *)
Lemma healthy_ask w q : healthy w ->
  snd (exec (OAsk P T E k q) w) = Some (answer_spec p (data (w_heap w) ls) q) /\
  healthy (fst (exec (OAsk P T E k q) w)) /\
  data (w_heap (fst (exec (OAsk P T E k q) w))) ls = data (w_heap w) ls.
Proof.
  intros [U H]. cbn.
  destruct (@tr_ask P T E Pat Q G M Amp Eff Zt Fld Str Cx unif build_u build_p modes_u modes_p S0
     step amp0 ampN ampI eff fld str cx z0 (w_heap w) p ls U q _ H I) as [e [G1 _]].
  destruct (ask q (w_heap w, w_sims w k)) as [[h1 m1] r]. cbn [fst snd] in *. subst r.
  assert (SM := g_same G1). cbn in SM.
  split; [reflexivity|split].
  - constructor; cbn; [eapply same_usable; eauto|]. rewrite upd_sim_eq.
    eapply good_rebase; eauto. symmetry. now apply same_data.
  - cbn. symmetry. now apply same_data.
Qed.

(** Operations that are not edits of this simulation's own layers. *)
Definition apart (o : op) (w : world) : Prop :=
  match o with
  | OAsk _ _ _ j _ => j = k \/ forall a, In a (s_layers (w_sims w j)) -> ~ In a ls
  | OReset _ _ _ _ _ _ => True
  | OThick _ _ _ a _ => ~ In a ls
  | OEps _ _ _ a _ => ~ In a ls
  | OLayerReset _ _ _ _ a => ~ In a ls
  | OCopy _ _ _ _ _ c => ~ In c ls
  | ONew _ _ _ j _ _ => j <> k
  end.

Lemma healthy_heap w h' f : healthy w -> (forall a, In a ls -> h' a = w_heap w a) ->
  f k = w_sims w k -> healthy (World h' f).
Proof.
  intros [U H] X e. constructor; cbn; [eapply usable_ext; eauto|]. rewrite e.
  eapply good_rebase; eauto. unfold data. apply map_ext_in. intros a ia. now rewrite X.
Qed.

Lemma upd_out (h : heap) a o : ~ In a ls -> forall b, In b ls -> upd h a o b = h b.
Proof. intros na b ib. apply upd_neq. congruence. Qed.

Lemma good_reset r h m : good h p ls (h, m) -> good h p ls (h, reset r m).
Proof.
  intros [gp gl go gs gv gc gS]. cbn [fst snd] in *.
  destruct r; cbn; constructor; cbn; auto; discriminate.
Qed.

Lemma healthy_apart o w : healthy w -> apart o w ->
  healthy (fst (exec o w)) /\
  (forall a, In a ls -> (match o with OAsk _ _ _ j _ => j <> k | _ => True end) ->
             w_heap (fst (exec o w)) a = w_heap w a) /\
  data (w_heap (fst (exec o w))) ls = data (w_heap w) ls.
Proof.
  intros H A.
  assert (D : forall h', (forall a, In a ls -> h' a = w_heap w a) -> data h' ls = data (w_heap w) ls).
  { intros h' X. unfold data. apply map_ext_in. intros a ia. now rewrite X. }
  destruct o as [j q|j r|a t|a e|a|a c|j p' ls']; cbn [apart] in A.
  - destruct (Nat.eq_dec j k) as [->|jk].
    + destruct (healthy_ask q H) as [_ [H1 H2]]. split; [exact H1|split; [|exact H2]].
      intros a _ X. congruence.
    + destruct A as [A|A]; [congruence|].
      assert (W := @fr_ask q (w_heap w, w_sims w j)). cbn in *.
      destruct (ask q (w_heap w, w_sims w j)) as [[h1 m1] r]. cbn [fst snd] in *.
      assert (X : forall a, In a ls -> h1 a = w_heap w a).
      { intros a ia. apply (w_out W). cbn. intros ja. exact (A a ja ia). }
      split; [|split].
      * apply healthy_heap with (w := w); auto. apply upd_sim_neq. congruence.
      * auto.
      * cbn. auto.
  - cbn. split; [|split; auto]. destruct H as [U H]. constructor; cbn; [exact U|].
    destruct (Nat.eq_dec j k) as [->|jk].
    + rewrite upd_sim_eq. now apply good_reset.
    + rewrite upd_sim_neq by congruence. exact H.
  - cbn. split; [|split; [auto using upd_out|apply D; auto using upd_out]].
    apply healthy_heap with (w := w); auto using upd_out.
  - cbn. split; [|split; [auto using upd_out|apply D; auto using upd_out]].
    apply healthy_heap with (w := w); auto using upd_out.
  - cbn. split; [|split; [auto using upd_out|apply D; auto using upd_out]].
    apply healthy_heap with (w := w); auto using upd_out.
  - cbn. split; [|split; [auto using upd_out|apply D; auto using upd_out]].
    apply healthy_heap with (w := w); auto using upd_out.
  - cbn. split; [|split; auto]. apply healthy_heap with (w := w); auto.
    apply upd_sim_neq. congruence.
Qed.

(** Every operation of a history happens in a state where it is [apart]. *)
Fixpoint all_apart (os : list op) (w : world) : Prop :=
  match os with
  | [] => True
  | o :: t => apart o w /\ all_apart t (fst (exec o w))
  end.

Lemma run_cons o t w : run (o :: t) w =
  (fst (run t (fst (exec o w))), snd (exec o w) :: snd (run t (fst (exec o w)))).
Proof.
  cbn. destruct (exec o w) as [w1 r]. cbn. destruct (run t w1). reflexivity.
Qed.

(** In such a history every query to simulation [k] is answered as specified. *)
Theorem history os : forall w, healthy w -> all_apart os w ->
  healthy (fst (run os w)) /\
  data (w_heap (fst (run os w))) ls = data (w_heap w) ls /\
  forall i q, nth_error os i = Some (OAsk P T E k q) ->
    nth_error (snd (run os w)) i = Some (Some (answer_spec p (data (w_heap w) ls) q)).
Proof.
  induction os as [|o t IH]; intros w H A.
  - cbn. split; [exact H|split; [reflexivity|]]. intros [|i] q; discriminate.
  - destruct A as [A1 A2]. destruct (healthy_apart o H A1) as [H1 [_ D1]].
    rewrite run_cons. cbn [fst snd].
    destruct (IH _ H1 A2) as [H2 [D2 R2]].
    split; [exact H2|split; [congruence|]].
    intros [|i] q X; cbn [nth_error] in *.
    + injection X as ->. f_equal. apply (healthy_ask q H).
    + rewrite <- D1. now apply R2.
Qed.

(** Changing thicknesses only: reset('S') is enough. *)
Definition set_thick (w : world) (at_ : nat * T) : world :=
  fst (exec (OThick P E Zt (fst at_) (snd at_)) w).
Definition set_thicks (ts : list (nat * T)) (w : world) : world := fold_left set_thick ts w.

Definition retimed (h h' : heap) : Prop :=
  forall a, o_eps (h' a) = o_eps (h a) /\ o_copy_of (h' a) = o_copy_of (h a) /\
            o_pat (h' a) = o_pat (h a) /\ o_Q (h' a) = o_Q (h a) /\ o_G (h' a) = o_G (h a).

Lemma set_thicks_retimed ts : forall w,
  retimed (w_heap w) (w_heap (set_thicks ts w)) /\ w_sims (set_thicks ts w) = w_sims w.
Proof.
  induction ts as [|x ts IH]; intros w.
  - split; [|reflexivity]. intros a. cbn. auto 10.
  - change (set_thicks (x :: ts) w) with (set_thicks ts (set_thick w x)).
    destruct (IH (set_thick w x)) as [R e]. split; [|exact e].
    intros a. destruct (R a) as [r1 [r2 [r3 [r4 r5]]]]. rewrite r1, r2, r3, r4, r5.
    cbn. unfold upd. destruct (Nat.eqb_spec a (fst x)); [subst|]; cbn; auto 10.
Qed.

Lemma solved_view_retime (t t' : T) e (v : view) : 
  solved_view unif build_u build_p modes_u modes_p p (t, e) = Ok v ->
  solved_view unif build_u build_p modes_u modes_p p (t', e) =
    Ok (View t' (v_eps v) (v_pat v) (v_Q v) (v_G v)).
Proof.
  unfold solved_view. destruct (unif e).
  - destruct (build_u p e); cbn; [|discriminate]. destruct (modes_u p e); cbn; [|discriminate].
    intros X. injection X as <-. reflexivity.
  - destruct (build_p p e) as [[m q]|]; cbn; [|discriminate]. destruct (modes_p m); cbn; [|discriminate].
    intros X. injection X as <-. reflexivity.
Qed.

Lemma solved_views_retime (h h' : heap) : retimed h h' -> forall l,
  solved_views unif build_u build_p modes_u modes_p p (data h l) = Ok (map (look unif h) l) ->
  solved_views unif build_u build_p modes_u modes_p p (data h' l) = Ok (map (look unif h') l).
Proof.
  intros R. induction l as [|a t IH]; cbn [data map solved_views]; [auto|].
  intros X. ubind X v Ev. ubind X vs Evs. injection X as -> ->.
  fold (data h t) in Evs. fold (data h' t). rewrite (IH Evs).
  destruct (R a) as [r1 [r2 [r3 [r4 r5]]]].
  rewrite r1. rewrite (@solved_view_retime _ (o_thick (h' a)) _ _ Ev). cbn [bind].
  unfold look. cbn. rewrite r1, r3, r4, r5. reflexivity.
Qed.

Lemma healthy_reset_S w ts : healthy w ->
  healthy (fst (exec (OReset P T E Zt k RS) (set_thicks ts w))).
Proof.
  intros [U H]. destruct (set_thicks_retimed ts w) as [R e].
  assert (H2 := H). destruct H as [gp gl go gs gv gc gS]. cbn [fst snd] in *.
  cbn. constructor; cbn.
  - destruct U as [U1 U2]. split; [exact U1|].
    revert U2. generalize (@nil nat). revert R. generalize (w_heap (set_thicks ts w)).
    generalize (w_heap w). clear. intros h h' R bef.
    revert bef. induction ls as [|a t IH]; intros bef; cbn [copies_ok]; [auto|].
    destruct (R a) as [r1 [r2 _]]. rewrite r1, r2.
    intros [C D]. split; [|auto]. destruct (o_copy_of (h a)) as [b|]; [|auto].
    destruct (R b) as [s1 _]. rewrite s1. exact C.
  - rewrite upd_sim_eq. constructor; cbn; rewrite ?e; auto; try discriminate.
    + apply same_refl.
    + intros Hs. eapply solved_views_retime; eauto.
Qed.

End Healthy.

(** A copied solved or unsolved layer whose original has no patterned attributes
    cannot be solved. *)
Lemma copy_unsolvable p (h : heap) a b : o_copy_of (h a) = Some b -> o_pat (h b) = None ->
  forall t s, s_layers (snd s) = a :: t -> s_par (snd s) = p -> s_solved (snd s) = false ->
  s_S (snd s) = None -> fst s = h ->
  forall q, (forall i z, q <> QField i z) -> (forall i z, q <> QStress i z) ->
  (forall i, q <> QAmp Zt i) ->
  snd (ask q s) = Err AttributeError.
Proof.
  intros Ec Ep t [h' m] el ep es eS eh q N1 N2 N3. cbn [fst snd] in *. subst h'.
  assert (S : solve unif build_u build_p modes_u modes_p (h, m) = ((h, m), Err AttributeError)).
  { unfold solve. rewrite el. cbn [solve_all]. unfold solve_one, build. rewrite Ec, Ep. reflexivity. }
  assert (En : ensure_solved unif build_u build_p modes_u modes_p (h, m) = ((h, m), Err AttributeError)).
  { unfold ensure_solved. cbn [snd]. rewrite es. exact S. }
  assert (Gt : forall ix, get_S unif build_u build_p modes_u modes_p S0 step ix (h, m) = ((h, m), Err AttributeError)).
  { intros ix. unfold get_S, seqa. rewrite En. reflexivity. }
  assert (TS : the_S unif build_u build_p modes_u modes_p S0 step (h, m) = ((h, m), Err AttributeError)).
  { unfold the_S. cbn [snd]. rewrite eS. apply Gt. }
  destruct q as [|ix|i|i z| |iN i0|i z]; cbn [State_Model.ask]; unfold amap, seqa.
  - rewrite S. reflexivity.
  - rewrite Gt. reflexivity.
  - now exfalso; apply (N3 i).
  - now exfalso; apply (N1 i z).
  - unfold efficiencies, seqa. rewrite TS. reflexivity.
  - unfold complex_orders, seqa. rewrite TS. reflexivity.
  - now exfalso; apply (N2 i z).
Qed.

(** Without reset: the stored S matrix keeps being returned. *)
Definition edit (w : world) (o : op) : world := fst (exec o w).
Definition is_edit (o : op) : Prop :=
  match o with OThick _ _ _ _ _ | OEps _ _ _ _ _ => True | _ => False end.

Lemma edits_sims os : forall w, Forall is_edit os -> w_sims (fold_left edit os w) = w_sims w.
Proof.
  induction os as [|o t IH]; intros w F; [reflexivity|].
  inversion F as [|? ? H1 H2]; subst. cbn. rewrite (IH (edit w o) H2).
  destruct o; cbn in *; try contradiction; reflexivity.
Qed.

Lemma stale_answers k w os x : s_solved (w_sims w k) = true -> s_S (w_sims w k) = Some x ->
  Forall is_edit os ->
  (exists r, s_cache (w_sims w k) 0 (Z.of_nat (length (s_layers (w_sims w k))) - 1 - 1) = Some r /\
     zrange 0 (Z.of_nat (length (s_layers (w_sims w k))) - 1) <> [] /\ r = x) ->
  snd (exec (OAsk P T E k (QS Zt None)) (fold_left edit os w)) = Some (Ok (AS _ _ _ _ _ x)).
Proof.
  intros Hs HS F [r [Hc [Hz ->]]]. cbn. rewrite (edits_sims w F).
  set (h' := w_heap (fold_left edit os w)). clearbody h'.
  unfold amap, get_S, seqa, ensure_solved. cbn [snd]. rewrite Hs. cbn [n_layers snd fst].
  unfold get_S_range, n_layers. cbn [snd fst].
  destruct (zrange 0 (Z.of_nat (length (s_layers (w_sims w k))) - 1)) as [|z l]; [congruence|].
  rewrite Hc. reflexivity.
Qed.

End World.

(** What the methods compute from the attributes actually present on the layers. *)
From Coq Require Import List ZArith Bool Arith Lia.
From Verif Require Import Base Init_Model State_Model State_Spec State_Proofs State_World.
Import ListNotations.
Set Implicit Arguments.

Section Extra.
Variables (P T E Pat Q G M Amp Eff Zt Fld Str Cx : Type).
Notation view := (view T E Pat Q G).
Notation heap := (heap T E Pat Q G).
Notation sim := (sim P M).
Notation st := (st P T E Pat Q G M).
Notation world := (world P T E Pat Q G M).
Notation op := (op P T E Zt).
Variable unif : E -> bool.
Variable build_u : P -> E -> res Q.
Variable build_p : P -> E -> res (Pat * Q).
Variable modes_u : P -> E -> res G.
Variable modes_p : Pat -> res G.
Variable S0 : P -> M.
Variable step : P -> view -> view -> M -> res M.
Variable amp0 : P -> M -> Amp.
Variable ampN : P -> M -> Amp.
Variable ampI : P -> M -> M -> res Amp.
Variable eff : P -> view -> view -> M -> res Eff.
Variable fld : P -> view -> Zt -> Amp -> res Fld.
Variable str : P -> view -> Fld -> res Str.
Variable cx : P -> view -> view -> Fld -> Fld -> res Cx.
Variable z0 : Zt.

Notation ask := (@ask P T E Pat Q G M Amp Eff Zt Fld Str Cx unif build_u build_p modes_u modes_p
  S0 step amp0 ampN ampI eff fld str cx z0).
Notation exec := (@exec P T E Pat Q G M Amp Eff Zt Fld Str Cx unif build_u build_p modes_u modes_p
  S0 step amp0 ampN ampI eff fld str cx z0).
Notation efficiencies := (@efficiencies P T E Pat Q G M Eff unif build_u build_p modes_u modes_p
  S0 step eff).
Notation the_S := (@the_S P T E Pat Q G M unif build_u build_p modes_u modes_p S0 step).
Notation ensure_solved := (@ensure_solved P T E Pat Q G M unif build_u build_p modes_u modes_p).

(** The loop only touches the cache, and its value is the product over the
    attributes found on the layers. *)
Lemma s_loop_raw a : forall is x (s : st),
  snd (s_loop unif step a x is s) =
    s_product step (s_par (snd s)) (map (look unif (fst s)) (s_layers (snd s))) x is /\
  fst (fst (s_loop unif step a x is s)) = fst s /\
  s_layers (snd (fst (s_loop unif step a x is s))) = s_layers (snd s) /\
  s_par (snd (fst (s_loop unif step a x is s))) = s_par (snd s) /\
  s_solved (snd (fst (s_loop unif step a x is s))) = s_solved (snd s).
Proof.
  induction is as [|i t IH]; intros x [h m]; cbn [s_loop s_product]; [cbn; auto|].
  unfold seqa, layer_at, see, par, lift. cbn [fst snd].
  rewrite !pynth_map.
  destruct (pynth (s_layers m) i) as [l|]; cbn [bind fst snd]; [|auto].
  destruct (pynth (s_layers m) (i + 1)) as [l'|]; cbn [bind fst snd]; [|auto].
  destruct (step (s_par m) (look unif h l) (look unif h l') x) as [y|]; cbn [bind fst snd]; [|auto].
  cbn [store]. match goal with |- context [s_loop unif step a y t ?s] => destruct (IH y s) as [A [B [C [D E0]]]] end.
  cbn [fst snd s_layers s_par s_solved] in *. rewrite A, B, C, D, E0. auto.
Qed.

(** diffraction_efficiencies on a state marked as solved, nothing cached. *)
Lemma eff_raw (h : heap) ls p : 
  snd (efficiencies (h, Sim ls p true None (@empty_cache M))) =
  let n := Z.of_nat (length ls) in
  if (0 <? n - 1)%Z then
    let! x := s_product step p (map (look unif h) ls) (S0 p) (zrange 0 (n - 1)) in
    let! a := pynth ls 0 in
    let! b := pynth ls (-1) in
    eff p (look unif h a) (look unif h b) x
  else Err UnboundLocalError.
Proof.
  unfold State_Model.efficiencies, State_Model.the_S, get_S, State_Model.ensure_solved.
  unfold seqa at 1. cbn [snd s_S].
  unfold seqa at 1. cbn [snd s_S s_solved].
  unfold seqa at 1. cbn [snd s_S s_solved].
  unfold seqa at 1. cbn [n_layers snd s_layers].
  unfold get_S_range at 1. cbn [snd s_cache empty_cache].
  destruct (Z.ltb_spec 0 (Z.of_nat (length ls) - 1)) as [N|N].
  2:{ rewrite zrange_nil by lia. reflexivity. }
  destruct (zrange 0 (Z.of_nat (length ls) - 1)) as [|i0 is0] eqn:Er.
  { exfalso. unfold zrange in Er. destruct (Z.to_nat (Z.of_nat (length ls) - 1 - 0)) eqn:e; [lia|discriminate]. }
  unfold seqa at 1. cbn [par s_par snd].
  destruct (@s_loop_raw 0 (i0 :: is0) (S0 p) (h, Sim ls p true None (@empty_cache M))) as [A [B [C [D F]]]].
  destruct (s_loop unif step 0 (S0 p) (i0 :: is0) (h, Sim ls p true None (@empty_cache M))) as [[h1 m1] r].
  cbn [fst snd s_par s_layers s_solved] in *. subst r h1. 
  destruct (s_product step p (map (look unif h) ls) (S0 p) (i0 :: is0)) as [x|e]; cbn [bind]; [|reflexivity].
  unfold seqa, set_S, ret, layer_at, see, par, lift. cbn [fst snd s_layers s_S s_par s_solved].
  rewrite C, D. destruct (pynth ls 0); cbn [bind]; [|reflexivity].
  rewrite F. cbn [fst snd s_layers s_par]. rewrite ?C, ?D.
  destruct (pynth ls (-1)); cbn [bind]; [|reflexivity].
  cbn [fst snd]. rewrite ?D. reflexivity.
Qed.

(** After a successful diffraction_efficiencies: what it was computed from. *)
Lemma eff_success (s : st) r : snd (efficiencies s) = Ok r ->
  let s' := fst (efficiencies s) in
  s_solved (snd s') = true /\
  exists x a b, s_S (snd s') = Some x /\
    pynth (s_layers (snd s')) 0 = Ok a /\ pynth (s_layers (snd s')) (-1) = Ok b /\
    eff (s_par (snd s')) (look unif (fst s') a) (look unif (fst s') b) x = Ok r.
Proof.
  assert (TS : forall s1 s2 x, the_S s1 = (s2, Ok x) -> s_S (snd s2) = Some x).
  { intros s1 s2 x. unfold State_Model.the_S. destruct (s_S (snd s1)) as [y|] eqn:Ey.
    - intros X. injection X as <- <-. exact Ey.
    - unfold get_S, seqa. destruct (ensure_solved s1) as [s3 [u|]]; [|discriminate].
      cbn [n_layers]. unfold n_layers. cbn [fst snd].
      destruct (get_S_range unif S0 step 0 (Z.of_nat (length (s_layers (snd s3))) - 1) s3) as [s4 [y|]]; [|discriminate].
      destruct s4 as [h4 m4]. cbn. intros X. injection X as <- <-. reflexivity. }
  assert (EN : forall s1 s2 u, ensure_solved s1 = (s2, Ok u) -> s_solved (snd s2) = true /\ s_S (snd s2) = s_S (snd s1)
     /\ s_layers (snd s2) = s_layers (snd s1)).
  { intros s1 s2 u. unfold State_Model.ensure_solved. destruct (s_solved (snd s1)) eqn:E1.
    - intros X. injection X as <- <-. auto.
    - destruct s1 as [h m]. unfold solve. destruct (solve_all _ _ _ _ _ _ _ _) as [h1 [v|]]; [|discriminate].
      intros X. injection X as <- <-. auto. }
  unfold State_Model.efficiencies, seqa.
  destruct (the_S s) as [s1 [y|]] eqn:E1; [|discriminate].
  destruct (the_S s1) as [s2 [x|]] eqn:E2; [|discriminate].
  unfold layer_at. destruct (pynth (s_layers (snd s2)) 0) as [a|] eqn:Ea; [|discriminate].
  destruct (ensure_solved s2) as [s3 [u|]] eqn:E3; [|discriminate].
  destruct (pynth (s_layers (snd s3)) (-1)) as [b|] eqn:Eb; [|discriminate].
  unfold see, par, lift. cbn [fst snd]. intros X.
  destruct (EN _ _ _ E3) as [A [B C]]. split; [exact A|].
  exists x, a, b. split; [rewrite B; eapply TS; eauto|]. rewrite C, Ea. rewrite <- C. auto.
Qed.

(** Editing the layers without reset leaves the stored S in use. *)
Lemma eff_stale (h : heap) m x a b :
  s_solved m = true -> s_S m = Some x -> pynth (s_layers m) 0 = Ok a -> pynth (s_layers m) (-1) = Ok b ->
  snd (efficiencies (h, m)) = eff (s_par m) (look unif h a) (look unif h b) x.
Proof.
  intros A B C D. unfold State_Model.efficiencies, State_Model.the_S, seqa, State_Model.ensure_solved.
  cbn [fst snd]. rewrite B. cbn [fst snd]. rewrite B. unfold layer_at. cbn [fst snd]. rewrite C. cbn [fst snd].
  rewrite A. cbn [fst snd]. rewrite D. reflexivity.
Qed.

Lemma edits_attrs os : forall w, Forall (@is_edit P T E Zt) os -> forall a,
  let w' := fold_left (@edit P T E Pat Q G M Amp Eff Zt Fld Str Cx unif build_u build_p modes_u modes_p
     S0 step amp0 ampN ampI eff fld str cx z0) os w in
  o_Q (w_heap w' a) = o_Q (w_heap w a) /\ o_G (w_heap w' a) = o_G (w_heap w a).
Proof.
  induction os as [|o t IH]; intros w F a; [cbn; auto|].
  inversion F as [|? ? H1 H2]; subst. cbn [fold_left].
  destruct (IH (@edit P T E Pat Q G M Amp Eff Zt Fld Str Cx unif build_u build_p modes_u modes_p
     S0 step amp0 ampN ampI eff fld str cx z0 w o) H2 a) as [A B]. cbn zeta. rewrite A, B.
  destruct o; cbn in *; try contradiction; unfold upd; destruct (Nat.eqb_spec a a0); subst; cbn; auto.
Qed.

(** Solving leaves the other fields of the simulation alone. *)
Lemma solve_sim (h : heap) (m : sim) : 
  snd (fst (solve unif build_u build_p modes_u modes_p (h, m))) =
  match snd (solve unif build_u build_p modes_u modes_p (h, m)) with
  | Ok _ => Sim (s_layers m) (s_par m) true (s_S m) (s_cache m)
  | Err _ => m
  end.
Proof. unfold solve. destruct (solve_all _ _ _ _ _ _ _ _) as [h1 [u|]]; reflexivity. Qed.

(** Two simulations sharing all their layers: the first solves, the second answers
    diffraction_efficiencies; the layers now carry the modes of the second, and the
    first still believes to be solved. *)
Notation healthy := (@healthy P T E Pat Q G M unif build_u build_p modes_u modes_p S0 step).

Lemma ask_eff_answer k (w : world) :
  snd (exec (OAsk P T E k (QEff Zt)) w) =
  Some (rmap (@AEff M Amp Eff Fld Str Cx) (snd (efficiencies (w_heap w, w_sims w k)))).
Proof.
  cbn. unfold amap, seqa. destruct (efficiencies _) as [[h1 m1] [r|]]; reflexivity.
Qed.

Lemma shared_state (w : world) ls p0 p1 vs r :
  w_sims w 0 = new_sim M p0 ls -> w_sims w 1 = new_sim M p1 ls ->
  let h := w_heap w in usable unif h ls ->
  solved_views unif build_u build_p modes_u modes_p p0 (data h ls) = Ok vs ->
  eff_spec unif build_u build_p modes_u modes_p S0 step eff p1 (data h ls) = Ok r ->
  let w1 := fst (exec (OAsk P T E 0 (QSolve Zt)) w) in
  let w2 := fst (exec (OAsk P T E 1 (QEff Zt)) w1) in
  snd (exec (OAsk P T E 0 (QSolve Zt)) w) = Some (Ok (ADone _ _ _ _ _ _)) /\
  snd (exec (OAsk P T E 1 (QEff Zt)) w1) = Some (Ok (AEff _ _ _ _ _ r)) /\
  w_sims w2 0 = Sim ls p0 true None (@empty_cache M) /\
  healthy 1 p1 ls w2 /\ s_solved (w_sims w2 1) = true /\ data (w_heap w2) ls = data h ls.
Proof.
  intros W0 W1 h U V R w1 w2.
  assert (F1 : same h (w_heap w1) /\ w_sims w1 0 = Sim ls p0 true None (@empty_cache M) /\
               w_sims w1 1 = new_sim M p1 ls /\
               snd (exec (OAsk P T E 0 (QSolve Zt)) w) = Some (Ok (ADone _ _ _ _ _ _))).
  { subst w1. cbn. unfold amap, seqa. fold h. rewrite W0.
    pose proof (@solve_sim h (new_sim M p0 ls)) as E1.
    destruct (@tr_solve P T E Pat Q G M unif build_u build_p modes_u modes_p S0 step h p0 ls U
      (h, new_sim M p0 ls) (@good_new P T E Pat Q G M unif build_u build_p modes_u modes_p S0 step p0 ls h) I)
      as [e [G1 _]].
    rewrite V in e. destruct (solve unif build_u build_p modes_u modes_p (h, new_sim M p0 ls)) as [[h1 m1] r1].
    cbn [fst snd bind] in *. subst r1. subst m1. cbn.
    split; [exact (g_same G1)|]. split; [reflexivity|]. split; [exact W1|]. reflexivity. }
  destruct F1 as [F1 [F2 [F3 F4]]].
  assert (D1 : data (w_heap w1) ls = data h ls) by (symmetry; now apply same_data).
  assert (H1 : healthy 1 p1 ls w1).
  { constructor; [eapply same_usable; eauto|]. rewrite F3. apply good_new. }
  destruct (@healthy_ask P T E Pat Q G M Amp Eff Zt Fld Str Cx unif build_u build_p modes_u modes_p
     S0 step amp0 ampN ampI eff fld str cx z0 1 p1 ls w1 (QEff Zt) H1) as [A1 [H2 D2]].
  fold w2 in H2, D2.
  rewrite D1 in A1. cbn [answer_spec] in A1. rewrite R in A1. cbn [rmap bind] in A1.
  split; [exact F4|]. split; [exact A1|]. split; [|split; [exact H2|split; [|now rewrite D2]]].
  - subst w2. cbn. destruct (amap _ _ _) as [[h1 m1] r1]. cbn. exact F2.
  - rewrite ask_eff_answer in A1. injection A1 as A1.
    subst w2. cbn. unfold amap, seqa in *.
    destruct (snd (efficiencies (w_heap w1, w_sims w1 1))) as [r0|] eqn:Er; [|discriminate].
    pose proof (@eff_success _ _ Er) as [S1 _].
    destruct (efficiencies (w_heap w1, w_sims w1 1)) as [[h1 m1] r1]. cbn [fst snd] in *. subst r1.
    cbn. exact S1.
Qed.


(** ** The S matrix kept by a successful get_S_matrix() *)
Lemma s_loop_last a : forall is x (s s' : st) y, s_loop unif step a x is s = (s', Ok y) ->
  is <> [] -> s_cache (snd s') a (last is 0%Z) = Some y.
Proof.
  induction is as [|i t IH]; intros x s s' y H N; [congruence|].
  cbn [s_loop] in H. unfold seqa, layer_at, see, par, lift in H. cbn [fst snd] in H.
  destruct s as [h m]. cbn [fst snd] in H.
  destruct (pynth (s_layers m) i) as [l|]; [|discriminate].
  destruct (pynth (s_layers m) (i + 1)) as [l'|]; [|discriminate].
  destruct (step (s_par m) (look unif h l) (look unif h l') x) as [y1|]; [|discriminate].
  cbn [store] in H. destruct t as [|i2 t].
  - cbn in H. injection H as <- <-. cbn. unfold cache_set. now rewrite !Z.eqb_refl.
  - change (last (i :: i2 :: t) 0%Z) with (last (i2 :: t) 0%Z).
    eapply IH; [exact H|discriminate].
Qed.

Lemma zrange_last a b : (a < b)%Z -> last (zrange a b) 0%Z = (b - 1)%Z /\ zrange a b <> [].
Proof.
  intros L. replace b with ((b - 1) + 1)%Z at 1 3 by lia.
  rewrite (@zrange_snoc a (b - 1)) by lia.
  split; [now rewrite last_last|]. now destruct (zrange a (b - 1)).
Qed.

Notation get_S := (@get_S P T E Pat Q G M unif build_u build_p modes_u modes_p S0 step).
Lemma get_S_success (s : st) x : snd (get_S None s) = Ok x ->
  let s' := fst (get_S None s) in
  let n := Z.of_nat (length (s_layers (snd s'))) in
  s_solved (snd s') = true /\ s_S (snd s') = Some x /\
  zrange 0 (n - 1) <> [] /\ s_cache (snd s') 0 (n - 1 - 1) = Some x.
Proof.
  unfold State_Model.get_S, seqa.
  assert (EN : forall s1 s2 u, ensure_solved s1 = (s2, Ok u) -> s_solved (snd s2) = true).
  { intros s1 s2 u. unfold State_Model.ensure_solved. destruct (s_solved (snd s1)) eqn:E1.
    - intros X. injection X as <- <-. auto.
    - destruct s1 as [h m]. unfold solve. destruct (solve_all _ _ _ _ _ _ _ _) as [h1 [v|]]; [|discriminate].
      intros X. injection X as <- <-. auto. }
  destruct (ensure_solved s) as [[h1 m1] [u|]] eqn:E1; [|discriminate].
  specialize (EN _ _ _ E1). cbn [snd] in EN.
  unfold n_layers. cbn [fst snd].
  unfold get_S_range.
  destruct (Z.ltb_spec 0 (Z.of_nat (length (s_layers m1)) - 1)) as [L|L].
  2:{ rewrite zrange_nil by lia. discriminate. }
  destruct (zrange_last L) as [Z1 Z2].
  destruct (zrange 0 (Z.of_nat (length (s_layers m1)) - 1)) as [|i0 is0] eqn:Er; [congruence|].
  cbn [fst snd]. destruct (s_cache m1 0 (Z.of_nat (length (s_layers m1)) - 1 - 1)) as [y|] eqn:Ec.
  - cbn. intros X. injection X as ->. rewrite Er. auto.
  - unfold seqa, par. cbn [fst snd].
    destruct (@s_loop_raw 0 (i0 :: is0) (S0 (s_par m1)) (h1, m1)) as [A [B [C [D F]]]].
    destruct (s_loop unif step 0 (S0 (s_par m1)) (i0 :: is0) (h1, m1)) as [[h2 m2] [y|]] eqn:El;
      [|discriminate].
    cbn in C, F. cbn. intros X. injection X as ->. rewrite C, F, Er.
    pose proof (@s_loop_last _ _ _ _ _ _ El Z2) as LL. rewrite Z1 in LL. cbn in LL. auto.
Qed.

(** Edits of thickness and permittivity without reset: get_S_matrix() repeats its
    answer. *)
Notation edit := (@edit P T E Pat Q G M Amp Eff Zt Fld Str Cx unif build_u build_p modes_u modes_p
     S0 step amp0 ampN ampI eff fld str cx z0).
Theorem stale_S k w os x :
  snd (exec (OAsk P T E k (QS Zt None)) w) = Some (Ok (AS _ _ _ _ _ x)) ->
  Forall (@is_edit P T E Zt) os ->
  snd (exec (OAsk P T E k (QS Zt None)) (fold_left edit os (fst (exec (OAsk P T E k (QS Zt None)) w)))) =
    Some (Ok (AS _ _ _ _ _ x)).
Proof.
  intros A F.
  assert (A' : snd (get_S None (w_heap w, w_sims w k)) = Ok x).
  { cbn in A. unfold amap, seqa in A. destruct (get_S None (w_heap w, w_sims w k)) as [[h1 m1] [y|]].
    - cbn in *. congruence.
    - cbn in A. discriminate. }
  destruct (@get_S_success _ _ A') as [B1 [B2 [B3 B4]]].
  assert (W : w_sims (fst (exec (OAsk P T E k (QS Zt None)) w)) k = snd (fst (get_S None (w_heap w, w_sims w k)))).
  { cbn. unfold amap, seqa. destruct (get_S None (w_heap w, w_sims w k)) as [[h1 m1] [y|]]; cbn; 
    apply upd_sim_eq. }
  apply stale_answers; rewrite ?W; auto.
  exists x. auto.
Qed.

(** ** Copies *)
Notation solve_all := (solve_all unif build_u build_p modes_u modes_p).
Notation solve_one := (solve_one unif build_u build_p modes_u modes_p).
Lemma solve_all_app p : forall l1 l2 (h : heap),
  solve_all p h (l1 ++ l2) =
  match solve_all p h l1 with
  | (h1, Err e) => (h1, Err e)
  | (h1, Ok _) => solve_all p h1 l2
  end.
Proof.
  induction l1 as [|a t IH]; intros l2 h; cbn [app State_Model.solve_all]; [reflexivity|].
  destruct (solve_one p h a) as [h1 [u|]]; [apply IH|reflexivity].
Qed.

(** A uniform layer that is not a copy never gets the patterned attributes. *)
Lemma solve_one_pat p (h : heap) a b : unif (o_eps (h b)) = true -> o_copy_of (h b) = None ->
  o_pat (fst (solve_one p h a) b) = o_pat (h b).
Proof.
  intros U C.
  assert (K : forall (h : heap) o, unif (o_eps (h b)) = true -> o_copy_of (h b) = None ->
     (b = a -> o_pat o = o_pat (h b)) -> o_pat (upd h a o b) = o_pat (h b)).
  { intros h' o _ _ X. unfold upd. destruct (Nat.eqb_spec b a) as [->|N]; [now apply X|reflexivity]. }
  assert (MM : forall h' : heap, o_pat (fst (modes unif modes_u modes_p p h' a) b) = o_pat (h' b)).
  { intros h'. unfold modes. destruct (unif (o_eps (h' a))).
    - destruct (modes_u p (o_eps (h' a))); cbn; [|reflexivity].
      unfold upd. destruct (Nat.eqb_spec b a) as [->|N]; reflexivity.
    - destruct (o_pat (h' a)) as [m|]; [|reflexivity].
      destruct (o_copy_of (h' a)) as [c|].
      + destruct (o_G (h' c)); cbn; [|reflexivity].
        unfold upd. destruct (Nat.eqb_spec b a) as [->|N]; reflexivity.
      + destruct (modes_p m); cbn; [|reflexivity].
        unfold upd. destruct (Nat.eqb_spec b a) as [->|N]; reflexivity. }
  unfold State_Model.solve_one.
  assert (BB : o_pat (fst (build unif build_u build_p p h a) b) = o_pat (h b)).
  { unfold build. destruct (o_copy_of (h a)) as [c|] eqn:Ec.
    - destruct (o_pat (h c)) as [m|]; [|reflexivity]. destruct (o_Q (h c)) as [q|]; cbn;
      apply K; auto; intros ->; congruence.
    - destruct (unif (o_eps (h a))) eqn:Eu.
      + destruct (build_u p (o_eps (h a))); cbn; [|reflexivity]. apply K; auto. now intros ->.
      + destruct (build_p p (o_eps (h a))) as [[m q]|]; cbn; [|reflexivity].
        apply K; auto. intros ->. congruence. }
  destruct (build unif build_u build_p p h a) as [h1 [u|]]; cbn [fst] in *; [|exact BB].
  now rewrite MM.
Qed.

Lemma solve_one_same p (h : heap) a : same h (fst (solve_one p h a)).
Proof.
  unfold State_Model.solve_one.
  pose proof (proj2 (@build_frame P T E Pat Q G unif build_u build_p p h a)) as B1.
  destruct (build unif build_u build_p p h a) as [h1 [u|]]; [|exact B1]. cbn [fst] in B1.
  eapply same_trans; [exact B1|].
  apply (@modes_frame P T E Pat Q G unif modes_u modes_p p h1 a).
Qed.

Lemma solve_all_pat p : forall ls (h : heap) b, unif (o_eps (h b)) = true -> o_copy_of (h b) = None ->
  o_pat (fst (solve_all p h ls) b) = o_pat (h b).
Proof.
  induction ls as [|a t IH]; intros h b U C; cbn [State_Model.solve_all]; [reflexivity|].
  pose proof (@solve_one_pat p h a b U C) as K.
  pose proof (@solve_one_same p h a b) as [_ [S2 S3]].
  destruct (solve_one p h a) as [h1 [u|]]; cbn [fst] in *; [|exact K].
  rewrite IH; [exact K| |]; congruence.
Qed.
Lemma solve_all_same p : forall ls (h : heap), same h (fst (solve_all p h ls)).
Proof.
  induction ls as [|a t IH]; intros h; cbn [State_Model.solve_all]; [apply same_refl|].
  pose proof (@solve_one_same p h a) as K.
  destruct (solve_one p h a) as [h1 [u|]]; cbn [fst] in *; [|exact K].
  eapply same_trans; [exact K|apply IH].
Qed.

(** A stack with a copy of a uniform layer cannot be solved when the layers before
    the copy can. *)
Lemma copy_uniform p (h : heap) pre c post b u :
  o_copy_of (h c) = Some b -> unif (o_eps (h b)) = true -> o_copy_of (h b) = None ->
  o_pat (h b) = None -> snd (solve_all p h pre) = Ok u ->
  snd (solve_all p h (pre ++ c :: post)) = Err AttributeError.
Proof.
  intros A B C D F. rewrite solve_all_app.
  pose proof (@solve_all_pat p pre h b B C) as K.
  pose proof (@solve_all_same p pre h c) as [_ [_ S3]].
  destruct (solve_all p h pre) as [h1 r]. cbn [fst snd] in *. subst r.
  cbn [State_Model.solve_all]. unfold State_Model.solve_one, build.
  rewrite <- S3, A. rewrite K, D. reflexivity.
Qed.

Definition whole_stack (q : query Zt) : Prop :=
  match q with QSolve _ | QS _ _ | QEff _ | QComplex _ _ _ => True | _ => False end.

Lemma unsolvable_ask (h : heap) m e : s_solved m = false -> s_S m = None ->
  snd (solve_all (s_par m) h (s_layers m)) = Err e ->
  forall q, whole_stack q -> snd (ask q (h, m)) = Err e.
Proof.
  intros A B C q W.
  assert (S : exists h1, solve unif build_u build_p modes_u modes_p (h, m) = ((h1, m), Err e)).
  { unfold solve. destruct (solve_all (s_par m) h (s_layers m)) as [h1 r]. cbn in C. subst r. eauto. }
  destruct S as [h1 S].
  assert (En : ensure_solved (h, m) = ((h1, m), Err e)).
  { unfold State_Model.ensure_solved. cbn [snd]. rewrite A. exact S. }
  assert (Gt : forall ix, get_S ix (h, m) = ((h1, m), Err e)).
  { intros ix. unfold State_Model.get_S, seqa. rewrite En. reflexivity. }
  assert (TS : the_S (h, m) = ((h1, m), Err e)).
  { unfold State_Model.the_S. cbn [snd]. rewrite B. apply Gt. }
  destruct q as [|ix|i|i z| |iN i0|i z]; cbn in W; try contradiction; cbn [State_Model.ask]; unfold amap, seqa.
  - rewrite S. reflexivity.
  - rewrite Gt. reflexivity.
  - unfold State_Model.efficiencies, seqa. rewrite TS. reflexivity.
  - unfold complex_orders, seqa. rewrite TS. reflexivity.
Qed.

(** A copy of a patterned layer, placed anywhere after its original. *)
Lemma copies_ext (h h' : heap) : forall l bef,
  (forall a, In a l \/ In a bef -> h' a = h a) -> copies_ok unif h bef l -> copies_ok unif h' bef l.
Proof.
  induction l as [|a t IH]; intros bef X; cbn [copies_ok]; [auto|].
  intros [A B]. rewrite (X a) by auto with datatypes. split.
  - destruct (o_copy_of (h a)) as [b|]; [|auto]. rewrite (X b) by (right; apply A). exact A.
  - apply IH; [|exact B]. intros c [i|[->|i]]; auto with datatypes.
Qed.
Lemma copies_more (h : heap) : forall l bef bef',
  (forall a, In a bef -> In a bef') -> copies_ok unif h bef l -> copies_ok unif h bef' l.
Proof.
  induction l as [|a t IH]; intros bef bef' X; cbn [copies_ok]; [auto|].
  intros [A B]. split.
  - destruct (o_copy_of (h a)) as [b|]; [|auto]. destruct A as [A1 A2]. auto.
  - eapply IH; [|exact B]. intros c [->|i]; auto with datatypes.
Qed.
Lemma copies_app (h : heap) : forall l1 l2 bef,
  copies_ok unif h bef (l1 ++ l2) <-> copies_ok unif h bef l1 /\ copies_ok unif h (rev l1 ++ bef) l2.
Proof.
  induction l1 as [|a t IH]; intros l2 bef; cbn [app copies_ok rev]; [tauto|].
  rewrite IH. rewrite <- app_assoc. cbn [app]. tauto.
Qed.

Lemma usable_copy (h h' : heap) pre post a c : usable unif h (pre ++ post) -> In a pre ->
  ~ In c (pre ++ post) -> (forall b, b <> c -> h' b = h b) ->
  o_copy_of (h' c) = Some a -> o_eps (h' c) = o_eps (h a) -> unif (o_eps (h a)) = false ->
  usable unif h' (pre ++ c :: post).
Proof.
  intros [N O] I1 NI X C1 C2 U. split.
  - now apply NoDup_Add with (a := c) (l := pre ++ post); [apply Add_app|split].
  - apply copies_app in O. destruct O as [O1 O2]. apply copies_app.
    assert (nc : forall b, In b pre \/ In b post -> b <> c).
    { intros b Hb ->. apply NI. apply in_or_app. exact Hb. }
    split.
    + apply copies_ext with (h := h); [|exact O1]. intros b [i|[]]. apply X. apply nc. auto.
    + cbn [copies_ok]. rewrite C1. split.
      * split; [apply in_or_app; left; now apply -> in_rev|].
        rewrite X by (apply nc; auto). split; congruence.
      * apply copies_more with (bef := rev pre ++ []); [intros b i; now right|].
        apply copies_ext with (h := h); [|exact O2].
        intros b [i|i]; apply X, nc; [auto|left].
        apply in_app_or in i. destruct i as [i|[]]. now apply in_rev.
Qed.

Lemma usable_other (h h' : heap) pre post c : usable unif h (pre ++ post) ->
  ~ In c (pre ++ post) -> (forall b, b <> c -> h' b = h b) ->
  o_copy_of (h' c) = None -> usable unif h' (pre ++ c :: post).
Proof.
  intros [N O] NI X C1. split.
  - now apply NoDup_Add with (a := c) (l := pre ++ post); [apply Add_app|split].
  - apply copies_app in O. destruct O as [O1 O2]. apply copies_app.
    assert (nc : forall b, In b pre \/ In b post -> b <> c).
    { intros b Hb ->. apply NI. apply in_or_app. exact Hb. }
    split.
    + apply copies_ext with (h := h); [|exact O1]. intros b [i|[]]. apply X. apply nc. auto.
    + cbn [copies_ok]. rewrite C1. split; [exact I|].
      apply copies_more with (bef := rev pre ++ []); [intros b i; now right|].
      apply copies_ext with (h := h); [|exact O2].
      intros b [i|i]; apply X, nc; [auto|left].
      apply in_app_or in i. destruct i as [i|[]]. now apply in_rev.
Qed.

Lemma data_copy (h h' : heap) pre post c t e : ~ In c (pre ++ post) -> (forall b, b <> c -> h' b = h b) ->
  o_thick (h' c) = t -> o_eps (h' c) = e ->
  data h' (pre ++ c :: post) = data h pre ++ (t, e) :: data h post.
Proof.
  intros NI X C1 C2. unfold data. rewrite map_app. cbn [map]. rewrite C1, C2. f_equal; [|f_equal];
  apply map_ext_in; intros b i; rewrite X; auto; intros ->; apply NI; apply in_or_app; auto.
Qed.


(** ** Series of queries *)
Notation answer_spec := (@answer_spec P T E Pat Q G M Amp Eff Zt Fld Str Cx unif build_u build_p
  modes_u modes_p S0 step amp0 ampN ampI eff fld str cx z0).
Notation run := (@run P T E Pat Q G M Amp Eff Zt Fld Str Cx unif build_u build_p modes_u modes_p
  S0 step amp0 ampN ampI eff fld str cx z0).

Lemma fresh_answer (h : heap) p ls q : usable unif h ls ->
  snd (ask q (h, new_sim M p ls)) = answer_spec p (data h ls) q.
Proof.
  intros U.
  destruct (@tr_ask P T E Pat Q G M Amp Eff Zt Fld Str Cx unif build_u build_p modes_u modes_p S0
     step amp0 ampN ampI eff fld str cx z0 h p ls U q _
     (@good_new P T E Pat Q G M unif build_u build_p modes_u modes_p S0 step p ls h) I) as [e _].
  exact e.
Qed.

Lemma asks k p ls : forall qs w, healthy k p ls w ->
  snd (run (map (OAsk P T E k) qs) w) = map (fun q => Some (answer_spec p (data (w_heap w) ls) q)) qs.
Proof.
  induction qs as [|q t IH]; intros w H; [reflexivity|].
  cbn [map]. rewrite run_cons. cbn [snd].
  destruct (@healthy_ask P T E Pat Q G M Amp Eff Zt Fld Str Cx unif build_u build_p modes_u modes_p
     S0 step amp0 ampN ampI eff fld str cx z0 k p ls w q H) as [A1 [H2 D2]].
  rewrite A1, (IH _ H2), D2. reflexivity.
Qed.

Lemma new_asks k p ls qs w : usable unif (w_heap w) ls ->
  snd (run (ONew T E Zt k p ls :: map (OAsk P T E k) qs) w) =
  None :: map (fun q => Some (snd (ask q (w_heap w, new_sim M p ls)))) qs.
Proof.
  intros U. rewrite run_cons. cbn [snd]. f_equal.
  erewrite asks by (apply healthy_new; exact U).
  apply map_ext. intros q. cbn [w_heap State_Model.exec fst]. now rewrite fresh_answer.
Qed.

Lemma reset_asks k p ls qs w : s_par (w_sims w k) = p -> s_layers (w_sims w k) = ls ->
  usable unif (w_heap w) ls ->
  snd (run (OReset P T E Zt k RAll :: map (OAsk P T E k) qs) w) =
  None :: map (fun q => Some (snd (ask q (w_heap w, new_sim M p ls)))) qs.
Proof.
  intros e1 e2 U. rewrite run_cons. cbn [snd]. f_equal.
  erewrite asks by (apply healthy_reset; eauto).
  apply map_ext. intros q. cbn [w_heap State_Model.exec fst]. now rewrite fresh_answer.
Qed.

Lemma reset_S_asks k p ls qs w ts : healthy k p ls w ->
  let w' := set_thicks unif build_u build_p modes_u modes_p S0 step amp0 ampN ampI eff fld str cx z0 ts w in
  snd (run (OReset P T E Zt k RS :: map (OAsk P T E k) qs) w') =
  None :: map (fun q => Some (snd (ask q (w_heap w', new_sim M p ls)))) qs.
Proof.
  intros H w'. rewrite run_cons. cbn [snd]. f_equal.
  pose proof (@healthy_reset_S P T E Pat Q G M Amp Eff Zt Fld Str Cx unif build_u build_p modes_u modes_p
     S0 step amp0 ampN ampI eff fld str cx z0 k p ls w ts H) as H2. fold w' in H2.
  erewrite asks by exact H2.
  apply map_ext. intros q. cbn [w_heap State_Model.exec fst].
  rewrite fresh_answer; [reflexivity|]. exact (hl_usable H2).
Qed.


Lemma healthy_new_asks k p ls qs w : usable unif (w_heap w) ls ->
  healthy k p ls (fst (run (ONew T E Zt k p ls :: map (OAsk P T E k) qs) w)).
Proof.
  intros U. rewrite run_cons. cbn [fst].
  assert (H : healthy k p ls (fst (exec (ONew T E Zt k p ls) w))) by now apply healthy_new.
  revert H. generalize (fst (exec (ONew T E Zt k p ls) w)). clear U w.
  induction qs as [|q t IH]; intros w H; [exact H|].
  cbn [map]. rewrite run_cons. cbn [fst]. apply IH.
  apply (@healthy_ask P T E Pat Q G M Amp Eff Zt Fld Str Cx unif build_u build_p modes_u modes_p
     S0 step amp0 ampN ampI eff fld str cx z0 k p ls w q H).
Qed.

Lemma run_thicks ts : forall w, fst (run (map (fun x => OThick P E Zt (fst x) (snd x)) ts) w) =
  set_thicks unif build_u build_p modes_u modes_p S0 step amp0 ampN ampI eff fld str cx z0 ts w.
Proof.
  induction ts as [|x t IH]; intros w; [reflexivity|].
  cbn [map]. rewrite run_cons. cbn [fst]. rewrite IH. reflexivity.
Qed.

(** Ordinary layers: no copy among them. *)
Lemma usable_plain (h : heap) ls : NoDup ls -> (forall a, In a ls -> o_copy_of (h a) = None) -> usable unif h ls.
Proof.
  intros N C. split; [exact N|]. generalize (@nil nat).
  clear N. induction ls as [|a t IH]; intros bef; cbn [copies_ok]; [auto|].
  rewrite C by now left. split; [auto|]. apply IH. intros b i. apply C. now right.
Qed.


(** Two sets of parameters that differ only in how [eff] normalises. *)
Lemma eff_spec_map (p p' : P) (f : Eff -> Eff) d r :
  (forall x : T * E, solved_view unif build_u build_p modes_u modes_p p x =
             solved_view unif build_u build_p modes_u modes_p p' x) ->
  S0 p = S0 p' -> (forall v v' x, step p v v' x = step p' v v' x) ->
  (forall v v' x r, eff p' v v' x = Ok r -> eff p v v' x = Ok (f r)) ->
  eff_spec unif build_u build_p modes_u modes_p S0 step eff p' d = Ok r ->
  eff_spec unif build_u build_p modes_u modes_p S0 step eff p d = Ok (f r).
Proof.
  intros V Z0 ST EF.
  assert (VS : forall l : list (T * E), solved_views unif build_u build_p modes_u modes_p p l =
                         solved_views unif build_u build_p modes_u modes_p p' l).
  { induction l as [|x l IH]; cbn [solved_views]; [reflexivity|]. now rewrite V, IH. }
  assert (SP : forall vs is x, s_product step p vs x is = s_product step p' vs x is).
  { intros vs. induction is as [|i t IH]; intros x; cbn [s_product]; [reflexivity|].
    destruct (pynth vs i); cbn [bind]; [|reflexivity]. destruct (pynth vs (i + 1)); cbn [bind]; [|reflexivity].
    rewrite ST. destruct (step p' a a0 x); cbn [bind]; [apply IH|reflexivity]. }
  unfold eff_spec, S_full, S_between. rewrite VS.
  destruct (solved_views _ _ _ _ _ _ _); cbn [bind]; [|discriminate].
  destruct (0 <? n d - 1)%Z; cbn [bind]; [|discriminate]. rewrite SP, Z0.
  destruct (s_product _ _ _ _ _); cbn [bind]; [|discriminate].
  destruct (pynth d 0) as [a1|]; cbn [bind]; [|discriminate].
  destruct (pynth d (-1)) as [b1|]; cbn [bind]; [|discriminate].
  rewrite !V.
  destruct (solved_view _ _ _ _ _ _ a1); cbn [bind]; [|discriminate].
  destruct (solved_view _ _ _ _ _ _ b1); cbn [bind]; [|discriminate].
  apply EF.
Qed.

End Extra.

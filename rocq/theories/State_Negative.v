(** Negative layer ids in the queries (simulation.py:731-761). *)
From Coq Require Import List ZArith Bool Arith Lia.
From Verif Require Import Base Init_Model State_Model State_Spec State_Proofs State_World State_Stack.
Import ListNotations.
Set Implicit Arguments.

Section Negative.
Variables (P T E Pat Q G M Amp Eff Zt Fld Str Cx : Type).
Notation view := (view T E Pat Q G).
Notation heap := (heap T E Pat Q G).
Notation sim := (sim P M).
Notation st := (st P T E Pat Q G M).
Notation world := (world P T E Pat Q G M).
Notation op := (op P T E Zt).
Variable unif : E -> bool.
Variable build_u : P -> E -> res Q.
Variable build_p : P -> E -> res (Pat * Q).
Variable modes_u : P -> E -> res G.
Variable modes_p : Pat -> res G.
Variable S0 : P -> M.
Variable step : P -> view -> view -> M -> res M.
Variable amp0 : P -> M -> Amp.
Variable ampN : P -> M -> Amp.
Variable ampI : P -> M -> M -> res Amp.
Variable eff : P -> view -> view -> M -> res Eff.
Variable fld : P -> view -> Zt -> Amp -> res Fld.
Variable str : P -> view -> Fld -> res Str.
Variable cx : P -> view -> view -> Fld -> Fld -> res Cx.
Variable z0 : Zt.

Notation ask := (@ask P T E Pat Q G M Amp Eff Zt Fld Str Cx unif build_u build_p modes_u modes_p
  S0 step amp0 ampN ampI eff fld str cx z0).
Notation solve := (@State_Model.solve P T E Pat Q G M unif build_u build_p modes_u modes_p).
Notation ensure_solved := (@ensure_solved P T E Pat Q G M unif build_u build_p modes_u modes_p).
Notation amplitudes := (@amplitudes P T E Pat Q G M Amp unif build_u build_p modes_u modes_p S0 step amp0 ampN ampI).
Notation field := (@field P T E Pat Q G M Amp Zt Fld unif build_u build_p modes_u modes_p S0 step amp0 ampN ampI fld).

Lemma pynth_end A (l : list A) : pynth l (-1) = pynth l (Z.of_nat (length l) - 1).
Proof.
  destruct l as [|x t] using rev_ind; [reflexivity|]. rewrite pynth_last.
  unfold pynth, pyindex. rewrite app_length; cbn [length].
  destruct (Z.leb_spec 0 (Z.of_nat (length t + 1) - 1)); [|lia].
  destruct (Z.ltb_spec (Z.of_nat (length t + 1) - 1) (Z.of_nat (length t + 1))); [|lia]. cbn [andb].
  replace (Z.to_nat (Z.of_nat (length t + 1) - 1)) with (length t) by lia.
  rewrite nth_error_app2, Nat.sub_diag by lia. reflexivity.
Qed.

Lemma pynth_neg A (l : list A) i : (- Z.of_nat (length l) <= i < 0)%Z -> exists a, pynth l i = Ok a.
Proof.
  intros h. unfold pynth, pyindex.
  destruct (Z.leb_spec 0 i); [lia|]. cbn [andb].
  destruct (Z.leb_spec (- Z.of_nat (length l)) i), (Z.ltb_spec i 0); try lia. cbn [andb].
  destruct (nth_error l (Z.to_nat (Z.of_nat (length l) + i))) as [a|] eqn:e; [exists a; reflexivity|].
  apply nth_error_None in e. lia.
Qed.

(** [solve] keeps everything but the flag. *)
Lemma solve_shape h m : exists h', solve (h, m) =
  match snd (solve (h, m)) with
  | Ok _ => ((h', Sim (s_layers m) (s_par m) true (s_S m) (s_cache m)), Ok tt)
  | Err e => ((h', m), Err e)
  end.
Proof.
  unfold State_Model.solve. destruct (solve_all _ _ _ _ _ _ _ _) as [h1 [u|e]]; cbn [snd]; exists h1; reflexivity.
Qed.

Lemma amplitudes_negative h p ls i f : (- Z.of_nat (length ls) <= i < -1)%Z ->
  snd (amplitudes i (h, Sim ls p f None (@empty_cache M))) =
  if f then Err UnboundLocalError
  else match snd (solve (h, Sim ls p f None (@empty_cache M))) with Ok _ => Err UnboundLocalError | Err e => Err e end.
Proof.
  intros hi. destruct (@pynth_neg _ ls i ltac:(lia)) as [a ha].
  unfold State_Model.amplitudes, layer_int, layer_at, n_layers, par.
  unfold seqa at 1. cbn [snd s_layers]. rewrite ha.
  unfold seqa at 1. cbn [snd s_layers].
  unfold seqa at 1. cbn [snd s_par].
  destruct (Z.eqb_spec i 0); [lia|]. destruct (Z.eqb_spec i (Z.of_nat (length ls) - 1)); [lia|].
  destruct (Z.eqb_spec i (-1)); [lia|]. cbn [orb].
  unfold seqa at 1. unfold get_S at 1. unfold seqa at 1. unfold State_Model.ensure_solved. cbn [snd s_solved].
  unfold get_S_range at 1. rewrite zrange_nil by lia.
  destruct f; [reflexivity|].
  destruct (solve_shape h (Sim ls p false None (@empty_cache M))) as [h' e]. rewrite e at 1.
  destruct (snd (solve _)) as [u|x]; reflexivity.
Qed.

Lemma field_negative h p ls i z : (- Z.of_nat (length ls) <= i < -1)%Z ->
  snd (field i z (h, new_sim M p ls)) =
  match snd (solve (h, new_sim M p ls)) with Ok _ => Err UnboundLocalError | Err e => Err e end.
Proof.
  intros hi. destruct (@pynth_neg _ ls i ltac:(lia)) as [a ha].
  unfold State_Model.field, layer_int, layer_at, new_sim.
  unfold seqa at 1. cbn [snd s_layers]. rewrite ha.
  unfold seqa at 1. unfold State_Model.ensure_solved. cbn [snd s_solved].
  destruct (solve_shape h (Sim ls p false None (@empty_cache M))) as [h' e]. rewrite e at 1.
  destruct (snd (solve _)) as [u|x]; [|reflexivity]. cbn [s_layers s_par s_S s_cache].
  unfold seqa at 1. 
  pose proof (@amplitudes_negative h' p ls i true hi) as H.
  destruct (amplitudes i _) as [s' r]; cbn [snd] in H. rewrite H. reflexivity.
Qed.

Lemma ask_negative h p ls i z : (- Z.of_nat (length ls) <= i < -1)%Z ->
  (exists a, pynth ls i = Ok a) /\
  let stopped := fun r => match r with Ok _ => Err UnboundLocalError | Err e => Err e end in
  let fresh := fun q => snd (ask q (h, new_sim M p ls)) in
  fresh (QAmp Zt i) = stopped (fresh (QSolve Zt)) /\
  fresh (QField i z) = stopped (fresh (QSolve Zt)) /\
  fresh (QStress i z) = stopped (fresh (QSolve Zt)).
Proof.
  intros hi. destruct (@pynth_neg _ ls i ltac:(lia)) as [a ha]. split; [exists a; exact ha|].
  cbv zeta. cbn [State_Model.ask]. unfold amap.
  assert (hs : match snd (seqa solve (fun _ => ret (ADone M Amp Eff Fld Str Cx)) (h, new_sim M p ls)) with
    Ok _ => Err UnboundLocalError | Err e => Err e end =
    match snd (solve (h, new_sim M p ls)) with Ok _ => Err UnboundLocalError | Err e => @Err (answer M Amp Eff Fld Str Cx) e end).
  { unfold seqa. destruct (solve _) as [s' [u|e]]; reflexivity. }
  rewrite hs; clear hs.
  pose proof (@field_negative h p ls i z hi) as hf.
  pose proof (@amplitudes_negative h p ls i false hi) as hm. fold (new_sim M p ls) in hm.
  split; [|split].
  - unfold seqa. destruct (amplitudes i _) as [s' r]; cbn [snd] in hm |- *.
    rewrite hm. destruct (snd (solve _)); reflexivity.
  - unfold seqa. destruct (field i z _) as [s' r]; cbn [snd] in hf |- *.
    rewrite hf. destruct (snd (solve _)); reflexivity.
  - unfold seqa at 1. unfold stress, layer_int, layer_at. unfold seqa at 1. cbn [new_sim snd s_layers]. rewrite ha.
    unfold seqa at 1. fold (new_sim M p ls). destruct (field i z _) as [s' r]; cbn [snd] in hf |- *.
    rewrite hf. destruct (snd (solve _)); reflexivity.
Qed.

(** -1 is the last layer. *)
Lemma amplitudes_last (s : st) : (1 < length (s_layers (snd s)))%nat ->
  amplitudes (-1) s = amplitudes (Z.of_nat (length (s_layers (snd s))) - 1) s.
Proof.
  intros hn. unfold State_Model.amplitudes, layer_int, layer_at, n_layers, par, seqa.
  rewrite pynth_end. destruct (pynth _ _); [|reflexivity].
  set (n := (Z.of_nat (length (s_layers (snd s))) - 1)%Z).
  replace (n =? 0)%Z with false by (symmetry; apply Z.eqb_neq; unfold n; lia).
  rewrite !Z.eqb_refl, orb_true_r. reflexivity.
Qed.

Lemma ensure_solved_layers (s : st) :
  s_layers (snd (fst (ensure_solved s))) = s_layers (snd s).
Proof.
  destruct s as [h m]. unfold State_Model.ensure_solved. cbn [snd]. destruct (s_solved m); [reflexivity|].
  destruct (solve_shape h m) as [h' e]. rewrite e. destruct (snd (solve _)); reflexivity.
Qed.

Lemma field_last z (s : st) : (1 < length (s_layers (snd s)))%nat ->
  field (-1) z s = field (Z.of_nat (length (s_layers (snd s))) - 1) z s.
Proof.
  intros hn. unfold State_Model.field, layer_int, layer_at. unfold seqa at 1. rewrite pynth_end.
  unfold seqa at 5. destruct (pynth _ _) as [a|]; [|reflexivity].
  unfold seqa at 1. unfold seqa at 4.
  pose proof (ensure_solved_layers s) as hl. destruct (ensure_solved s) as [s1 [u|e]]; [|reflexivity].
  cbn [fst] in hl. unfold seqa at 1. unfold seqa at 3.
  rewrite <- hl. rewrite (@amplitudes_last s1); [reflexivity|]. rewrite hl. exact hn.
Qed.

Lemma ask_last h p ls z : (1 < length ls)%nat ->
  let n := Z.of_nat (length ls) in
  let fresh := fun q => snd (ask q (h, new_sim M p ls)) in
  fresh (QAmp Zt (-1)) = fresh (QAmp Zt (n - 1)) /\
  fresh (QField (-1) z) = fresh (QField (n - 1) z) /\
  fresh (QStress (-1) z) = fresh (QStress (n - 1) z).
Proof.
  intros hn. cbv zeta. cbn [State_Model.ask]. unfold amap.
  pose proof (@field_last z (h, new_sim M p ls) hn) as hf.
  pose proof (@amplitudes_last (h, new_sim M p ls) hn) as hm.
  cbn [snd new_sim s_layers] in hf, hm.
  split; [|split].
  - unfold seqa. rewrite hm. reflexivity.
  - unfold seqa. rewrite hf. reflexivity.
  - assert (hs : forall i, stress unif build_u build_p modes_u modes_p S0 step amp0 ampN ampI fld str i z (h, new_sim M p ls) =
      match pynth ls i with
      | Err e => ((h, new_sim M p ls), Err e)
      | Ok a => seqa (field i z) (fun f => seqa (see unif a) (fun v => seqa (@par _ _ _ _ _ _ _) (fun p => lift (str p v f))))
                  (h, new_sim M p ls)
      end).
    { intros i. unfold stress, layer_int, layer_at. unfold seqa at 1. cbn [new_sim snd s_layers].
      destruct (pynth ls i); reflexivity. }
    unfold seqa at 1 2. rewrite !hs, pynth_end. destruct (pynth ls _); [|reflexivity].
    unfold seqa at 1 4. rewrite hf. reflexivity.
Qed.
End Negative.

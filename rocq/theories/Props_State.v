(** Histories of calls: caching, reset, sharing of layers, copies, dictionaries
    (properties C15 to C19). *)
From Coq Require Import Reals ZArith String List Lra.
From mathcomp Require Import all_ssreflect all_algebra.
From mathcomp Require Import complex.
From Verif Require Init_Model Dict_Model Dict_Proofs Lattice_Model.
From Verif Require Import State_Model State_Spec State_Proofs State_World State_Stack State_Extra State_Negative.
From Verif Require Import RStruct Cplx Base Fourier_Model Sim_Model Setup_Model Orders_Model.
From Verif Require Import Optics_Spec Energy_Proofs3 Orders_Proofs Fresnel_Proofs Aniso_Proofs Demo_Proofs.
From Verif Require Import State_Instance State_Instance2 Props_Optics.

Set Implicit Arguments.
Unset Strict Implicit.
Unset Printing Implicit Defensive.

Import Order.TTheory GRing.Theory Num.Theory.
Local Open Scope ring_scope.
Local Open Scope complex_scope.

Section Props.
Variables (Nx Ny nh : nat).
Variable eig : forall m, 'M[C]_m -> 'rV[C]_m * 'M[C]_m.
Notation E := (eps_t Nx Ny).
Notation T := (option R).
Notation n2 := (nh + nh)%N.
Notation Pat := ('M[C]_n2 * 'M[C]_nh)%type.
Notation Q := 'M[C]_n2.
Notation G := ('rV[C]_n2 * 'M[C]_n2)%type.
Notation param := (param Nx Ny nh).
Notation layers_heap := (heap T E Pat Q G).
Notation world := (world param T E Pat Q G (smat nh)).
Notation op := (op param T E R).
Notation ask := (@i_ask Nx Ny nh eig).
Notation exec := (@i_exec Nx Ny nh eig).
Notation run := (@i_run Nx Ny nh eig).
Notation usable := (usable (@i_unif Nx Ny)).
Notation OAsk := (OAsk param T E).
Notation ONew := (ONew T E R).
Notation OReset := (OReset param T E R).
Notation OThick := (OThick param E R).
Notation OEps := (OEps param T R).
Notation OCopy := (OCopy param T E R).
Notation QS := (QS R).
Notation QEff := (QEff R).
Notation QSolve := (QSolve R).
Notation AS := (@AS (smat nh) (amp nh) (effs nh) (fields nh) (R * R * R)%type (vec3 nh * vec3 nh)%type).
Notation AEff := (@AEff (smat nh) (amp nh) (effs nh) (fields nh) (R * R * R)%type (vec3 nh * vec3 nh)%type).
Notation AField := (@AField (smat nh) (amp nh) (effs nh) (fields nh) (R * R * R)%type (vec3 nh * vec3 nh)%type).

Notation healthy := (@healthy param T E Pat Q G (smat nh) (@i_unif Nx Ny) (@i_build_u Nx Ny nh) (@i_build_p Nx Ny nh)
  (@i_modes_u Nx Ny nh) (@i_modes_p nh eig) (@i_S0 Nx Ny nh) (@i_step Nx Ny nh)).

(** The answer of a newly built simulation to the single call [q]. *)
Definition fresh (h : layers_heap) (p : param) (ls : seq nat) (q : query R) :=
  snd (ask q (h, new_sim (smat nh) p ls)).

(** ** C15 *)
(** Any series of calls on a new simulation: every answer is that of a new
    simulation asked this one thing. *)
Theorem C15_cache_transparent (w : world) k p ls (qs : seq (query R)) :
  usable (w_heap w) ls ->
  snd (run (ONew k p ls :: List.map (OAsk k) qs) w) =
  None :: List.map (fun q => Some (fresh (w_heap w) p ls q)) qs.
Proof. exact: new_asks. Qed.

(** and that answer is the one of the numerical model without state. *)
Theorem C15_numbers (h : layers_heap) ls (pw : planewave) rec hm form i0 p :
  usable h ls -> mk_param pw rec hm form i0 (data h ls) = Ok p ->
  let layers := List.map (@as_layer Nx Ny) (data h ls) in
  fresh h p ls QEff = rmap AEff (run_efficiencies eig pw rec hm form layers i0) /\
  (forall k z, (k < length ls)%coq_nat ->
     fresh h p ls (QField (Z.of_nat k) z) = rmap AField (run_field eig pw rec hm form layers i0 k z)) /\
  fresh h p ls (QS None) =
    rmap AS (let! st := solve_stack eig pw rec hm form (p_e0 p) layers in smatrix st).
Proof.
move=> U hp layers; rewrite /fresh /i_ask.
split; [|split].
- by rewrite fresh_answer //= (eff_run eig hp).
- move=> k z hk; rewrite fresh_answer //; cbn [answer_spec].
  by rewrite (field_run eig z hp) // -length_size /data map_length; apply/ssrnat.ltP.
- rewrite fresh_answer //; cbn [answer_spec]; rewrite full_ok.
  have [ew [er [eh ef]]] : p_pw p = pw /\ p_rec p = rec /\ p_h p = hm /\ p_form p = form.
    move: hp; rewrite /mk_param; case: (data h ls) => [|x d] //; case: scalar_eps => [e0|] //; cbn [bind].
    by case: pw_a0 => [a|] // [<-].
  by rewrite -stack_as ew er eh ef.
Qed.

(** ** C16 *)
(** reset() in any state whatever: the later answers are those of a simulation with
    the same parameters solved anew on the layers as they now are. *)
Theorem C16_reset_all (w : world) k (qs : seq (query R)) :
  usable (w_heap w) (s_layers (w_sims w k)) ->
  snd (run (OReset k RAll :: List.map (OAsk k) qs) w) =
  None :: List.map (fun q => Some (fresh (w_heap w) (s_par (w_sims w k)) (s_layers (w_sims w k)) q)) qs.
Proof. by move=> U; exact: reset_asks. Qed.

(** Changes of thickness: reset('S') is enough. *)
Theorem C16_reset_S (w : world) k p ls (qs qs' : seq (query R)) (ts : seq (nat * T)) :
  usable (w_heap w) ls ->
  let w1 := fst (run (ONew k p ls :: List.map (OAsk k) qs) w) in
  let w2 := fst (run (List.map (fun x => OThick (fst x) (snd x)) ts) w1) in
  snd (run (OReset k RS :: List.map (OAsk k) qs') w2) =
  None :: List.map (fun q => Some (fresh (w_heap w2) p ls q)) qs'.
Proof.
move=> U w1 w2.
have H : healthy k p ls w1 by exact: healthy_new_asks.
by rewrite /w2 /i_run run_thicks; exact: reset_S_asks.
Qed.

(** Changes of thickness or permittivity without reset: the S matrix and the
    efficiencies are still the old ones. *)
Theorem C16_no_reset (w : world) k (os : seq op) q r :
  q = QS None \/ q = QEff -> snd (exec (OAsk k q) w) = Some (Ok r) ->
  List.Forall (fun o => (exists a t, o = OThick a t) \/ (exists a e, o = OEps a e)) os ->
  let w1 := fst (exec (OAsk k q) w) in
  snd (exec (OAsk k q) (fst (run os w1))) = Some (Ok r).
Proof.
move=> hq A F w1.
have F' : Forall (@is_edit param T E R) os.
  by elim: F => [|o t [[a [x ->]]|[a [x ->]]] _ IH]; constructor.
have runE : forall os w, fst (run os w) = fold_left (@edit param T E Pat Q G (smat nh) (amp nh) (effs nh) R (fields nh) (R * R * R)
  (vec3 nh * vec3 nh) (@i_unif Nx Ny) (@i_build_u Nx Ny nh) (@i_build_p Nx Ny nh) (@i_modes_u Nx Ny nh)
  (@i_modes_p nh eig) (@i_S0 Nx Ny nh) (@i_step Nx Ny nh) (@i_amp0 Nx Ny nh) (@i_ampN Nx Ny nh) (@i_ampI Nx Ny nh)
  (@i_eff Nx Ny nh) (@i_fld Nx Ny nh) (@i_str Nx Ny nh) (@i_cx Nx Ny nh) 0%Re) os w.
  by elim=> [|o t IH] w' //; rewrite /i_run run_cons -/(i_run _ _) /= -IH.
rewrite runE /w1 => {w1}; case: hq A => -> A.
- have [x ex] : exists x, r = AS x.
    move: A; rewrite /i_exec /State_Model.exec /= /amap /seqa.
    by case: (get_S _ _ _ _ _ _ _ _ _) => [[h1 m1] [y|]] //= [<-]; exists y.
  by rewrite ex in A *; exact: stale_S.
- have [x ex] : exists x, r = AEff x.
    move: A; rewrite /i_exec /State_Model.exec /= /amap /seqa.
    by case: (State_Model.efficiencies _ _ _ _ _ _ _ _ _) => [[h1 m1] [y|]] //= [<-]; exists y.
  by rewrite ex in A *; exact: stale_eff.
Qed.

(** reset() does not recompute what __init__ took from the superstrate: with another
    superstrate the efficiencies are not those of a new simulation (normal incidence,
    [e0] at construction, [e1] now). *)
Theorem C57_superstrate_refuted (w : world) k (pw : planewave) rec hm form i0 (e0 e1 : R) t0 d0 t d r :
  usable (w_heap w) (s_layers (w_sims w k)) ->
  (0 < cos (pw_theta pw))%Re -> sin (pw_theta pw) = 0%Re -> (0 < e0)%Re -> (0 < e1)%Re ->
  mk_param pw rec hm form i0 ((t0, EpsUniform Nx Ny (rc e0)) :: d0) = Ok (s_par (w_sims w k)) ->
  data (w_heap w) (s_layers (w_sims w k)) = (t, EpsUniform Nx Ny (rc e1)) :: d ->
  run_efficiencies eig pw rec hm form (List.map (@as_layer Nx Ny) ((t, EpsUniform Nx Ny (rc e1)) :: d)) i0 = Ok r ->
  snd (run [:: OReset k RAll; OAsk k QEff] w) =
    [:: None; Some (Ok (AEff (scale_effs (Num.sqrt e0 / Num.sqrt e1)%Re r)))].
Proof.
move=> U c sn e0p e1p hp hd hr.
rewrite (C16_reset_all [:: QEff] U) /=; congr [:: _; Some _].
rewrite /fresh /i_ask fresh_answer //; cbn [answer_spec].
by rewrite hd (superstrate_run c sn e0p e1p hp hr).
Qed.

(** With the superstrate as it was, the answers are those of a simulation newly
    constructed from the layers. *)
Theorem C57_reset_partial (w : world) k (pw : planewave) rec hm form i0 p x0 d0 x d (qs : seq (query R)) :
  usable (w_heap w) (s_layers (w_sims w k)) ->
  mk_param pw rec hm form i0 (x0 :: d0) = Ok (s_par (w_sims w k)) ->
  data (w_heap w) (s_layers (w_sims w k)) = x :: d -> scalar_eps (snd x) = scalar_eps (snd x0) ->
  mk_param pw rec hm form i0 (x :: d) = Ok p ->
  snd (run (OReset k RAll :: List.map (OAsk k) qs) w) =
  None :: List.map (fun q => Some (fresh (w_heap w) p (s_layers (w_sims w k)) q)) qs.
Proof.
move=> U h0 hd hx hp; rewrite C16_reset_all //.
have <- // : p = s_par (w_sims w k).
by move: h0 hp; rewrite /mk_param hx => -> [].
Qed.

(** ** C17 *)
(** Whatever the program does elsewhere - other simulations on other layers, edits of
    other layers - the answers of simulation [k] are those it gives alone. *)
Definition elsewhere (k : nat) (ls : seq nat) (o : op) (w : world) : Prop :=
  match o with
  | State_Model.OAsk j _ => j = k \/ forall a, List.In a (s_layers (w_sims w j)) -> ~ List.In a ls
  | State_Model.OReset _ _ => True
  | State_Model.OThick a _ | State_Model.OEps a _ | State_Model.OLayerReset a => ~ List.In a ls
  | State_Model.OCopy _ c => ~ List.In c ls
  | State_Model.ONew j _ _ => j <> k
  end.
Fixpoint all_elsewhere (k : nat) (ls : seq nat) (os : seq op) (w : world) : Prop :=
  match os with
  | [::] => True
  | o :: t => elsewhere k ls o w /\ all_elsewhere k ls t (fst (exec o w))
  end.

Lemma elsewhere_apart k ls os w : all_elsewhere k ls os w ->
  @all_apart param T E Pat Q G (smat nh) (amp nh) (effs nh) R (fields nh) (R * R * R)
  (vec3 nh * vec3 nh) (@i_unif Nx Ny) (@i_build_u Nx Ny nh) (@i_build_p Nx Ny nh) (@i_modes_u Nx Ny nh)
  (@i_modes_p nh eig) (@i_S0 Nx Ny nh) (@i_step Nx Ny nh) (@i_amp0 Nx Ny nh) (@i_ampN Nx Ny nh) (@i_ampI Nx Ny nh)
  (@i_eff Nx Ny nh) (@i_fld Nx Ny nh) (@i_str Nx Ny nh) (@i_cx Nx Ny nh) 0%Re k ls os w.
Proof.
elim: os w => [|o t IH] w //; cbn [all_elsewhere all_apart] => -[A1 A2].
by split; [case: o A1 {A2 IH}|exact: IH A2].
Qed.

Theorem C17_isolated_partial (w : world) k p ls (os : seq op) i q :
  usable (w_heap w) ls -> w_sims w k = new_sim (smat nh) p ls ->
  all_elsewhere k ls os w -> List.nth_error os i = Some (OAsk k q) ->
  List.nth_error (snd (run os w)) i = Some (Some (fresh (w_heap w) p ls q)).
Proof.
move=> U es A hi; rewrite /fresh /i_ask fresh_answer //.
have H : healthy k p ls w by constructor=> //; rewrite es; exact: good_new.
have A' := elsewhere_apart A.
have [_ [_ X]] := @history _ _ _ _ _ _ _ _ _ _ _ _ _ _ _ _ _ _ _ _ _ _ _ _ _ _ _ _ k p ls os w H A'.
exact: (X i q hi).
Qed.

(** Two simulations at different wavelengths sharing their layers: after the second
    has computed, the first - solved before - answers with the second's efficiencies
    scaled by the ratio of the wavelengths. *)
Theorem C17_shared_refuted (pw0 pw1 : planewave) rec hm form i0 (h : layers_heap) ls p0 p1 r0 r1 :
  usable h ls ->
  pw_theta pw0 = pw_theta pw1 -> pw_phi pw0 = pw_phi pw1 -> pw_psi pw0 = pw_psi pw1 ->
  (0 < pw_lambda pw0)%Re -> (0 < pw_lambda pw1)%Re -> (0 < cos (pw_theta pw0))%Re ->
  mk_param pw0 rec hm form i0 (data h ls) = Ok p0 -> mk_param pw1 rec hm form i0 (data h ls) = Ok p1 ->
  run_efficiencies eig pw0 rec hm form (List.map (@as_layer Nx Ny) (data h ls)) i0 = Ok r0 ->
  run_efficiencies eig pw1 rec hm form (List.map (@as_layer Nx Ny) (data h ls)) i0 = Ok r1 ->
  forall w : world, w_heap w = h -> w_sims w 0 = new_sim (smat nh) p0 ls -> w_sims w 1 = new_sim (smat nh) p1 ls ->
  fresh h p0 ls QEff = Ok (AEff r0) /\
  snd (run [:: OAsk 0 QSolve; OAsk 1 QEff; OAsk 0 QEff] w) =
  [:: Some (Ok (ADone _ _ _ _ _ _)); Some (Ok (AEff r1));
      Some (Ok (AEff (scale_effs (pw_lambda pw0 / pw_lambda pw1)%Re r1)))].
Proof.
move=> U et ep es l0 l1 c hp0 hp1 hr0 hr1 w hh h0 h1.
split; first by rewrite /fresh /i_ask fresh_answer //=; rewrite (eff_run eig hp0) hr0.
rewrite -hh in U hp0 hp1 hr0 hr1.
have [A0 [A1 A2]] := shared_run h0 h1 U et ep es l0 l1 c hp0 hp1 hr0 hr1.
by rewrite /i_run !run_cons [snd (_, _)]/= A0 A1 A2.
Qed.

(** ** C19 *)
(** Stacks whose copies stand after their patterned originals: only thicknesses and
    permittivities matter, not which layers are copies. *)
Theorem C19_copies_partial (h h' : layers_heap) ls ls' p q :
  usable h ls -> usable h' ls' -> data h ls = data h' ls' -> fresh h p ls q = fresh h' p ls' q.
Proof. by move=> U U' D; rewrite /fresh /i_ask !fresh_answer // D. Qed.

(** One copy made, given another thickness and inserted anywhere below its original,
    against an independent layer of the same permittivity. *)
Theorem C19_one_copy_partial (w : world) (h2 : layers_heap) pre post a c t p q :
  usable (w_heap w) (pre ++ post) -> List.In a pre -> ~ List.In c (pre ++ post) ->
  i_unif (o_eps (w_heap w a)) = false ->
  (forall b, b <> c -> h2 b = w_heap w b) -> h2 c = LObj t (o_eps (w_heap w a)) None None None None ->
  let w1 := fst (run [:: OCopy a c; OThick c t] w) in
  fresh (w_heap w1) p (pre ++ c :: post) q = fresh h2 p (pre ++ c :: post) q.
Proof.
move=> U Ia Nc Pa H2 Hc w1.
have Wo b : b <> c -> w_heap w1 b = w_heap w b by move=> n; rewrite /w1 /= !upd_neq.
have Wc : w_heap w1 c = LObj t (o_eps (w_heap w a)) (Some a) (o_pat (w_heap w a)) (o_Q (w_heap w a)) (o_G (w_heap w a)).
  by rewrite /w1 /= !upd_eq.
apply: C19_copies_partial.
- by apply: (@usable_copy _ _ _ _ _ _ (w_heap w) _ pre post a c U) => //; rewrite Wc.
- by apply: (@usable_other _ _ _ _ _ _ (w_heap w) _ pre post c U Nc H2); rewrite Hc.
- have Tc : o_thick (w_heap w1 c) = t by rewrite Wc.
  have Ec : o_eps (w_heap w1 c) = o_eps (w_heap w a) by rewrite Wc.
  have Th : o_thick (h2 c) = t by rewrite Hc.
  have Eh : o_eps (h2 c) = o_eps (w_heap w a) by rewrite Hc.
  have D1 := data_copy _ _ _ _ Nc Wo Tc Ec.
  have D2 := data_copy _ _ _ _ Nc H2 Th Eh.
  by rewrite D1 D2.
Qed.

(** A copy of a uniform layer: every query on the whole stack raises AttributeError. *)
Theorem C19_uniform_refuted (h : layers_heap) pre c post b p q r :
  o_copy_of (h c) = Some b -> i_unif (o_eps (h b)) = true -> o_copy_of (h b) = None -> o_pat (h b) = None ->
  fresh h p pre QSolve = Ok r -> (q = QSolve \/ q = QEff \/ (exists ix, q = QS ix)) ->
  fresh h p (pre ++ c :: post) q = Err AttributeError.
Proof.
move=> hc hu hb hp hr hq.
have hq' : whole_stack q by case: hq => [->|[->|[ix ->]]].
have [u hu'] : exists u, snd (solve_all (@i_unif Nx Ny) (@i_build_u Nx Ny nh) (@i_build_p Nx Ny nh) (@i_modes_u Nx Ny nh)
  (@i_modes_p nh eig) p h pre) = Ok u.
  move: hr; rewrite /fresh /i_ask; cbn [State_Model.ask]; rewrite /amap /seqa /State_Model.solve /=.
  by case: (solve_all _ _ _ _ _ _ _ _) => h1 [u|] //= _; exists u.
apply: unsolvable_ask => //.
exact: (copy_uniform _ _ _ _ _ _ _ _ _ _ hc hu hb hp hu').
Qed.

(** A copy above its (not yet solved) original, too. *)
Theorem C19_above_refuted (h : layers_heap) c post b p q :
  o_copy_of (h c) = Some b -> o_pat (h b) = None -> (q = QSolve \/ q = QEff \/ (exists ix, q = QS ix)) ->
  fresh h p (c :: post) q = Err AttributeError.
Proof.
move=> hc hp hq.
apply: (@copy_unsolvable _ _ _ _ _ _ _ _ _ _ _ _ _ _ _ _ _ _ _ _ _ _ _ _ _ _ _ _ p h c b hc hp post) => //;
  by case: hq => [->|[->|[ix ->]]].
Qed.

(** ** C67 *)
(** The layer -1 is the last one for amplitudes, fields and stresses. *)
Theorem C67_last_partial (h : layers_heap) p ls z : (1 < length ls)%coq_nat ->
  let n := Z.of_nat (length ls) in
  fresh h p ls (QAmp R (-1)%Zc) = fresh h p ls (QAmp R (n - 1)%Zc) /\
  fresh h p ls (QField (-1)%Zc z) = fresh h p ls (QField (n - 1)%Zc z) /\
  fresh h p ls (QStress (-1)%Zc z) = fresh h p ls (QStress (n - 1)%Zc z).
Proof. exact: ask_last. Qed.

(** Any other negative id that get_layer accepts: the call solves the layers and
    then raises, whatever the structure. *)
Theorem C67_negative_refuted (h : layers_heap) p ls i z :
  (- Z.of_nat (length ls) <= i < -1)%Zc ->
  (exists a, Init_Model.pynth ls i = Ok a) /\
  let stopped r := match r with Ok _ => Err UnboundLocalError | Err e => Err e end in
  fresh h p ls (QAmp R i) = stopped (fresh h p ls QSolve) /\
  fresh h p ls (QField i z) = stopped (fresh h p ls QSolve) /\
  fresh h p ls (QStress i z) = stopped (fresh h p ls QSolve).
Proof. exact: ask_negative. Qed.
End Props.

Print Assumptions C15_cache_transparent.
Print Assumptions C15_numbers.
Print Assumptions C16_reset_all.
Print Assumptions C16_reset_S.
Print Assumptions C16_no_reset.
Print Assumptions C57_superstrate_refuted.
Print Assumptions C57_reset_partial.
Print Assumptions C17_isolated_partial.
Print Assumptions C17_shared_refuted.
Print Assumptions C19_copies_partial.
Print Assumptions C19_one_copy_partial.
Print Assumptions C19_uniform_refuted.
Print Assumptions C19_above_refuted.
Print Assumptions C67_last_partial.
Print Assumptions C67_negative_refuted.

(** ** C18 *)
Section Dictionaries.
Import Init_Model Dict_Model Dict_Proofs.
Variable A : Type.

(** What the property asks of the two returned dictionaries and of the table. *)
Theorem C18_transmission_partial (G : seq Lattice_Model.order) (R T : seq A) :
  List.NoDup G -> length R = length G -> length T = length G ->
  let table := new_outer (build_dict G) in
  let s0 := new_store (build_dict G) in
  (* return_dict=False: nothing changes *)
  eff_return table G false R T s0 = (s0, Ok (Arrays R T)) /\
  (* return_dict=True: the second dictionary is right *)
  exists s1 rd td, eff_return table G true R T s0 = (s1, Ok (Dicts A rd td)) /\
    forall k o t, List.nth_error G k = Some o -> List.nth_error T k = Some t ->
      look2 s1 td (fst o) (snd o) = Ok (VNum t).
Proof.
move=> nd lR lT table s0; split=> //.
by have [s1 [e1 [e2 _]]] := @dict_call A G R T nd lR lT; exists s1, table, table.
Qed.

(** The first dictionary holds T as well; afterwards lookups of any order give the
    transmitted efficiency instead of an index, get_order raises and so does a second
    call. *)
Theorem C18_dict_refuted (G : seq Lattice_Model.order) (R T : seq A) :
  List.NoDup G -> G <> [::] -> length R = length G -> length T = length G ->
  let table := new_outer (build_dict G) in
  let s0 := new_store (build_dict G) in
  (forall k o, List.nth_error G k = Some o -> order_index table s0 o = Ok (VIdx k)) /\
  exists s1 rd td, eff_return table G true R T s0 = (s1, Ok (Dicts A rd td)) /\
  (forall k o t, List.nth_error G k = Some o -> List.nth_error T k = Some t ->
     look2 s1 rd (fst o) (snd o) = Ok (VNum t) /\ order_index table s1 o = Ok (VNum t)) /\
  (forall v o, List.In o G -> get_order table s1 v o = Err IndexError) /\
  (forall R' T', snd (eff_return table G true R' T' s1) = Err IndexError).
Proof.
move=> nd ne lR lT table s0; split; first by move=> k o ho; exact: new_look.
have [s1 [e1 [e2 [e3 e4]]]] := @dict_call A G R T nd lR lT; exists s1, table, table.
split=> //; split; first by move=> k o t ho ht; split; exact: (e2 k o t ho ht).
by split=> //; exact: e3.
Qed.

(** complex=True with more than three orders: R and T then have one row per
    component, and the call raises. *)
Theorem C18_complex_refuted (G : seq Lattice_Model.order) (R T : seq A) :
  List.NoDup G -> (3 < length G)%coq_nat -> length R = 3%N -> length T = 3%N ->
  snd (eff_return (new_outer (build_dict G)) G true R T (new_store (build_dict G))) = Err IndexError.
Proof. by move=> nd lG lR lT; apply: dict_complex => //; rewrite lT. Qed.
End Dictionaries.
Print Assumptions C18_transmission_partial.
Print Assumptions C18_dict_refuted.
Print Assumptions C18_complex_refuted.

Example C18_case : let G := [:: (0, 0); (-1, 0); (1, 0)]%Zc in
  let R := [:: 10; 11; 12]%N in let T := [:: 20; 21; 22]%N in
  let d := Init_Model.build_dict G in
  match Dict_Model.eff_return (Dict_Model.new_outer d) G true R T (Dict_Model.new_store d) with
  | (s1, Ok (Dict_Model.Dicts rd td)) =>
      Dict_Model.look2 s1 rd (-1)%Zc 0%Zc = Ok (Dict_Model.VNum 21%N) /\
      Dict_Model.get_order (Dict_Model.new_outer d) s1 R (0%Zc, 0%Zc) = Err IndexError
  | _ => False
  end.
Proof. by []. Qed.

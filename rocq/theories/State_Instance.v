(** The state model of State_Model run on the numerical functions of Sim_Model. *)
From Coq Require Import Reals ZArith String List.
From mathcomp Require Import all_ssreflect all_algebra.
From mathcomp Require Import complex.
From Verif Require Init_Model.
From Verif Require Import State_Model State_Spec State_Proofs State_World State_Stack.
From Verif Require Import RStruct Cplx Base Fourier_Model Sim_Model Setup_Model Orders_Model.

Set Implicit Arguments.
Unset Strict Implicit.
Unset Printing Implicit Defensive.

Import Order.TTheory GRing.Theory Num.Theory.
Local Open Scope ring_scope.
Local Open Scope complex_scope.

Section Instance.
Variables (Nx Ny nh : nat).
Variable eig : forall m, 'M[C]_m -> 'rV[C]_m * 'M[C]_m.
Notation n2 := (nh + nh)%N.

(** What Simulation.__init__ fixes: the plane wave, the reciprocal lattice, the
    harmonics, the formulation, the permittivity [self.layers[0].epsilon] at
    construction (simulation.py:108-117), the index of the zeroth order and the
    incident pair. *)
Record param := Param {
  p_pw : planewave; p_rec : 'M[R]_2; p_h : 'I_nh -> order; p_form : formulation_t Nx Ny;
  p_e0 : C; p_i0 : 'I_nh; p_a : R * R }.
Definition p_omega (p : param) : R := sim_omega (p_pw p).
Definition p_kx (p : param) := sim_kx (p_pw p) (p_rec p) (p_h p) (p_e0 p).
Definition p_ky (p : param) := sim_ky (p_pw p) (p_rec p) (p_h p) (p_e0 p).
Definition p_a0 (p : param) : 'cV[C]_n2 := sim_a0 (p_i0 p) (p_a p).
Definition p_flux (p : param) : R := incident_flux (p_pw p) (p_e0 p).

Notation E := (eps_t Nx Ny).
Notation T := (option R).
Notation Pat := ('M[C]_n2 * 'M[C]_nh)%type.        (* matrix, eps_hat *)
Notation Q := 'M[C]_n2.
Notation G := ('rV[C]_n2 * 'M[C]_n2)%type.
Notation view := (view T E Pat Q G).

(** layers.py:245, helpers.py:59-65 *)
Definition i_unif (e : E) : bool :=
  match e with EpsUniform _ | EpsTensorUniform _ => true | _ => false end.

Definition i_build (p : param) (e : E) : res (built nh) :=
  build_matrix (p_omega p) (p_kx p) (p_ky p) (p_h p) (p_form p) 1 e.
Definition i_build_u (p : param) (e : E) : res Q :=
  let! b := i_build p e in Ok (bt_Qeps b).
Definition i_build_p (p : param) (e : E) : res (Pat * Q) :=
  let! b := i_build p e in
  match bt_matrix b, bt_eps_hat b with
  | Some m, Some eh => Ok ((m, eh), bt_Qeps b)
  | _, _ => Err AttributeError
  end.
(** layers.py:119-174 *)
Definition i_modes_u (p : param) (e : E) : res G :=
  match e with
  | EpsUniform e => Ok (uniform_q (p_omega p) (p_kx p) (p_ky p) e 1, 1%:M)
  | _ => Err NotImplementedError
  end.
(** layers.py:176-213 *)
Definition i_modes_p (m : Pat) : res G := Ok (eigen_q eig m.1, eigen_phi eig m.1).

(** The modes of a layer: all that the S matrix and the flux read. *)
Definition slayer_modes (v : view) : res (slayer nh) :=
  match v_Q v, v_G v with
  | Some q, Some g => Ok (SLayer (v_thick v) g.1 g.2 q (inl 0))
  | _, _ => Err AttributeError
  end.
(** The field also needs epsilon or eps_hat (simulation.py:319-323). *)
Definition slayer_full (v : view) : res (slayer nh) :=
  let! l := slayer_modes v in
  match v_eps v, v_pat v with
  | EpsUniform e, _ => Ok (SLayer (sl_thick l) (sl_q l) (sl_phi l) (sl_Qeps l) (inl e))
  | EpsTensorUniform _, _ => Err NotImplementedError
  | _, Some m => Ok (SLayer (sl_thick l) (sl_q l) (sl_phi l) (sl_Qeps l) (inr m.2))
  | _, None => Err AttributeError
  end.

Definition i_step (p : param) (v v' : view) (x : smat nh) : res (smat nh) :=
  let! l := slayer_modes v in let! l' := slayer_modes v' in smat_step l l' x.
Definition i_amp0 (p : param) (x : smat nh) : amp nh := (p_a0 p, (solve_ext x (p_a0 p) 0).2).
Definition i_ampN (p : param) (x : smat nh) : amp nh := ((solve_ext x (p_a0 p) 0).1, 0).
Definition i_ampI (p : param) (x y : smat nh) : res (amp nh) := solve_int x y (p_a0 p).
(** simulation.py:473-478 *)
Definition i_eff (p : param) (v v' : view) (x : smat nh) : res (effs nh) :=
  let! l0 := slayer_modes v in
  let! lN := slayer_modes v' in
  if ~~ (q_ok l0 && q_ok lN) || (rc (p_omega p) == 0) then Err NaN else
  let w := solve_ext x (p_a0 p) 0 in
  let bwd_in := (poynting (p_omega p) l0 (p_a0 p) w.2).2 in
  let fwd_out := (poynting (p_omega p) lN w.1 0).1 in
  if (p_flux p == 0) then Err NaN else
  Ok (map_mx (fun x => - x / p_flux p) bwd_in, map_mx (fun x => x / p_flux p) fwd_out).
Definition i_fld (p : param) (v : view) (z : R) (w : amp nh) : res (fields nh) :=
  let! l := slayer_full v in
  let! w' := translate l z w in
  field_of (p_omega p) (p_kx p) (p_ky p) l w'.
Definition i_str (p : param) (v : view) (F : fields nh) : res (R * R * R) :=
  let! l := slayer_full v in Ok (stress (p_omega p) (p_kx p) (p_ky p) l F).
(** simulation.py:494-516; the outer permittivities are those of the moment, the
    wavevectors those of construction. *)
Definition i_cx (p : param) (v v' : view) (Ft Fr : fields nh) : res (vec3 nh * vec3 nh) :=
  let! e0 := scalar_eps (v_eps v) in
  let! eN := scalar_eps (v_eps v') in
  if e0 != p_e0 p then Err NaN (* not modelled: superstrate changed after construction *)
  else
  let! nt := norma (p_pw p) (p_rec p) (p_h p) e0 (eN * 1) in
  let! nr := norma (p_pw p) (p_rec p) (p_h p) e0 (e0 * 1) in
  Ok (minus_inc (p_pw p) (p_i0 p) (scale3 nr Fr), scale3 nt Ft).

Definition i_S0 (p : param) : smat nh := smat_id nh.

Definition i_ask := @ask param T E Pat Q G (smat nh) (amp nh) (effs nh) R (fields nh) (R * R * R)
  (vec3 nh * vec3 nh) i_unif i_build_u i_build_p i_modes_u i_modes_p i_S0 i_step i_amp0 i_ampN i_ampI
  i_eff i_fld i_str i_cx 0%Re.
Definition i_answer := @answer_spec param T E Pat Q G (smat nh) (amp nh) (effs nh) R (fields nh)
  (R * R * R) (vec3 nh * vec3 nh) i_unif i_build_u i_build_p i_modes_u i_modes_p i_S0 i_step i_amp0
  i_ampN i_ampI i_eff i_fld i_str i_cx 0%Re.
Definition i_exec := @exec param T E Pat Q G (smat nh) (amp nh) (effs nh) R (fields nh) (R * R * R)
  (vec3 nh * vec3 nh) i_unif i_build_u i_build_p i_modes_u i_modes_p i_S0 i_step i_amp0 i_ampN i_ampI
  i_eff i_fld i_str i_cx 0%Re.
Definition i_run := @run param T E Pat Q G (smat nh) (amp nh) (effs nh) R (fields nh) (R * R * R)
  (vec3 nh * vec3 nh) i_unif i_build_u i_build_p i_modes_u i_modes_p i_S0 i_step i_amp0 i_ampN i_ampI
  i_eff i_fld i_str i_cx 0%Re.

(** ------------------------------------------------------------------ *)
(** * The specification of the state model is the cache-free model *)

Notation i_view := (@solved_view param T E Pat Q G i_unif i_build_u i_build_p i_modes_u i_modes_p).
Notation i_views := (@solved_views param T E Pat Q G i_unif i_build_u i_build_p i_modes_u i_modes_p).
Notation i_between := (@S_between param T E Pat Q G (smat nh) i_unif i_build_u i_build_p i_modes_u
  i_modes_p i_S0 i_step).

Definition p_solve (p : param) (x : T * E) : res (slayer nh) :=
  solve_layer eig (p_omega p) (p_kx p) (p_ky p) (p_h p) (p_form p) x.1 1 x.2.

Lemma solved_view_full p x :
  p_solve p x = let! v := i_view p x in slayer_full v.
Proof.
case: x => t e; rewrite /p_solve /solve_layer /solved_view /i_build_u /i_build_p /i_build /=.
case: e => [e|u|u|e] /=; last by [].
- by case: (e == 0).
- case: get_toeplitz => //= eh; case: linv => //= ehi.
  by case: (match p_form p with Original => _ | _ => _ end) => //= Pe; rewrite /assemble; case: (1 == 0).
- case: get_toeplitz => //= eh; case: linv => //= ehi; case: toeplitz_transverse => //= ep.
  by case: (match p_form p with Original => _ | _ => _ end) => //= Pe; rewrite /assemble; case: (1 == 0).
Qed.

(** A freshly solved view has both kinds of layer record. *)
Lemma solved_view_ok p x v : i_view p x = Ok v ->
  exists l, slayer_full v = Ok l /\
    slayer_modes v = Ok (SLayer (sl_thick l) (sl_q l) (sl_phi l) (sl_Qeps l) (inl 0)).
Proof.
case: x => t e; rewrite /solved_view /i_build_u /i_build_p /i_build /=.
case: e => [e|u|u|e] /=; last by [].
- by case: (e == 0) => //= -[<-] /=; eexists; split.
- case: get_toeplitz => //= eh; case: linv => //= ehi.
  case: (match p_form p with Original => _ | _ => _ end) => //= Pe; rewrite /assemble; case: (1 == 0) => //=.
  by move=> [<-] /=; eexists; split.
- case: get_toeplitz => //= eh; case: linv => //= ehi; case: toeplitz_transverse => //= ep.
  case: (match p_form p with Original => _ | _ => _ end) => //= Pe; rewrite /assemble; case: (1 == 0) => //=.
  by move=> [<-] /=; eexists; split.
Qed.

(** Views and the layer records of Sim_Model side by side. *)
Definition shows (v : view) (l : slayer nh) : Prop :=
  slayer_full v = Ok l /\
  slayer_modes v = Ok (SLayer (sl_thick l) (sl_q l) (sl_phi l) (sl_Qeps l) (inl 0)).

Definition p_stack (p : param) (d : seq (T * E)) : res (seq (slayer nh)) := mapr (p_solve p) d.

Lemma views_stack p d : match i_views p d with
  | Ok vs => exists2 ls, p_stack p d = Ok ls & Forall2 shows vs ls
  | Err e => p_stack p d = Err e
  end.
Proof.
rewrite /p_stack; elim: d => [|x d IH]; first by exists [::].
rewrite [mapr _ _]/= [i_views _ _]/= solved_view_full.
case E1: (i_view p x) => [v|e] /=; last by [].
have [l [F1 F2]] := solved_view_ok E1; rewrite F1 /=.
case: (i_views p d) IH => [vs|e] /=; last by move=> ->.
by case=> ls -> F; exists (l :: ls) => //; constructor.
Qed.

Lemma step_shows p v l v' l' x : shows v l -> shows v' l' -> i_step p v v' x = smat_step l l' x.
Proof. by move=> [_ F1] [_ F2]; rewrite /i_step F1 F2 /=; case: l F1 => *; case: l' F2. Qed.

Lemma vloop_shows p : forall vs ls, Forall2 shows vs ls -> forall x v l, shows v l ->
  vloop i_step p x v vs = smat_loop x l ls.
Proof.
move=> vs ls; elim=> [|v' l' vs' ls' H F IH] x v l Hv //=.
by rewrite (@step_shows p v l v' l' x Hv H); case: smat_step => //= y; exact: IH.
Qed.

Lemma F2_length A B (r : A -> B -> Prop) (s : seq A) (s' : seq B) : Forall2 r s s' -> size s = size s'.
Proof. by elim=> //= *; congr _.+1. Qed.

Lemma length_size A (s : seq A) : length s = size s.
Proof. by elim: s => //= a s ->. Qed.

(** [S_between] on positions inside the stack is [smatrix] of the sub-stack. *)
Lemma smatrix_loop (l : slayer nh) m (mid : seq (slayer nh)) :
  smatrix (l :: m :: mid) = smat_loop (smat_id nh) l (m :: mid).
Proof. by []. Qed.

Lemma between_ok p (d : seq (T * E)) ls vs : i_views p d = Ok vs -> Forall2 shows vs ls ->
  forall pre l mid post, ls = pre ++ l :: mid ++ post ->
  i_between p d (Z.of_nat (size pre)) (Z.of_nat (size pre) + Z.of_nat (size mid)) = smatrix (l :: mid).
Proof.
move=> Ev F pre l mid post els.
rewrite /S_between Ev; cbn [bind].
case: mid els => [|m mid] els.
  by rewrite /= Z.add_0_r Z.ltb_irrefl.
have -> : (Z.of_nat (size pre) <? Z.of_nat (size pre) + Z.of_nat (size (m :: mid)))%Zc = true.
  by apply/Z.ltb_lt; rewrite /=; Lia.lia.
rewrite smatrix_loop.
have [vpre [v [vmid [vpost [evs [s1 [Hv [F1 s2]]]]]]]] : exists vpre v vmid vpost,
  vs = vpre ++ v :: vmid ++ vpost /\ size vpre = size pre /\ shows v l /\ Forall2 shows vmid (m :: mid) /\
  size vmid = size (m :: mid).
  rewrite els in F; have [vpre [r1 [F1 [F2 ->]]]] := Forall2_app_inv_r _ _ F.
  inversion F2 as [|v ? r2 ? Hv F3]; subst.
  have [vmid [vpost [F4 [F5 ->]]]] := Forall2_app_inv_r (m :: mid) post F3.
  exists vpre, v, vmid, vpost; split=> //; split; first exact: F2_length F1.
  by split=> //; split=> //; exact: F2_length F4.
rewrite evs (@s_product_range _ _ _ _ _ _ _ i_step p vpre v vmid vpost) ?length_size ?s1 ?s2 //.
exact: vloop_shows.
Qed.

Lemma views_size p d vs : i_views p d = Ok vs -> size vs = size d.
Proof.
elim: d vs => [|x d IH] vs /=; first by case=> <-.
by case: (i_view p x) => //= v; case: (i_views p d) IH => //= r IH [<-] /=; rewrite (IH r).
Qed.

Lemma full_ok p d : @S_full param T E Pat Q G (smat nh) i_unif i_build_u i_build_p i_modes_u
  i_modes_p i_S0 i_step p d = let! ls := p_stack p d in smatrix ls.
Proof.
rewrite /S_full; have := views_stack p d.
case Ev: (i_views p d) => [vs|e]; last by rewrite /S_between Ev => ->.
case=> ls -> F /=.
have sz := views_size Ev; have sz2 := F2_length F.
rewrite /n length_size -sz sz2.
case: ls F sz2 => [|l ls] F sz2.
  by rewrite /S_between Ev.
have -> : (Z.of_nat (size (l :: ls)) - 1 = Z.of_nat (size ls))%Zc by rewrite -[size (l :: ls)]/(size ls).+1 Nat2Z.inj_succ; Lia.lia.
by rewrite -(@between_ok p d _ _ Ev F [::] l ls [::] _) ?cats0.
Qed.

(** Simulation.__init__ on layers with the data [d] (simulation.py:107-151). *)
Definition mk_param (pw : planewave) (rec : 'M[R]_2) (h : 'I_nh -> order) (form : formulation_t Nx Ny)
  (i0 : 'I_nh) (d : seq (T * E)) : res param :=
  match d with
  | [::] => Err IndexError
  | x :: _ =>
      let! e0 := scalar_eps x.2 in
      let! a := pw_a0 pw in
      Ok (Param pw rec h form e0 i0 a)
  end.

Definition as_layer (x : T * E) : layer_in Nx Ny := LayerIn x.1 x.2.

Lemma stack_as p d : solve_stack eig (p_pw p) (p_rec p) (p_h p) (p_form p) (p_e0 p) (map as_layer d) = p_stack p d.
Proof. by rewrite /solve_stack /p_stack; elim: d => //= x d ->. Qed.

Notation i_eff_spec := (@eff_spec param T E Pat Q G (smat nh) (effs nh) i_unif i_build_u i_build_p
  i_modes_u i_modes_p i_S0 i_step i_eff).
Notation i_amp_spec := (@amp_spec param T E Pat Q G (smat nh) (amp nh) i_unif i_build_u i_build_p
  i_modes_u i_modes_p i_S0 i_step i_amp0 i_ampN i_ampI).
Notation i_field_spec := (@field_spec param T E Pat Q G (smat nh) (amp nh) R (fields nh) i_unif i_build_u
  i_build_p i_modes_u i_modes_p i_S0 i_step i_amp0 i_ampN i_ampI i_fld).

Lemma views_nth p d vs i : i_views p d = Ok vs ->
  Init_Model.pynth vs i = let! x := Init_Model.pynth d i in i_view p x.
Proof. exact: solved_views_pynth. Qed.

Lemma pynth_head A (a : A) s : Init_Model.pynth (a :: s) 0 = Ok a.
Proof. exact: (@pynth_app A [::] a s). Qed.
Lemma pynth_tail A (a : A) s : Init_Model.pynth (a :: s) (-1) = Ok (last a s).
Proof. by rewrite lastI -cats1; exact: pynth_last. Qed.

Lemma F2_last (v : view) (l : slayer nh) vs ls : shows v l -> Forall2 shows vs ls ->
  shows (last v vs) (last l ls).
Proof. by move=> H F; elim: F v l H => //= *; auto. Qed.

Lemma eff_shows p v l v' l' x : shows v l -> shows v' l' ->
  i_eff p v v' x =
  if ~~ (q_ok l && q_ok l') || (rc (p_omega p) == 0) then Err NaN else
  let w := solve_ext x (p_a0 p) 0 in
  let bwd_in := (poynting (p_omega p) l (p_a0 p) w.2).2 in
  let fwd_out := (poynting (p_omega p) l' w.1 0).1 in
  if (p_flux p == 0) then Err NaN else
  Ok (map_mx (fun x => - x / p_flux p) bwd_in, map_mx (fun x => x / p_flux p) fwd_out).
Proof. by move=> [_ F1] [_ F2]; rewrite /i_eff F1 F2; cbn [bind]; case: l F1 => *; case: l' F2. Qed.

Theorem eff_run p pw rec h form i0 d : mk_param pw rec h form i0 d = Ok p ->
  i_eff_spec p d = run_efficiencies eig pw rec h form (map as_layer d) i0.
Proof.
case: d => [|x d] //= H.
case Ee: (scalar_eps x.2) H => [e0|] //=; case Ea: (pw_a0 pw) => [a|] //= [<-].
set p' := Param _ _ _ _ _ _ _.
have := stack_as p' (x :: d); rewrite {1}/p' [map _ _]/= [p_pw _]/= [p_rec _]/= [p_h _]/= [p_form _]/= [p_e0 _]/= => ->.
rewrite /eff_spec full_ok.
have := views_stack p' (x :: d).
case Ev: (i_views p' (x :: d)) => [vs|e]; last by move=> ->.
case=> ls -> F; cbn [bind].
rewrite /efficiencies; case Es: (smatrix ls) => [Sm|e]; cbn [bind]; last by [].
have sz := views_size Ev.
case: vs Ev F sz => [|v vs] Ev F sz //.
case: ls F Es => [|l ls] F Es; first by inversion F.
have [Hv F'] : shows v l /\ Forall2 shows vs ls by inversion F.
rewrite !pynth_head pynth_tail; cbn [bind].
have := views_nth 0 Ev; rewrite !pynth_head; cbn [bind] => <-.
have := views_nth (-1) Ev; rewrite !pynth_tail; cbn [bind] => <-; cbn [bind].
by rewrite (eff_shows p' Sm Hv (F2_last Hv F')).
Qed.

Lemma fld_shows p v l z w : shows v l -> i_fld p v z w =
  let! w' := translate l z w in field_of (p_omega p) (p_kx p) (p_ky p) l w'.
Proof. by move=> [F1 _]; rewrite /i_fld F1. Qed.

Lemma F2_nth vs ls k v : Forall2 shows vs ls -> List.nth_error vs k = Some v ->
  exists2 l, List.nth_error ls k = Some l & shows v l.
Proof.
move=> F; elim: F k => [|v' l' vs' ls' H F IH] [|k] //=; last exact: IH.
by case=> <-; exists l'.
Qed.

Lemma pynth_nat A (s : seq A) k : (k < size s)%N ->
  Init_Model.pynth s (Z.of_nat k) = of_option IndexError (List.nth_error s k).
Proof.
move=> /ssrnat.ltP ks; rewrite /Init_Model.pynth /Init_Model.pyindex length_size.
have -> : ((0 <=? Z.of_nat k) && (Z.of_nat k <? Z.of_nat (size s)))%Zc = true.
  by apply/andP; split; [apply/Z.leb_le|apply/Z.ltb_lt]; Lia.lia.
by rewrite Nat2Z.id.
Qed.

Lemma nth_error_ex A (s : seq A) k : (k < size s)%N -> exists a, List.nth_error s k = Some a.
Proof. by elim: s k => // a s IH [|k] ks; [exists a|exact: IH]. Qed.

Lemma split_at A (s : seq A) k a : List.nth_error s k = Some a -> s = take k s ++ a :: drop k.+1 s.
Proof.
elim: s k => [|b s IH] [|k] //=; first by case=> <-; rewrite drop0.
by move/IH => {1}->.
Qed.

Lemma drop_at A (s : seq A) k a : List.nth_error s k = Some a -> drop k s = a :: drop k.+1 s.
Proof. by elim: s k => [|b s IH] [|k] //=; [case=> ->; rewrite drop0|exact: IH]. Qed.

Theorem amp_run p d ls k : p_stack p d = Ok ls -> (k < size d)%N ->
  i_amp_spec p d (Z.of_nat k) = get_amplitudes ls k (p_a0 p) 0.
Proof.
move=> Es kd; rewrite /amp_spec pynth_nat //.
have [xk ->] := nth_error_ex kd; cbn [bind of_option].
have := views_stack p d.
case Ev: (i_views p d) => [vs|e]; last by rewrite Es.
case=> ls'; rewrite Es => -[<-] {ls'} F.
have szv := views_size Ev; have szl := F2_length F.
have kl : (k < size ls)%N by rewrite -szl szv.
rewrite /get_amplitudes full_ok Es; cbn [bind].
have -> : (Z.of_nat k =? 0)%Zc = (k == 0%N).
  by case: k {kd kl} => [|k] //; apply/Z.eqb_neq; Lia.lia.
case: eqP => [//|k0].
have -> : ((Z.of_nat k =? n d - 1) || (Z.of_nat k =? -1))%Zc = (k == (size ls).-1).
  rewrite /n length_size -szv szl.
  have -> : (Z.of_nat k =? -1)%Zc = false by apply/Z.eqb_neq; Lia.lia.
  rewrite orbF; case: (size ls) kl => // m _.
  have -> : (Z.of_nat m.+1 - 1 = Z.of_nat m)%Zc by rewrite Nat2Z.inj_succ; Lia.lia.
  by apply/Z.eqb_spec/eqP => [/Nat2Z.inj|->].
case: eqP => [//|kN].
have [lk elk] := nth_error_ex kl.
have sd := split_at elk.
case: ls Es F szl kl kN elk sd => [|l0 rest] // Es F szl kl kN elk sd.
case: k k0 kd kl kN elk sd => [|k] // _ kd kl kN elk sd.
have e1 : i_between p d 0 (Z.of_nat k.+1) = smatrix (take k.+2 (l0 :: rest)).
  have := @between_ok p d _ _ Ev F [::] l0 (take k.+1 rest) (drop k.+1 rest) _.
  rewrite [size [::]]/= Z.add_0_l size_take_min.
  have -> : minn k.+1 (size rest) = k.+1 by apply/minn_idPl.
  by move=> -> //; rewrite /= cat_take_drop.
have e2 : i_between p d (Z.of_nat k.+1) (n d - 1) = smatrix (drop k.+1 (l0 :: rest)).
  rewrite (drop_at elk).
  have := @between_ok p d _ _ Ev F (take k.+1 (l0 :: rest)) lk (drop k.+2 (l0 :: rest)) [::] _.
  rewrite cats0 -sd size_take_min size_drop.
  have -> : minn k.+1 (size (l0 :: rest)) = k.+1 by apply/minn_idPl; rewrite ltnW.
  move=> <- //; congr (i_between p d _ _).
  rewrite /n length_size -szv szl -(subnKC kl) Nat2Z.inj_add.
  have -> : (k.+2 + (size (l0 :: rest) - k.+2) - k.+2)%N = (size (l0 :: rest) - k.+2)%N by rewrite addKn.
  by rewrite (Nat2Z.inj_succ k.+1); Lia.lia.
by rewrite e1 e2.
Qed.

Theorem field_run p pw rec h form i0 d k z : mk_param pw rec h form i0 d = Ok p -> (k < size d)%N ->
  i_field_spec p d (Z.of_nat k) z = run_field eig pw rec h form (map as_layer d) i0 k z.
Proof.
case: d => [|x d] // H kd; rewrite /= in H.
case Ee: (scalar_eps x.2) H => [e0|] //; case Ea: (pw_a0 pw) => [a|] // [<-].
set p' := Param _ _ _ _ _ _ _.
have -> : run_field eig pw rec h form (map as_layer (x :: d)) i0 k z =
    let! stack := p_stack p' (x :: d) in
    get_field_fourier (p_omega p') (p_kx p') (p_ky p') stack k (p_a0 p') 0 z.
  rewrite /run_field [map _ _]/=.
  have -> : li_eps (as_layer x) = x.2 by [].
  by rewrite Ee; cbn [bind]; rewrite Ea; cbn [bind]; rewrite -(stack_as p').
rewrite /field_spec (pynth_nat kd).
have [xk exk] := nth_error_ex kd; rewrite exk; cbn [of_option bind].
have := views_stack p' (x :: d).
case Ev: (i_views p' (x :: d)) => [vs|e]; last by move=> ->.
case=> ls Es F; rewrite Es; cbn [bind].
rewrite (amp_run Es kd) /get_field_fourier.
have szv := views_size Ev.
have kv : (k < size vs)%N by rewrite szv.
have [v ev] := nth_error_ex kv.
have [l el Hs] := F2_nth F ev; rewrite el.
have := views_nth (Z.of_nat k) Ev.
rewrite (pynth_nat kv) (pynth_nat kd) ev exk; cbn [of_option bind] => <-.
case: (get_amplitudes ls k (p_a0 p') 0) => [w|e]; cbn [bind]; last by [].
by rewrite (fld_shows p' z w Hs).
Qed.

Lemma name_index_lt nm names k : name_index nm names = Ok k -> (k < size names)%N.
Proof.
elim: names k => [|a s IH] k //=; case: String.eqb; first by case=> <-.
by case: (name_index nm s) IH => //= j IH [<-]; exact: IH.
Qed.

Notation i_cx_spec := (@cx_spec param T E Pat Q G (smat nh) (amp nh) R (fields nh) (vec3 nh * vec3 nh)
  i_unif i_build_u i_build_p i_modes_u i_modes_p i_S0 i_step i_amp0 i_ampN i_ampI i_fld i_cx 0%Re).

Lemma view_eps p x v : i_view p x = Ok v -> v_eps v = x.2.
Proof.
case: x => t e; rewrite /solved_view /=; case: (i_unif e).
  by case: i_build_u => //= q; case: i_modes_u => //= g [<-].
by case: i_build_p => //= mq [<-].
Qed.

Lemma views_all p d vs i x : i_views p d = Ok vs -> Init_Model.pynth d i = Ok x ->
  exists v, i_view p x = Ok v.
Proof. by move=> Ev ix; have ix' := @pynth_in _ _ _ _ ix; exact: solved_views_in Ev ix'. Qed.

Theorem cx_run p pw rec h form i0 d names kN k0 r : mk_param pw rec h form i0 d = Ok p ->
  size names = size d ->
  name_index "Substrate"%string names = Ok kN -> name_index "Superstrate"%string names = Ok k0 ->
  (i_cx_spec p d kN k0 = Ok r -> run_complex eig pw rec h form names (map as_layer d) i0 = Ok r) /\
  (k0 = 0%N -> run_complex eig pw rec h form names (map as_layer d) i0 = Ok r -> i_cx_spec p d kN k0 = Ok r).
Proof.
move=> Hp sn HN H0.
have kNd : (kN < size d)%N by rewrite -sn; exact: name_index_lt HN.
have k0d : (k0 < size d)%N by rewrite -sn; exact: name_index_lt H0.
have FN := field_run 0%Re Hp kNd; have F0 := field_run 0%Re Hp k0d.
rewrite /cx_spec.
have fullE : forall F, i_field_spec p d (Z.of_nat 0) 0%Re = Ok F -> exists x,
   @S_full param T E Pat Q G (smat nh) i_unif i_build_u i_build_p i_modes_u
     i_modes_p i_S0 i_step p d = Ok x.
  move=> F; rewrite /field_spec /amp_spec /=.
  case: (Init_Model.pynth d 0) => //= x; case: (i_views p d) => //= _.
  by case: S_full => //= y _; exists y.
have vN : forall F, i_field_spec p d (Z.of_nat kN) 0%Re = Ok F -> exists vs, i_views p d = Ok vs.
  move=> F; rewrite /field_spec; case: Init_Model.pynth => //= x; case: (i_views p d) => //= vs _.
  by exists vs.
case: d Hp sn kNd k0d FN F0 fullE vN => [|x d] // Hp sn kNd k0d FN F0 fullE vN.
have Hp' := Hp; rewrite /= in Hp.
case Ee: (scalar_eps x.2) Hp => [e0|] //; case Ea: (pw_a0 pw) => [a|] // [ep].
have ee : p_e0 p = e0 by rewrite -ep.
have runE : run_complex eig pw rec h form names (map as_layer (x :: d)) i0 =
    let! eN := scalar_eps (last x d).2 in
    let! nt := norma pw rec h e0 (eN * 1) in
    let! nr := norma pw rec h e0 (e0 * 1) in
    let! Ft := i_field_spec p (x :: d) (Z.of_nat kN) 0%Re in
    let! Fr := i_field_spec p (x :: d) (Z.of_nat k0) 0%Re in
    Ok (minus_inc pw i0 (scale3 nr Fr), scale3 nt Ft).
  rewrite FN F0 /run_complex [map _ (x :: d)]/= HN H0.
  have -> : last (as_layer x) (map as_layer d) = as_layer (last x d) by rewrite last_map.
  have le y : li_eps (as_layer y) = y.2 by [].
  by rewrite !le Ee; cbn [bind].
rewrite runE pynth_head pynth_tail; cbn [bind].
split.
- case: S_full => [y|] //; cbn [bind].
  case EN: (i_field_spec _ _ (Z.of_nat kN) _) => [Ft|] //; cbn [bind].
  case E0: (i_field_spec _ _ (Z.of_nat k0) _) => [Fr|] //; cbn [bind].
  have [vs Ev] := vN Ft EN.
  have [v Hv] := views_all Ev (pynth_head x d); rewrite Hv; cbn [bind].
  have [v' Hv'] := views_all Ev (pynth_tail x d); rewrite Hv'; cbn [bind].
  rewrite /i_cx (view_eps Hv) (view_eps Hv') Ee; cbn [bind].
  case: (scalar_eps (last x d).2) => //= eN.
  by rewrite ee eqxx -ep.
- move=> kz; rewrite kz.
  case EeN: (scalar_eps (last x d).2) => [eN|] //; cbn [bind].
  case nt1: (norma _ _ _ _ (eN * 1)) => [nt|] //; cbn [bind].
  case nr1: (norma _ _ _ _ (e0 * 1)) => [nr|] //; cbn [bind].
  case EN: (i_field_spec _ _ (Z.of_nat kN) _) => [Ft|] //; cbn [bind].
  case E0: (i_field_spec _ _ (Z.of_nat 0) _) => [Fr|] //; cbn [bind].
  move=> [<-].
  have [y ->] := fullE Fr E0; cbn [bind].
  have [vs Ev] := vN Ft EN.
  have [v Hv] := views_all Ev (pynth_head x d); rewrite Hv; cbn [bind].
  have [v' Hv'] := views_all Ev (pynth_tail x d); rewrite Hv'; cbn [bind].
  rewrite /i_cx (view_eps Hv) (view_eps Hv') Ee EeN; cbn [bind].
  by rewrite ee eqxx -ep /= nt1 nr1.
Qed.
End Instance.

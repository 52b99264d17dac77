(** Once the constructor has accepted its arguments only numerical failures remain. *)
From Coq Require Import Reals ZArith String Lra Lia Permutation.
From Verif Require Lattice_Model Lattice_Spec Lattice_Proofs3 Init_Model Init_Proofs Init_Proofs2 Props_Init.
From mathcomp Require Import all_ssreflect all_algebra.
From mathcomp Require Import complex.
From Verif Require Import RStruct Cplx Base Fourier_Model Fourier_Spec Sim_Model Setup_Model E2E_Model E2E_Spec.
From Verif Require Import Fourier_Proofs E2E_Proofs E2E_Proofs2.

Set Implicit Arguments.
Unset Strict Implicit.
Unset Printing Implicit Defensive.

Import Order.TTheory GRing.Theory Num.Theory.
Local Open Scope ring_scope.
Local Open Scope complex_scope.

Definition errs (P : exn -> Prop) A (x : res A) : Prop := match x with Ok _ => True | Err e => P e end.
Lemma errs_bind P A B (x : res A) (f : A -> res B) : errs P x -> (forall a, x = Ok a -> errs P (f a)) ->
  errs P (bind x f).
Proof. by case: x => //= a _; apply. Qed.
Lemma errs_mono (P Q : exn -> Prop) A (x : res A) : (forall e, P e -> Q e) -> errs P x -> errs Q x.
Proof. by case: x => //= e h /h. Qed.

Definition numeric (e : exn) : Prop := e = LinAlgError \/ e = NaN.

Lemma solve_errs m p (A : 'M[C]_m) (B : 'M[C]_(m, p)) : errs numeric (solve A B).
Proof. by rewrite /solve; case: ifP => //= _; left. Qed.
Lemma linv_errs m (A : 'M[C]_m) : errs numeric (linv A).
Proof. by rewrite /linv; case: ifP => //= _; left. Qed.

Section Layers.
Variables (Nx Ny nh : nat).
Hypotheses (Nx0 : (0 < Nx)%N) (Ny0 : (0 < Ny)%N).
Variable eig : forall m, 'M[C]_m -> 'rV[C]_m * 'M[C]_m.
Variable h : 'I_nh -> order.
Hypothesis hidx : forall i j, indexable Nx Ny (odiff (h i) (h j)).
Variable form : formulation_t Nx Ny.

Lemma toep_ok (u : 'M[C]_(Nx, Ny)) : exists M, get_toeplitz h u = Ok M.
Proof. by rewrite /get_toeplitz; case: (toeplitzP Nx0 Ny0 h u) => [[_ ->]|[]] //; eexists. Qed.

(** a numerical failure, or one of the vector field of the formulation *)
Definition allowed (e : exn) : Prop :=
  numeric e \/ match form with TangentLike tan => exists u, tan u = Err e | _ => False end.

Lemma num_allowed A (x : res A) : errs numeric x -> errs allowed x.
Proof. by apply: errs_mono => e; left. Qed.

Lemma nu_errs (u : 'M[C]_(Nx, Ny)) : errs numeric (nu_hat_inv_iso h u).
Proof.
rewrite /nu_hat_inv_iso; apply: errs_bind => [|v _]; first by rewrite /pointwise_inv; case: ifP => //= _; right.
by have [M ->] := toep_ok v; exact: linv_errs.
Qed.

Lemma assemble_errs omega kx ky mu eh ehi P : errs numeric (@assemble nh omega kx ky mu eh ehi P).
Proof. by rewrite /assemble; case: ifP => //= _; right. Qed.

Lemma layer_errs omega kx ky t e :
  (forall u, e <> EpsTensorUniform Nx Ny u) -> form = Original Nx Ny \/ (forall u, e <> EpsTensorGrid u) ->
  errs allowed (@solve_layer Nx Ny nh eig omega kx ky h form t 1 e).
Proof.
move=> hu ht; rewrite /solve_layer; apply: errs_bind.
  rewrite /build_matrix; case: e hu ht => [e|u|u|u] hu ht.
  - by case: ifP => //= _; left; right.
  - have [eh ->] := toep_ok u; cbn [bind].
    apply: errs_bind => [|ehi _]; first exact/num_allowed/linv_errs.
    apply: errs_bind => [|P _]; last exact/num_allowed/assemble_errs.
    have hN : forall x, numeric x -> allowed x by left.
    have hT : match form with TangentLike tan => errs allowed (tan u) | _ => True end.
      by rewrite /allowed; case: (form) => // tan; case et: (tan u) => [//|x] /=; right; exists u.
    move: hT hN; move: (allowed) => Q; case: (form) => [||tan] // hT hN.
      by apply: errs_bind => // ; apply: errs_mono (nu_errs u).
    apply: errs_bind => // t' _; apply: errs_bind => [|nu _]; first by apply: errs_mono (nu_errs u).
    have tp (v : 'M[C]_(Nx, Ny)) : errs Q (get_toeplitz h v) by have [M ->] := toep_ok v.
    rewrite /get_Peps /proj_blocks; apply: errs_bind => //.
    by do 4!(apply: errs_bind => [|? _]; first exact: tp).
  - case: ht => [hf|/(_ u)] //.
    have [eh ->] := toep_ok (u ord_max ord_max); cbn [bind].
    apply: errs_bind => [|ehi _]; first exact/num_allowed/linv_errs.
    rewrite /toeplitz_transverse.
    have [m1 ->] := toep_ok (u (xy ord0) (xy ord0)); have [m2 ->] := toep_ok (u (xy ord0) (xy ord_max)).
    have [m3 ->] := toep_ok (u (xy ord_max) (xy ord0)); have [m4 ->] := toep_ok (u (xy ord_max) (xy ord_max)).
    rewrite /allowed hf; cbn [bind]; apply: errs_mono (assemble_errs _ _ _ _ _ _ _) => x; by left.
  - by case: (hu u).
move=> b hb; move: hb; rewrite /build_matrix /assemble; case: e hu ht => [e|u|u|u] hu ht //.
- move=> H; ubind H eh heh; ubind H ehi hehi; ubind H P hP; move: H; case: ifP => // _ [<-] //.
- move=> H; ubind H eh heh; ubind H ehi hehi; ubind H ep hep; ubind H P hP; move: H; case: ifP => // _ [<-] //.
Qed.

Lemma step_errs (l l' : slayer nh) Sm : errs numeric (smat_step l l' Sm).
Proof.
rewrite /smat_step; apply: errs_bind => [|M _].
  by rewrite /build_Imatrix; case: ifP => [_|_]; [exact: solve_errs|right].
apply: errs_bind => [|x _]; first exact: solve_errs.
by apply: errs_bind => // ; exact: solve_errs.
Qed.
Lemma loop_errs Sm (l : slayer nh) rest : errs numeric (smat_loop Sm l rest).
Proof.
by elim: rest l Sm => //= l' rest IH l Sm; apply: errs_bind => [|S' _]; [exact: step_errs|exact: IH].
Qed.
Lemma smatrix_errs (st : seq (slayer nh)) : (1 < size st)%N -> errs numeric (smatrix st).
Proof. by case: st => [//|l [//|l' st]] _; exact: loop_errs. Qed.

Lemma mapr_size A B (f : A -> res B) s t : mapr f s = Ok t -> size t = size s.
Proof. by elim: s t => [|a s IH] t /=; [case=> <-|move=> H; ubind H b hb; ubind H t' ht; case: H => <- /=; rewrite (IH _ ht)]. Qed.

Lemma run_errs pw rec (ls : seq (layer_in Nx Ny)) l0 i0 e0 :
  li_eps l0 = EpsUniform Nx Ny e0 -> ls <> [::] ->
  (forall l, List.In l (l0 :: ls) -> (forall u, li_eps l <> EpsTensorUniform Nx Ny u) /\
     (form = Original Nx Ny \/ (forall u, li_eps l <> EpsTensorGrid u))) ->
  errs allowed (run_efficiencies eig pw rec h form (l0 :: ls) i0).
Proof.
move=> he hne hl; rewrite /run_efficiencies he; cbn [scalar_eps bind].
apply: errs_bind => [|a _]; first by rewrite /pw_a0; case: Req_EM_T => //= _; left; left.
apply: errs_bind => [|st hst].
  rewrite /solve_stack; elim: (l0 :: ls) hl => //= l ls' IH hl.
  apply: errs_bind => [|b _]; first by have [x1 x2] := hl l (or_introl erefl); exact: layer_errs.
  by apply: errs_bind => // ; apply: IH => k hk; apply: hl; right.
rewrite /efficiencies; have hsz := mapr_size hst.
apply: errs_bind => [|Sm _]; first by apply/num_allowed/smatrix_errs; rewrite hsz; case: (ls) hne.
case: (st) hsz => // s ss _; case: ifP => [_|_] /=; first by left; right.
by case: ifP => [_|_] //=; left; right.
Qed.
End Layers.

Section Sim.
Variables (Nx Ny : nat).
Hypotheses (Nx0 : (0 < Nx)%N) (Ny0 : (0 < Ny)%N).
Variable eig : forall m, 'M[C]_m -> 'rV[C]_m * 'M[C]_m.
Variable argsort : seq R -> seq nat.
Hypothesis hsort : Lattice_Model.argsort_ok argsort.
Variable tan : string -> 'M[C]_(Nx, Ny) -> res ('M[C]_(Nx, Ny) * 'M[C]_(Nx, Ny)).
Variable lattices : nat -> Lattice_Model.lattice.
Variables (l0 : user_layer Nx Ny) (rest : seq (user_layer Nx Ny)) (nh : Z) (form : string) (pw : planewave).
Notation lat := (lattices (ul_lat l0)).
Hypothesis hbuilt : Lattice_Model.built lat.
Hypothesis hgen : Lattice_Proofs3.generates lat.
Hypothesis hdisc : Lattice_Model.lt_disc lat = (Z.of_nat Nx, Z.of_nat Ny).
Hypothesis hnh : enough l0 rest nh.
Variable e0 : C.
Hypothesis he0 : li_eps (ul_body l0) = EpsUniform Nx Ny e0.
Hypothesis hrest : rest <> [::].
Hypothesis hlay : forall l, List.In l (l0 :: rest) -> (forall u, li_eps (ul_body l) <> EpsTensorUniform Nx Ny u) /\
  (form = "original"%string \/ forall u, li_eps (ul_body l) <> EpsTensorGrid u).

Lemma sim_errs s e :
  Init_Model.sim_init argsort lattices (List.map (@to_py Nx Ny) (l0 :: rest)) nh form = Ok s ->
  simulate eig argsort tan lattices (l0 :: rest) pw nh form = Err e ->
  e = LinAlgError \/ e = NaN \/ exists u, tan form u = Err e.
Proof.
move=> hs; rewrite /simulate hs; cbn [bind].
have hl := layers_lattice hs (or_introl erefl : List.In l0 (l0 :: rest)).
have hg : Lattice_Proofs3.generates (Init_Model.sim_lattice s) by rewrite hl.
have hb : Lattice_Model.built (Init_Model.sim_lattice s) by rewrite hl.
have [w1 [w2 [w3 [w4 [w5 [w6 _]]]]]] := Init_Proofs2.init_facts hsort _ _ _ hs hg (enoughP hnh).
have [k1 k2] := nth_errorP (0%Zc, 0%Zc) w5.
have sz : size (Init_Model.sim_harmonics s) = Z.to_nat (Init_Model.sim_nh s) by rewrite w4 Nat2Z.id.
rewrite /compute sz eqxx; cbn [negb]; rewrite -sz; case: insubP => [i0 _ _|]; last by rewrite k1.
set f := choose_form _ _ _.
have hidx : forall i j : 'I_(size (Init_Model.sim_harmonics s)),
   indexable Nx Ny (odiff (harm (Init_Model.sim_harmonics s) i) (harm (Init_Model.sim_harmonics s) j)).
  move=> i j; have := in_harm (erefl _) i; have := in_harm (erefl _) j.
  case: (harm _ i) => a b; case: (harm _ j) => c d hj hi.
  have [b1 [b2 _]] := Props_Init.C10_indexing hsort _ _ _ hs hb hg (enoughP hnh) _ _ _ _ hi hj.
  by move: b1 b2; rewrite hl hdisc /indexable /odiff /index_ok /=; lia.
have hf : f = Original Nx Ny \/ f = Tangent1D Nx Ny \/ f = TangentLike (tan form).
  rewrite /f /choose_form w6; case: ifP => _; first by left.
  by case: ifP => _; [right; left|right; right].
have hls : forall l, List.In l (ul_body l0 :: List.map (@ul_body Nx Ny) rest) -> (forall u, li_eps l <> EpsTensorUniform Nx Ny u) /\
     (f = Original Nx Ny \/ (forall u, li_eps l <> EpsTensorGrid u)).
  apply: (bodies_all (P := fun l => (forall u, li_eps l <> EpsTensorUniform Nx Ny u) /\
     (f = Original Nx Ny \/ (forall u, li_eps l <> EpsTensorGrid u)))) => l /hlay [x1 [x2|x2]]; split=> //; [left|by right].
  by rewrite /f w6 x2.
have hne : List.map (@ul_body Nx Ny) rest <> [::] by case: (rest) hrest.
have := run_errs Nx0 Ny0 eig hidx pw (recip_mx (Init_Model.sim_recip s)) i0 he0 hne hls.
case: (run_efficiencies _ _ _ _ _ _ _) => [r|x] //= hx [ex]; subst x.
case: hx => [[->|->]|hx]; [by left|by right; left|right; right].
by case: hf hx => [->|[->|->]].
Qed.
End Sim.

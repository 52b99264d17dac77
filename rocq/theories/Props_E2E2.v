(** Whole simulations: the grating equation (property C88). *)
From Coq Require Import Reals ZArith String Lra Lia.
From Verif Require Lattice_Model Lattice_Spec Lattice_Proofs3 Init_Model Init_Proofs Init_Proofs2 Argsort E2E_Proofs.
From mathcomp Require Import all_ssreflect all_algebra.
From mathcomp Require Import complex.
From Verif Require Import RStruct Cplx Base Fourier_Model Sim_Model Setup_Model E2E_Model Energy_Spec E2E_Spec Grating_Spec.
From Verif Require Import Aniso_Proofs Demo_Proofs Demo3_Proofs Props_Optics Props_Symm E2E_Proofs2 E2E_Proofs5 Props_E2E.

Set Implicit Arguments.
Unset Strict Implicit.
Unset Printing Implicit Defensive.

Import Order.TTheory GRing.Theory Num.Theory.
Local Open Scope ring_scope.
Local Open Scope complex_scope.

Section E2E.
Variables (Nx Ny : nat).
(** the eigensolver and the vector fields of the 2D formulations: anything *)
Variable eig : forall m, 'M[C]_m -> 'rV[C]_m * 'M[C]_m.
Variable tan : string -> 'M[C]_(Nx, Ny) -> res ('M[C]_(Nx, Ny) * 'M[C]_(Nx, Ny)).
Variable argsort : seq R -> seq nat.
Hypothesis hsort : Lattice_Model.argsort_ok argsort.
Variable lattices : nat -> Lattice_Model.lattice.
Variables (l0 : user_layer Nx Ny) (rest : seq (user_layer Nx Ny)) (nh : Z) (form : string).
Notation lat := (lattices (ul_lat l0)).
Hypothesis hgen : Lattice_Proofs3.generates lat.
Hypothesis hnh : (1 <= nh)%Zc \/ List.Forall (fun l => is_uniform (li_eps (ul_body l))) (l0 :: rest).

(** ** C88: an order whose wavevector, given by the grating equation of the lattice's
    basis vectors, is too long for a medium carries no power into it; no order carries
    negative power.  Any layers between the outer two, any formulation. *)
Theorem C88_grating pw (e0 eN : R) out o x kx ky :
  (0 < pw_lambda pw)%Re -> (0 < cos (pw_theta pw))%Re -> (0 < e0)%Re ->
  li_eps (ul_body l0) = EpsUniform Nx Ny (rc e0) ->
  li_eps (ul_body (last l0 rest)) = EpsUniform Nx Ny (rc eN) ->
  simulate eig argsort tan lattices (l0 :: rest) pw nh form = Ok out -> List.In (o, x) out ->
  let L := Lattice_Model.lt_basis lat in
  grating_equation (pw_lambda pw) (pw_theta pw) (pw_phi pw) e0
    (Lattice_Model.m00 L) (Lattice_Model.m01 L) (Lattice_Model.m10 L) (Lattice_Model.m11 L) o kx ky ->
  [/\ (0 <= x.1)%Re, (0 <= x.2)%Re, evanescent (pw_lambda pw) e0 kx ky -> x.1 = 0%Re &
      evanescent (pw_lambda pw) eN kx ky -> x.2 = 0%Re].
Proof.
move=> lam cth e0p he0 heN hs hin; exact: (sim_grating hsort hgen hnh lam cth e0p he0 heN hs hin).
Qed.
End E2E.
Print Assumptions C88_grating.

(** Case: total internal reflection, glass (permittivity 4) to air at 45 degrees. *)
Definition glass : user_layer 6 1 := UserLayer "Superstrate" 0 (LayerIn (Some 1%Re) (EpsUniform 6 1 (rc 4%Re))).
Definition air : user_layer 6 1 := UserLayer "Substrate" 0 (LayerIn (Some 1%Re) (EpsUniform 6 1 (rc 1%Re))).
Definition slanted : planewave := PlaneWave 1 (PI / 4) 0 0.

Lemma init2 sort (l1 l2 : user_layer 6 1) nh : Lattice_Model.argsort_ok sort ->
  List.NoDup [:: ul_name l1; ul_name l2] -> [/\ ul_lat l1 = 0%N & ul_lat l2 = 0%N] ->
  is_uniform (li_eps (ul_body l1)) -> is_uniform (li_eps (ul_body l2)) ->
  exists s, [/\ Init_Model.sim_init sort lats (List.map (@to_py 6 1) [:: l1; l2]) nh "original" = Ok s,
    Init_Model.sim_harmonics s = [:: (0%Zc, 0%Zc)] & Init_Model.sim_nh s = 1%Zc].
Proof.
move=> hs hn [z1 z2] u1 u2.
have [G [n [hG [hl [en _]]]]] := @Lattice_Proofs3.gh_one_dim sort hs 1 (6%Zc, 1%Zc) 2 true.
have {}hl : Lattice_Spec.lists_exactly G (fun a b => b = 0 /\ Z.abs a <= 0)%Zc := hl.
have e1 : Init_Model.effective_nh (List.forallb Init_Model.pl_uniform (List.map (@to_py 6 1) [:: l1; l2])) nh = 2%Zc.
  by rewrite E2E_Proofs.uniform_py /= u1 u2 /Init_Model.effective_nh ; cbn [andb]; case E: (nh =? 1)%Zc => //=; rewrite E.
have inG o : List.In o G -> o = (0%Zc, 0%Zc).
  by case: o => x y /(proj2 hl x y) [h1 h2]; congr (_, _); lia.
have G1 : G = [:: (0%Zc, 0%Zc)].
  have := proj1 hl; have : List.In (0%Zc, 0%Zc) G by apply/(proj2 hl); lia.
  case: (G) inG => [//|o [|o' G']] hi _ nd; first by rewrite (hi o) //=; left.
  have e2 := hi o (or_introl erefl); have e3 := hi o' (or_intror (or_introl erefl)).
  by inversion nd as [|? ? nin _]; case: nin; left; rewrite e2 e3.
have [s [h1 [h2 h3]]] := @Init_Proofs.sim_init_ok sort lats (List.map (@to_py 6 1) [:: l1; l2]) nh "original"
   (to_py l1) [:: to_py l2] G n erefl hn
   ltac:(by move=> l /= [<-|[<-|[]]] /=; rewrite ?z1 ?z2) ltac:(by left) ltac:(by move=> _; left)
   ltac:(by rewrite e1) ltac:(by rewrite G1)
   ltac:(by move=> o /inG -> ; split=> //; split) (ex_intro _ _ recip1).
by exists s; split; rewrite // ?h2 ?h3 ?en ?G1.
Qed.

Lemma slanted_ok : exists out, simulate demo_eig Argsort.isort no_tan lats [:: glass; air] slanted 7 "original" = Ok out.
Proof.
have nd : List.NoDup [:: "Superstrate"; "Substrate"]%string by repeat constructor => //=; intuition discriminate.
have [s [h1 h2 h3]] := @init2 Argsort.isort glass air 7 Argsort.isort_ok nd ltac:(by []) erefl erefl.
rewrite /simulate h1; cbn [bind].
have hl := E2E_Proofs.layers_lattice h1 (or_introl erefl).
have [_ [_ [_ [_ [w5 [w6 w7]]]]]] := Init_Proofs2.init_facts Argsort.isort_ok _ _ _ h1 ltac:(by rewrite hl; exact: gen1) ltac:(by left; lia).
rewrite h3 -[Z.to_nat 1]/1%N /compute h2 eqxx; cbn [negb]; case: insubP => [i0 _ _|]; last first.
  by have [+ _] := E2E_Proofs.nth_errorP (0%Zc, 0%Zc) w5; rewrite h2 /= => ->.
have [lam [cth [_ [_ hk]]]] := C54_case.
have [r [hr _]] := C54_fresnel demo_eig (recip_mx (Init_Model.sim_recip s)) (h := harm [:: (0%Zc, 0%Zc)])
  (choose_form no_tan (Init_Model.sim_form s) (Lattice_Model.lt_is1D (Init_Model.sim_lattice s))) (pw := slanted) (e0 := 4%Re) (e1 := 1%Re) (Some 1%Re) (Some 1%Re)
  lam cth erefl erefl ltac:(lra) ltac:(lra) ltac:(apply: Rlt_not_eq; exact: hk).
by rewrite (ord1 i0) [X in bind X _]hr; eexists.
Qed.

Example C88_case : exists out,
  simulate demo_eig Argsort.isort no_tan lats [:: glass; air] slanted 7 "original" = Ok out /\
  forall o x, List.In (o, x) out -> x.2 = 0%Re.
Proof.
have [out ho] := slanted_ok; exists out; split=> // o x hin.
have [lam [cth [_ [_ hk]]]] := C54_case.
have p4 : (0 < 4)%Re by lra.
have nd : List.NoDup [:: "Superstrate"; "Substrate"]%string by repeat constructor => //=; intuition discriminate.
have [s [h1 h2 h3]] := @init2 Argsort.isort glass air 7 Argsort.isort_ok nd ltac:(by []) erefl erefl.
have eo : o = (0%Zc, 0%Zc).
  have [s' [n [i0 [r [[h1' _] sz _ _ eo]]]]] := simulate_run Argsort.isort_ok (lattices := lats) (l0 := glass) (rest := [:: air]) gen1
    (or_introl (Zle_bool_imp_le 1 7 erefl)) ho.
  have e : s' = s by move: h1'; rewrite h1 => -[].
  subst s'; have := List.in_map fst _ _ hin; rewrite eo (E2E_Proofs.listing_fst sz) h2.
  by case=> // <-.
subst o.
have [_ _ _ z] := C88_grating Argsort.isort_ok (lattices := lats) (l0 := glass) (rest := [:: air]) gen1
    (or_introl (Zle_bool_imp_le 1 7 erefl)) lam cth p4 erefl erefl ho hin (kx := (2 * PI / 1 * sqrt 4 * sin (PI / 4))%Re) (ky := 0%Re)
    ltac:(rewrite /grating_equation /= sin_0 cos_0; split; ring).
apply: z; rewrite /evanescent /=; move: hk; rewrite /=.
have s4 : (sqrt 4 * sqrt 4 = 4)%Re by apply: sqrt_sqrt; lra.
by move=> hk; ring_simplify in hk; ring_simplify; move: hk; simpl; rewrite !Rmult_1_r s4; nra.
Qed.

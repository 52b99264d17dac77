(** Whole simulations, from the arguments of the constructor to the table of efficiencies
    (properties C83 to C86). *)
From Coq Require Import Reals ZArith String Lra Lia Permutation.
From Verif Require Lattice_Model Lattice_Spec Lattice_Proofs Lattice_Proofs3 Init_Model Init_Proofs Init_Proofs2 Argsort.
From mathcomp Require Import all_ssreflect all_algebra.
From mathcomp Require Import complex.
From Verif Require Import RStruct Cplx Base Fourier_Model Fourier_Spec Sim_Model Setup_Model E2E_Model Energy_Spec Recip_Spec
  Passive_Spec E2E_Spec.
From Verif Require Import Fourier_Proofs Energy_Proofs Aniso_Proofs Demo_Proofs Demo3_Proofs Props_Symm E2E_Proofs E2E_Proofs2 E2E_Proofs3 E2E_Proofs4.

Set Implicit Arguments.
Unset Strict Implicit.
Unset Printing Implicit Defensive.

Import Order.TTheory GRing.Theory Num.Theory.
Local Open Scope ring_scope.
Local Open Scope complex_scope.

Section E2E.
Variables (Nx Ny : nat).
Hypotheses (Nx0 : (0 < Nx)%N) (Ny0 : (0 < Ny)%N).
(** the eigensolver and the sorting routine, with their contracts *)
Variable eig : forall m, 'M[C]_m -> 'rV[C]_m * 'M[C]_m.
Hypothesis eig_ok : forall m (A : 'M[C]_m), A *m (eig A).2 = (eig A).2 *m diag_mx (eig A).1.
Variable argsort : seq R -> seq nat.
Hypothesis hsort : Lattice_Model.argsort_ok argsort.
(** the vector fields of the 2D formulations: anything *)
Variable tan : string -> 'M[C]_(Nx, Ny) -> res ('M[C]_(Nx, Ny) * 'M[C]_(Nx, Ny)).
(** the layers, on a lattice that generates its orders *)
Variable lattices : nat -> Lattice_Model.lattice.
Variables (l0 : user_layer Nx Ny) (rest : seq (user_layer Nx Ny)) (nh : Z) (form : string).
Notation lat := (lattices (ul_lat l0)).
Hypothesis hgen : Lattice_Proofs3.generates lat.
Hypothesis hnh : (1 <= nh)%Zc \/ List.Forall (fun l => is_uniform (li_eps (ul_body l))) (l0 :: rest).
Notation simulate pw := (simulate eig argsort tan lattices (l0 :: rest) pw nh form).

(** ** C83 *)
(** The table has one line per order, one for the specular order, and the opposite of
    every order it has. *)
Theorem C83_orders pw out : simulate pw = Ok out ->
  [/\ List.NoDup (orders_of out), List.In (0%Zc, 0%Zc) (orders_of out) &
      Lattice_Spec.negation_closed (orders_of out)].
Proof. exact: (sim_orders hsort hgen hnh). Qed.

Section Energy.
Variable pw : planewave.
Hypothesis lam : (0 < pw_lambda pw)%Re.
Hypothesis cth : (0 < cos (pw_theta pw))%Re.
Hypothesis hform : form = "original"%string \/ (form = "tangent"%string /\ Lattice_Model.lt_is1D lat = true).
Variables e0 eN : R.
Hypothesis e0p : (0 < e0)%Re.
Hypothesis he0 : li_eps (ul_body l0) = EpsUniform Nx Ny (rc e0).
Hypothesis heN : li_eps (ul_body (last l0 rest)) = EpsUniform Nx Ny (rc eN).

Theorem C83_energy out : (forall l, List.In l (l0 :: rest) -> lossless (li_eps (ul_body l))) ->
  simulate pw = Ok out ->
  (reflected out + transmitted out = 1)%Re /\
  forall o x, List.In (o, x) out -> (0 <= x.1 <= 1)%Re /\ (0 <= x.2 <= 1)%Re.
Proof. exact: (sim_energy Nx0 Ny0 eig_ok hsort hgen hnh lam cth e0p he0 hform heN). Qed.

Theorem C83_no_gain out : (forall l, List.In l (l0 :: rest) -> passive (li_eps (ul_body l)) /\ thick_ok (ul_body l)) ->
  simulate pw = Ok out ->
  (reflected out + transmitted out <= 1)%Re /\
  forall o x, List.In (o, x) out -> (0 <= x.1 <= 1)%Re /\ (0 <= x.2 <= 1)%Re.
Proof. exact: (sim_passive Nx0 Ny0 eig_ok hsort hgen hnh lam cth e0p he0 hform heN). Qed.
End Energy.

(** ** C84: after the constructor has accepted, only numerical failures are left *)
Theorem C84_only_numerical pw s e0 e : Lattice_Model.built lat ->
  Lattice_Model.lt_disc lat = (Z.of_nat Nx, Z.of_nat Ny) ->
  li_eps (ul_body l0) = EpsUniform Nx Ny e0 -> rest <> [::] ->
  (forall l, List.In l (l0 :: rest) -> (forall u, li_eps (ul_body l) <> EpsTensorUniform Nx Ny u) /\
     (form = "original"%string \/ forall u, li_eps (ul_body l) <> EpsTensorGrid u)) ->
  Init_Model.sim_init argsort lattices (List.map (@to_py Nx Ny) (l0 :: rest)) nh form = Ok s ->
  simulate pw = Err e -> e = LinAlgError \/ e = NaN \/ exists u, tan form u = Err e.
Proof. move=> h1 h2 h3 h4 h5; exact: (sim_errs Nx0 Ny0 hsort h1 hgen h2 hnh h3 h4 h5). Qed.

(** ** C85: the table is the same, up to the order of its lines, for any eigensolver and
    any sorting routine *)
Theorem C85_reproducible eig2 argsort2 pw e0 eN out1 out2 :
  (forall m (A : 'M[C]_m), A *m (eig2 m A).2 = (eig2 m A).2 *m diag_mx (eig2 m A).1) ->
  Lattice_Model.argsort_ok argsort2 ->
  li_eps (ul_body l0) = EpsUniform Nx Ny e0 -> li_eps (ul_body (last l0 rest)) = EpsUniform Nx Ny eN ->
  form = "original"%string \/ (forall l, List.In l (l0 :: rest) -> forall u, li_eps (ul_body l) <> EpsTensorGrid u) ->
  simulate pw = Ok out1 ->
  E2E_Model.simulate eig2 argsort2 tan lattices (l0 :: rest) pw nh form = Ok out2 ->
  Permutation out1 out2.
Proof. by move=> h1 h2 h3 h4 h5; exact: (sim_same Nx0 Ny0 eig_ok h1 hsort h2 hgen hnh h3 h4 h5). Qed.

(** the constructor's verdict does not depend on the sorting routine either *)
Theorem C85_same_verdict argsort2 e : Lattice_Model.argsort_ok argsort2 ->
  Init_Model.sim_init argsort lattices (List.map (@to_py Nx Ny) (l0 :: rest)) nh form = Err e <->
  Init_Model.sim_init argsort2 lattices (List.map (@to_py Nx Ny) (l0 :: rest)) nh form = Err e.
Proof.
move=> h2; have := Init_Proofs2.init_same hsort h2 lattices (List.map (@to_py Nx Ny) (l0 :: rest)) nh form.
by case: (Init_Model.sim_init _ _ _ _ _) => [s|x]; case: (Init_Model.sim_init _ _ _ _ _) => [s'|x'] // ->.
Qed.

(** ** C86: reciprocity *)
Section Recip.
Hypothesis hform : form = "original"%string \/ (form = "tangent"%string /\ Lattice_Model.lt_is1D lat = true).
Variable e0 : R.
Hypothesis e0p : (0 < e0)%Re.
Hypothesis he0 : li_eps (ul_body l0) = EpsUniform Nx Ny (rc e0).
Hypothesis hrec : forall l, List.In l (l0 :: rest) -> reciprocal (li_eps (ul_body l)).
Variables pa pb pc pd : planewave.
Hypothesis lam : (0 < pw_lambda pa)%Re.
Hypothesis cth : (0 < cos (pw_theta pa))%Re.
Hypotheses (hab : crossed pb pa) (hcd : crossed pd pc).
Variables (outa outb outc outd : table) (xa xb xc xd : R * R).
Hypothesis ha : simulate pa = Ok outa.
Hypothesis hb : simulate pb = Ok outb.
Hypothesis za : List.In ((0%Zc, 0%Zc), xa) outa.
Hypothesis zb : List.In ((0%Zc, 0%Zc), xb) outb.
Hypothesis zc : List.In ((0%Zc, 0%Zc), xc) outc.
Hypothesis zd : List.In ((0%Zc, 0%Zc), xd) outd.

Theorem C86_reflection (eN : C) :
  li_eps (ul_body (last l0 rest)) = EpsUniform Nx Ny eN -> reversed pc pa ->
  simulate pc = Ok outc -> simulate pd = Ok outd ->
  (xa.1 + xb.1 = xc.1 + xd.1)%Re.
Proof.
move=> heN hac hc hd.
exact: (sim_reflection Nx0 Ny0 eig_ok hsort hgen hnh hform e0p he0 hrec lam cth hab hcd heN hac ha hb hc hd za zb zc zd).
Qed.

Theorem C86_transmission (eN : R) :
  (0 < eN)%Re -> li_eps (ul_body (last l0 rest)) = EpsUniform Nx Ny (rc eN) ->
  (0 < cos (pw_theta pc))%Re -> reversed_below e0 eN pc pa ->
  E2E_Model.simulate eig argsort tan lattices (rev (l0 :: rest)) pc nh form = Ok outc ->
  E2E_Model.simulate eig argsort tan lattices (rev (l0 :: rest)) pd nh form = Ok outd ->
  (xa.2 + xb.2 = xc.2 + xd.2)%Re.
Proof.
move=> eNp heN cthc hac hc hd.
exact: (sim_transmission Nx0 Ny0 eig_ok hsort hgen hnh hform e0p he0 hrec lam cth hab hcd eNp heN cthc hac ha hb hc hd za zb zc zd).
Qed.
End Recip.
End E2E.
Print Assumptions C83_orders.
Print Assumptions C83_energy.
Print Assumptions C83_no_gain.
Print Assumptions C84_only_numerical.
Print Assumptions C85_reproducible.
Print Assumptions C85_same_verdict.
Print Assumptions C86_reflection.
Print Assumptions C86_transmission.

(** ** Cases: three orders of a grating of period 1 on a grid of 6 points *)
Definition lat1 : Lattice_Model.lattice := Lattice_Model.lattice_1D 1 (6%Zc, 1%Zc) None.
Definition lats : nat -> Lattice_Model.lattice := fun _ => lat1.
Definition grating (a : R) : user_layer 6 1 :=
  UserLayer "Grating" 0 (LayerIn (Some (1/5)%Re) (EpsGrid (stripes a))).
Definition sup : user_layer 6 1 := UserLayer "Superstrate" 0 (LayerIn (Some 1%Re) (EpsUniform 6 1 (rc (1 * 1)%Re))).
Definition sub : user_layer 6 1 := UserLayer "Substrate" 0 (LayerIn (Some 1%Re) (EpsUniform 6 1 (rc (3 * 3)%Re))).
Definition no_tan : string -> 'M[C]_(6, 1) -> res ('M[C]_(6, 1) * 'M[C]_(6, 1)) := fun _ _ => Err NaN.
Notation sim3 sort := (simulate demo_eig sort no_tan lats).

Lemma gen1 : Lattice_Proofs3.generates lat1. Proof. by []. Qed.

Lemma recip1 : Lattice_Model.reciprocal lat1 = Ok (Lattice_Model.Mat2 (2 * PI * (1 / 1)) (2 * PI * (- 0 / 1)) (2 * PI * (- 0 / 1)) (2 * PI * (1 / 1))).
Proof.
rewrite Lattice_Proofs.reciprocal_ok; last by rewrite /Lattice_Model.det2 /=; lra.
by rewrite /Lattice_Model.det2 /=; have -> : (1 * 1 - 0 * 0 = 1)%Re by ring.
Qed.

Lemma init3 sort l1 l2 l3 : Lattice_Model.argsort_ok sort ->
  List.NoDup [:: ul_name l1; ul_name l2; ul_name l3] -> [/\ ul_lat l1 = 0%N, ul_lat l2 = 0%N & ul_lat l3 = 0%N] ->
  ~~ is_uniform (li_eps (@ul_body 6 1 l2)) ->
  exists s, [/\ Init_Model.sim_init sort lats (List.map (@to_py 6 1) [:: l1; l2; l3]) 3 "original" = Ok s,
    Lattice_Spec.lists_exactly (Init_Model.sim_harmonics s) (fun a b => b = 0 /\ Z.abs a <= 1)%Zc &
    Init_Model.sim_nh s = Z.of_nat (size (Init_Model.sim_harmonics s))].
Proof.
move=> hs hn [z1 z2 z3] hu.
have [G [n [hG [hl [en _]]]]] := @Lattice_Proofs3.gh_one_dim sort hs 1 (6%Zc, 1%Zc) 3 true.
have {}hl : Lattice_Spec.lists_exactly G (fun a b => b = 0 /\ Z.abs a <= 1)%Zc := hl.
have e3 : Init_Model.effective_nh (List.forallb Init_Model.pl_uniform (List.map (@to_py 6 1) [:: l1; l2; l3])) 3 = 3%Zc.
  by rewrite uniform_py /= (negbTE hu) /= andbF.
have inG o : List.In o G -> o.2 = 0%Zc /\ (Z.abs o.1 <= 1)%Zc by case: o => x y /(proj2 hl x y); cbn [fst snd].
have hd o : List.In o G -> (2 * o.1 < 6)%Zc /\ (2 * o.2 < 6)%Zc by move=> /inG; lia.
have [s [h1 [h2 h3]]] := @Init_Proofs.sim_init_ok sort lats (List.map (@to_py 6 1) [:: l1; l2; l3]) 3 "original"
   (to_py l1) [:: to_py l2; to_py l3] G n erefl hn
   ltac:(by move=> l /= [<-|[<-|[<-|[]]]] /=; rewrite ?z1 ?z2 ?z3) ltac:(by left) ltac:(by move=> _; left)
   ltac:(by rewrite e3) ltac:(by move=> e; have := proj2 (proj2 hl 0%Zc 0%Zc) (Logic.conj erefl Z.le_0_1); rewrite e)
   ltac:(by move=> o /hd [x1 x2]; split=> //; split) (ex_intro _ _ recip1).
by exists s; split=> //; rewrite h2 // h3 en.
Qed.

Lemma run3_any s phi psi a (n := Z.to_nat (Init_Model.sim_nh s)) (i0 : 'I_n) :
  Lattice_Spec.lists_exactly (Init_Model.sim_harmonics s) (fun a b => b = 0 /\ Z.abs a <= 1)%Zc ->
  size (Init_Model.sim_harmonics s) = n -> Lattice_Model.reciprocal lat1 = Ok (Init_Model.sim_recip s) ->
  (exists r, run_efficiencies demo_eig (light phi psi) (recip_mx (Init_Model.sim_recip s)) (harm (Init_Model.sim_harmonics s))
     (Original 6 1) (demo3_layers 1 (1/5) 1 (stripes a)) i0 = Ok r) /\
  (exists r, run_efficiencies demo_eig (light phi psi) (recip_mx (Init_Model.sim_recip s)) (harm (Init_Model.sim_harmonics s))
     (Original 6 1) (rev (demo3_layers 1 (1/5) 1 (stripes a))) i0 = Ok r).
Proof.
move=> hl sz; rewrite recip1 => -[<-].
have hx : forall i : 'I_n, (harm (Init_Model.sim_harmonics s) i).2 = 0%Zc /\ (-1 <= (harm (Init_Model.sim_harmonics s) i).1 <= 1)%Zc.
  by move=> i; have := in_harm sz i; case: (harm _ i) => x y /(proj2 hl x y) /= [-> ]; lia.
have hu := stripes_toep a (harm_inj sz (proj1 hl)) hx.
have l0 : (0 < pw_lambda (light phi psi))%Re by rewrite /=; lra.
have r10 : recip_mx (Lattice_Model.Mat2 (2 * PI * (1 / 1)) (2 * PI * (- 0 / 1)) (2 * PI * (- 0 / 1)) (2 * PI * (1 / 1))) ord_max ord0 = 0%Re.
  by rewrite mxE /=; field.
have r00 : recip_mx (Lattice_Model.Mat2 (2 * PI * (1 / 1)) (2 * PI * (- 0 / 1)) (2 * PI * (- 0 / 1)) (2 * PI * (1 / 1))) ord0 ord0 = lattice ord0 ord0.
  by rewrite lat00 mxE /=; field.
have hw := light_ok phi psi; rewrite -r00 in hw.
by split; [exact: (demo3_eff i0 l0 erefl hx r10 hw _ _ _ hu)|exact: (demo3_rev_eff i0 l0 erefl hx r10 hw _ _ _ hu)].
Qed.

Lemma sim3_ok sort phi psi a : Lattice_Model.argsort_ok sort ->
  (exists s, Init_Model.sim_init sort lats (List.map (@to_py 6 1) [:: sup; grating a; sub]) 3 "original" = Ok s) /\
  (exists out, sim3 sort [:: sup; grating a; sub] (light phi psi) 3 "original" = Ok out) /\
  (exists out, sim3 sort (rev [:: sup; grating a; sub]) (light phi psi) 3 "original" = Ok out).
Proof.
move=> hs.
have nd : List.NoDup [:: "Superstrate"; "Grating"; "Substrate"]%string by repeat constructor => //=; intuition discriminate.
have nd' : List.NoDup [:: "Substrate"; "Grating"; "Superstrate"]%string by repeat constructor => //=; intuition discriminate.
have [s [h1 h2 h3]] := @init3 sort sup (grating a) sub hs nd ltac:(by []) isT.
have [s' [h1' h2' h3']] := @init3 sort sub (grating a) sup hs nd' ltac:(by []) isT.
split; first by exists s.
split.
- rewrite /simulate h1; cbn [bind]; rewrite /compute.
  have hl := layers_lattice h1 (or_introl erefl).
  have [_ [_ [_ [_ [w5 [w6 w7]]]]]] := Init_Proofs2.init_facts hs _ _ _ h1 ltac:(by rewrite hl; exact: gen1) ltac:(by left; lia).
  have sz : size (Init_Model.sim_harmonics s) = Z.to_nat (Init_Model.sim_nh s) by rewrite h3 Nat2Z.id.
  have [k1 _] := nth_errorP (0%Zc, 0%Zc) w5; rewrite sz in k1.
  rewrite sz eqxx; cbn [negb]; case: insubP => [i0 _ _|]; last by rewrite k1.
  rewrite w6 hl; have [[r hr] _] := run3_any phi psi a i0 h2 sz ltac:(by rewrite -w7 hl).
  by eexists; rewrite [X in bind X _]hr.
- rewrite /simulate h1'; cbn [bind]; rewrite /compute.
  have hl := layers_lattice h1' (or_introl erefl).
  have [_ [_ [_ [_ [w5 [w6 w7]]]]]] := Init_Proofs2.init_facts hs _ _ _ h1' ltac:(by rewrite hl; exact: gen1) ltac:(by left; lia).
  have sz : size (Init_Model.sim_harmonics s') = Z.to_nat (Init_Model.sim_nh s') by rewrite h3' Nat2Z.id.
  have [k1 _] := nth_errorP (0%Zc, 0%Zc) w5; rewrite sz in k1.
  rewrite sz eqxx; cbn [negb]; case: insubP => [i0 _ _|]; last by rewrite k1.
  rewrite w6 hl; have [_ [r hr]] := run3_any phi psi a i0 h2' sz ltac:(by rewrite -w7 hl).
  by eexists; rewrite [X in bind X _]hr.
Qed.

Lemma stack_all a (P : user_layer 6 1 -> Prop) : P sup -> P (grating a) -> P sub ->
  forall l, List.In l [:: sup; grating a; sub] -> P l.
Proof. by move=> h1 h2 h3 l [<-|[<-|[<-|[]]]]. Qed.
Lemma rc_real (x : R) : conj (rc x) = rc x. Proof. exact: Energy_Proofs.rc_conj. Qed.
Lemma stack_lossless a : forall l, List.In l [:: sup; grating a; sub] -> lossless (li_eps (ul_body l)).
Proof.
apply: stack_all; [exact: rc_real|move=> x y; rewrite mxE; exact: rc_real|exact: rc_real].
Qed.

Example C83_case a : exists out,
  [/\ sim3 Argsort.isort [:: sup; grating a; sub] (light 0 1) 3 "original" = Ok out,
      (reflected out + transmitted out = 1)%Re & List.In (0%Zc, 0%Zc) (orders_of out)].
Proof.
have [_ [[out ho] _]] := @sim3_ok Argsort.isort 0 1 a Argsort.isort_ok.
exists out; split=> //.
- have pos : (0 < 1 * 1)%Re by lra.
  have l0 : (0 < pw_lambda (light 0 1))%Re by rewrite /=; lra.
  have c0 : (0 < cos (pw_theta (light 0 1)))%Re by rewrite /= cos_0; lra.
  have [-> _] // := C83_energy (Nx := 6) (Ny := 1) isT isT demo_eig_ok Argsort.isort_ok (lattices := lats) (l0 := sup) (rest := [:: grating a; sub]) gen1
    (or_introl (Zle_bool_imp_le 1 3 erefl)) l0 c0 (or_introl erefl) pos erefl erefl (@stack_lossless a) ho.
- by have [_ h _] := C83_orders (Nx := 6) (Ny := 1) Argsort.isort_ok (lattices := lats) (l0 := sup) (rest := [:: grating a; sub]) gen1
    (or_introl (Zle_bool_imp_le 1 3 erefl)) ho.
Qed.

(** a layer of permittivity zero is accepted and fails with LinAlgError *)
Definition hole : user_layer 6 1 := UserLayer "Hole" 0 (LayerIn (Some 1%Re) (EpsGrid (0 : 'M[C]_(6, 1)))).
Lemma hole_fails n (h : 'I_n -> order) (rec : 'M[R]_2) (i0 : 'I_n) :
  (forall i, (h i).2 = 0%Zc /\ (-1 <= (h i).1 <= 1)%Zc) ->
  run_efficiencies demo_eig (light 0 1) rec h (Original 6 1)
    [:: ul_body sup; ul_body hole; ul_body sub] i0 = Err LinAlgError.
Proof.
move=> hx; rewrite /run_efficiencies /sup /hole /sub; cbn [ul_body li_eps scalar_eps bind].
rewrite normal_a0 //; last by rewrite /=; lra.
cbn [bind]; rewrite /solve_stack.
have e1 : (rc (1 * 1)%Re == 0 :> C) = false by apply/negbTE/rcn0; lra.
cbn [mapr li_eps li_thick]; rewrite {1}/solve_layer {1}/build_matrix e1; cbn [bind].
rewrite {1}/solve_layer {1}/build_matrix /get_toeplitz.
case: (@toeplitzP 6 1 isT isT _ h 0) => [[_ ->]|[c _]]; last first.
  by case: c => i j; have := hx i; have := hx j; rewrite /indexable /odiff /index_ok /=; lia.
cbn [of_option bind].
have -> : (\matrix_(i, j) coef (0 : 'M[C]_(6, 1)) ((h i).1 - (h j).1) ((h i).2 - (h j).2) : 'M[C]_n) = 0.
  by apply/matrixP=> i j; rewrite [LHS]mxE [RHS]mxE /coef big1 ?mul0r // => x _; rewrite big1 // => y _; rewrite mxE ?mul0r ?mulr0.
rewrite /linv unitmxE (_ : \det 0 = 0) ?unitr0 //.
by case: n {h hx} i0 => [[]//|n] _; rewrite det0.
Qed.

Example C84_case :
  (exists s, Init_Model.sim_init Argsort.isort lats (List.map (@to_py 6 1) [:: sup; hole; sub]) 3 "original" = Ok s) /\
  sim3 Argsort.isort [:: sup; hole; sub] (light 0 1) 3 "original" = Err LinAlgError.
Proof.
have nd : List.NoDup [:: "Superstrate"; "Hole"; "Substrate"]%string by repeat constructor => //=; intuition discriminate.
have hs := Argsort.isort_ok.
have [s [h1 h2 h3]] := @init3 Argsort.isort sup hole sub hs nd ltac:(by []) isT.
split; first by exists s.
have hl := layers_lattice h1 (or_introl erefl).
have [w1 [_ [_ [_ [w5 [w6 w7]]]]]] := Init_Proofs2.init_facts hs _ _ _ h1 ltac:(by rewrite hl; exact: gen1) ltac:(by left; lia).
have sz : size (Init_Model.sim_harmonics s) = Z.to_nat (Init_Model.sim_nh s) by rewrite h3 Nat2Z.id.
have [k1 _] := nth_errorP (0%Zc, 0%Zc) w5; rewrite sz in k1.
rewrite /simulate h1; cbn [bind]; rewrite /compute sz eqxx; cbn [negb]; case: insubP => [i0 _ _|]; last by rewrite k1.
rewrite w6 hl [X in bind X _]hole_fails //.
move=> i; have := in_harm sz i; case: (harm _ i) => x y /(proj2 h2 x y) /= [-> ]; lia.
Qed.

Example C85_case a : exists out1 out2,
  [/\ sim3 Argsort.isort [:: sup; grating a; sub] (light 0 1) 3 "original" = Ok out1,
      sim3 Argsort.rsort [:: sup; grating a; sub] (light 0 1) 3 "original" = Ok out2 &
      Permutation out1 out2].
Proof.
have [_ [[o1 h1] _]] := @sim3_ok Argsort.isort 0 1 a Argsort.isort_ok.
have [_ [[o2 h2] _]] := @sim3_ok Argsort.rsort 0 1 a Argsort.rsort_ok.
exists o1, o2; split=> //.
exact: (C85_reproducible (Nx := 6) (Ny := 1) isT isT demo_eig_ok Argsort.isort_ok (lattices := lats) (l0 := sup) (rest := [:: grating a; sub]) gen1
    (or_introl (Zle_bool_imp_le 1 3 erefl)) demo_eig_ok Argsort.rsort_ok erefl erefl (or_introl erefl) h1 h2).
Qed.

Example C86_case a : exists oa ob oc od,
  [/\ sim3 Argsort.isort [:: sup; grating a; sub] (light 0 1) 3 "original" = Ok oa,
      sim3 Argsort.isort [:: sup; grating a; sub] (light 0 (1 + PI / 2)) 3 "original" = Ok ob,
      sim3 Argsort.isort (rev [:: sup; grating a; sub]) (light (0 + PI) 2) 3 "original" = Ok oc &
      sim3 Argsort.isort (rev [:: sup; grating a; sub]) (light (0 + PI) (2 + PI / 2)) 3 "original" = Ok od] /\
  forall xa xb xc xd, List.In ((0%Zc, 0%Zc), xa) oa -> List.In ((0%Zc, 0%Zc), xb) ob ->
    List.In ((0%Zc, 0%Zc), xc) oc -> List.In ((0%Zc, 0%Zc), xd) od -> (xa.2 + xb.2 = xc.2 + xd.2)%Re.
Proof.
have [_ [[oa ha] _]] := @sim3_ok Argsort.isort 0 1 a Argsort.isort_ok.
have [_ [[ob hb] _]] := @sim3_ok Argsort.isort 0 (1 + PI / 2) a Argsort.isort_ok.
have [_ [_ [oc hc]]] := @sim3_ok Argsort.isort (0 + PI) 2 a Argsort.isort_ok.
have [_ [_ [od hd]]] := @sim3_ok Argsort.isort (0 + PI) (2 + PI / 2) a Argsort.isort_ok.
exists oa, ob, oc, od; split=> // xa xb xc xd za zb zc zd.
have pos : (0 < 1 * 1)%Re by lra.
have pos9 : (0 < 3 * 3)%Re by lra.
have l0 : (0 < pw_lambda (light 0 1))%Re by rewrite /=; lra.
have c0 phi psi : (0 < cos (pw_theta (light phi psi)))%Re by rewrite /= cos_0; lra.
have hr : forall l, List.In l [:: sup; grating a; sub] -> reciprocal (li_eps (ul_body l)) by exact: stack_all.
have hrb : reversed_below (1 * 1) (3 * 3) (light (0 + PI) 2) (light 0 1).
  by split=> //; split=> //=; rewrite !sin_0; ring.
exact: (C86_transmission (Nx := 6) (Ny := 1) isT isT demo_eig_ok Argsort.isort_ok (lattices := lats) (l0 := sup) (rest := [:: grating a; sub]) gen1
    (or_introl (Zle_bool_imp_le 1 3 erefl)) (or_introl erefl) pos erefl hr l0 (c0 _ _) erefl erefl ha hb za zb zc zd
    pos9 erefl (c0 _ _) hrb hc hd).
Qed.

(** Whole simulations: homogeneous stacks, patterned stacks, and the tangent fields. *)
From Coq Require Import Reals ZArith String Lra Lia.
From Verif Require Lattice_Model Lattice_Spec Lattice_Proofs3 Init_Model Init_Proofs Init_Proofs2.
From Verif Require Props_Init.
From mathcomp Require Import all_ssreflect all_algebra.
From mathcomp Require Import complex.
From Verif Require Import RStruct Cplx Base Fourier_Model Sim_Model Setup_Model E2E_Model Energy_Spec Optics_Spec E2E_Spec Multilayer_Spec.
From Verif Require Import Energy_Proofs Energy_Proofs2 E2E_Proofs E2E_Proofs2 Props_Optics2.

Set Implicit Arguments.
Unset Strict Implicit.
Unset Printing Implicit Defensive.

Import Order.TTheory GRing.Theory Num.Theory.
Local Open Scope ring_scope.
Local Open Scope complex_scope.

(** One run of [mapr] on a list containing [x] ran on [x]. *)
Lemma mapr_in A B (f : A -> res B) s t x : mapr f s = Ok t -> List.In x s -> exists y, f x = Ok y.
Proof.
elim: s t => [|a s IH] t //= H; ubind H b hb; ubind H r hr => -[<-|hx]; first by exists b.
exact: (IH r).
Qed.

Section Sim.
Variables (Nx Ny : nat).
Variable eig : forall m, 'M[C]_m -> 'rV[C]_m * 'M[C]_m.
Variable argsort : seq R -> seq nat.
Hypothesis hsort : Lattice_Model.argsort_ok argsort.
Variable lattices : nat -> Lattice_Model.lattice.
Implicit Types tan : string -> 'M[C]_(Nx, Ny) -> res ('M[C]_(Nx, Ny) * 'M[C]_(Nx, Ny)).
Notation simulate tan := (simulate eig argsort tan lattices).

Lemma init_form (layers : seq (user_layer Nx Ny)) nh form s :
  Init_Model.sim_init argsort lattices (List.map (@to_py Nx Ny) layers) nh form = Ok s ->
  Init_Model.sim_form s = form.
Proof.
move=> /Init_Proofs.sim_init_inv [l [t [G [n [m [r [_ [_ [_ [_ /= [_ [_ [_ [_ [_ [_ ->]]]]]]]]]]]]]]]].
by [].
Qed.

(** simulations that do not ask for a vector field *)
Lemma tan_unused tan1 tan2 l0 rest pw nh form :
  form = "original"%string \/ form = "tangent"%string /\ Lattice_Model.lt_is1D (lattices (ul_lat l0)) = true ->
  simulate tan1 (l0 :: rest) pw nh form = simulate tan2 (l0 :: rest) pw nh form.
Proof.
move=> hf; rewrite /E2E_Model.simulate.
case hs : (Init_Model.sim_init _ _ _ _ _) => [s|e]; last by [].
cbn [bind]; rewrite /compute.
have ef := init_form hs; have el := layers_lattice hs (or_introl erefl : List.In l0 (l0 :: rest)).
suff -> : choose_form tan1 (Init_Model.sim_form s) (Lattice_Model.lt_is1D (Init_Model.sim_lattice s)) =
          choose_form tan2 (Init_Model.sim_form s) (Lattice_Model.lt_is1D (Init_Model.sim_lattice s)) by [].
by rewrite ef el /choose_form; case: hf => [->|[-> ->]].
Qed.

(** simulations that do *)
Lemma tan_used tan l0 rest pw nh form l u e :
  form <> "original"%string -> (form <> "tangent"%string \/ Lattice_Model.lt_is1D (lattices (ul_lat l0)) = false) ->
  List.In l (l0 :: rest) -> li_eps (ul_body l) = EpsGrid u -> tan form u = Err e ->
  forall out, simulate tan (l0 :: rest) pw nh form <> Ok out.
Proof.
move=> f1 f2 hl hu ht out /simulateP [s [n [i0 [r [hs _ _ hr _]]]]].
have ef := init_form hs; have el := layers_lattice hs (or_introl erefl : List.In l0 (l0 :: rest)).
move: hr; rewrite ef el.
have -> : choose_form tan form (Lattice_Model.lt_is1D (lattices (ul_lat l0))) = TangentLike (tan form).
  rewrite /choose_form; case: String.eqb_spec => // _; case: String.eqb_spec => //= et.
  by case: f2 => // ->.
rewrite /run_efficiencies [List.map _ _]/= => H; ubind H e0 h0; ubind H a ha; ubind H st hst.
have [y hy] := mapr_in hst (List.in_map (@ul_body Nx Ny) _ _ hl : List.In (ul_body l) (ul_body l0 :: List.map (@ul_body Nx Ny) rest)).
move: hy; rewrite hu /solve_layer /build_matrix => hy.
ubind hy b hb; ubind hb x1 hx1; ubind hb x2 hx2; ubind hb x3 hx3.
by move: hx3; rewrite ht.
Qed.

(** homogeneous stacks: one line, with the textbook values *)
Lemma sim_homogeneous tan n0 lt t0 e0 (films : seq (string * (C * R))) nN tN eN pw nh form out :
  Lattice_Proofs3.generates (lattices lt) ->
  (0 < pw_lambda pw)%Re -> (0 < cos (pw_theta pw))%Re -> (0 < e0)%Re ->
  simulate tan (UserLayer n0 lt (LayerIn t0 (EpsUniform Nx Ny (rc e0)))
     :: List.map (fun f => UserLayer f.1 lt (film Nx Ny f.2)) films
     ++ [:: UserLayer nN lt (LayerIn tN (EpsUniform Nx Ny eN))]) pw nh form = Ok out ->
  let k0 := (2 * PI / pw_lambda pw)%Re in
  let kt2 := (e0 * (k0 * k0) * (sin (pw_theta pw) * sin (pw_theta pw)))%Re in
  let te := (sin (pw_psi pw) * sin (pw_psi pw))%Re in let tm := (cos (pw_psi pw) * cos (pw_psi pw))%Re in
  let ls := List.map snd films in
  out = [:: ((0%Zc, 0%Zc),
    (te * reflectance k0 kt2 TE (rc e0) ls eN + tm * reflectance k0 kt2 TM (rc e0) ls eN,
     te * transmittance k0 kt2 TE (rc e0) ls eN + tm * transmittance k0 kt2 TM (rc e0) ls eN)%Re)].
Proof.
move=> hg lam cth e0p /simulateP [s [n [i0 [r [hs [hn sz] hi hr ->]]]]] k0 kt2 te tm ls.
have hl := layers_lattice hs (or_introl erefl).
rewrite [ul_lat _]/= in hl.
have hu : List.forallb Init_Model.pl_uniform (List.map (@to_py Nx Ny) (UserLayer n0 lt (LayerIn t0 (EpsUniform Nx Ny (rc e0)))
     :: List.map (fun f => UserLayer f.1 lt (film Nx Ny f.2)) films
     ++ [:: UserLayer nN lt (LayerIn tN (EpsUniform Nx Ny eN))])) = true.
  by rewrite uniform_py /=; elim: (films).
have [G1 [n1 i1]] := Props_Init.C13_uniform hsort lattices _ _ _ hs (ltac:(by rewrite hl)) hu.
rewrite n1 -[Z.to_nat 1]/1%N in hn.
move: i0 r hi hr sz; rewrite hn G1 => i0 r _ hr _.
have bodies : List.map (@ul_body Nx Ny) (UserLayer n0 lt (LayerIn t0 (EpsUniform Nx Ny (rc e0)))
     :: List.map (fun f => UserLayer f.1 lt (film Nx Ny f.2)) films
     ++ [:: UserLayer nN lt (LayerIn tN (EpsUniform Nx Ny eN))]) =
   LayerIn t0 (EpsUniform Nx Ny (rc e0)) :: [seq film Nx Ny ed | ed <- ls] ++ [:: LayerIn tN (EpsUniform Nx Ny eN)].
  by rewrite /ls /=; congr (_ :: _); elim: (films) => //= f fs ->.
rewrite bodies in hr.
have hz : harm [:: (0%Zc, 0%Zc)] i0 = (0%Zc, 0%Zc) by rewrite (ord1 i0).
have [_ [e1 [e2 _]]] := C89_multilayer lam cth hz e0p hr.
rewrite /listing enum_ordSl (_ : enum 'I_0 = [::]); last by apply: size0nil; rewrite size_enum_ord.
rewrite /= (_ : harm _ ord0 = (0%Zc, 0%Zc)) //.
by move: e1 e2; rewrite (ord1 i0) => -> ->.
Qed.

(** patterned stacks: the orders of the lattice for the requested number *)
Lemma sim_patterned tan l0 rest l pw nh form out :
  Lattice_Proofs3.generates (lattices (ul_lat l0)) -> (2 <= nh)%Zc ->
  List.In l (l0 :: rest) -> is_uniform (li_eps (ul_body l)) = false ->
  simulate tan (l0 :: rest) pw nh form = Ok out ->
  Lattice_Model.get_harmonics argsort (lattices (ul_lat l0)) nh true = Ok (orders_of out, Z.of_nat (size out)).
Proof.
move=> hg hn hl hu hs.
have h1 : (1 <= nh)%Zc by lia.
have [s [n [i0 [r [[hi en] sz _ _ ->]]]]] := simulate_run hsort hg (or_introl h1) hs.
have ef := Init_Proofs.sim_init_inv _ _ _ _ _ hi.
case: ef => l1 [t [G [m [maxN [rr [el [_ [_ [_ /= [_ [hh [_ [_ [_ [_ es]]]]]]]]]]]]]]].
have e1 : Init_Model.pl_lat l1 = ul_lat l0 by case: el => <- _.
have eu : List.forallb Init_Model.pl_uniform (List.map (@to_py Nx Ny) (l0 :: rest)) = false.
  apply/negbTE/negP=> hf; have := proj1 (List.forallb_forall _ _) hf (to_py l) (List.in_map _ _ _ hl).
  by rewrite /= hu.
have e2 : Init_Model.effective_nh (List.forallb Init_Model.pl_uniform (List.map (@to_py Nx Ny) (l0 :: rest))) nh = nh.
  by rewrite eu /Init_Model.effective_nh /=; case: Z.eqb_spec => //; lia.
move: hh; rewrite e2 e1 => hh.
have eG : Init_Model.sim_harmonics s = G by rewrite es.
have em : Init_Model.sim_nh s = m by rewrite es.
rewrite /orders_of (listing_fst sz) hh.
have -> : size (listing (Init_Model.sim_harmonics s) r) = n by rewrite size_map size_enum_ord.
by rewrite en em eG.
Qed.
End Sim.

(** C94: the vector formulations and the discretization of the lattice. *)
From Coq Require Import Reals ZArith String Lra Lia.
From Verif Require Lattice_Model Init_Model Argsort Lattice_Examples Props_Init.
From mathcomp Require Import all_ssreflect all_algebra.
From mathcomp Require Import complex.
From Verif Require Import RStruct Cplx Base Fourier_Model Fourier_Spec Sim_Model Setup_Model E2E_Model Tangent_Model Opt_Model Opt_Spec Grid_Spec Recip_Spec.
From Verif Require Import Aniso_Proofs Opt_Proofs5 Props_Opt Props_E2E3.
From Verif Require Tangent_Proofs Herm_Proofs2.

Set Implicit Arguments.
Unset Strict Implicit.
Unset Printing Implicit Defensive.

Import Order.TTheory GRing.Theory Num.Theory.
Local Open Scope ring_scope.
Local Open Scope complex_scope.

(** Layers with the default tangent_field_type "opt": a field is returned only if the
    optimisation returns one for the pattern of the layer, with some harmonics, some solver
    and one of the two normalisations. *)
Definition default_type Nx Ny (tan : string -> 'M[C]_(Nx, Ny) -> res ('M[C]_(Nx, Ny) * 'M[C]_(Nx, Ny))) : Prop :=
  forall form u t, tan form u = Ok t ->
  exists nh (h : 'I_nh -> order) minimize normalize t', opt_field h minimize normalize u = Ok t'.

Theorem C94_grid_refuted Nx Ny eig argsort lattices tan l0 rest pw nh form l u :
  default_type tan -> ~ workable Nx Ny ->
  form <> "original"%string -> (form <> "tangent"%string \/ Lattice_Model.lt_is1D (lattices (ul_lat l0)) = false) ->
  List.In l (l0 :: rest) -> li_eps (ul_body l) = EpsGrid u ->
  forall out, @simulate Nx Ny eig argsort tan lattices (l0 :: rest) pw nh form <> Ok out.
Proof.
move=> hd hw f1 f2 hl hu.
case ht : (tan form u) => [t|e]; last exact: (C91_asked f1 f2 hl hu ht).
have [n [h [mi [no [t' ho]]]]] := hd _ _ _ ht.
by have [_ [_]] := opt_workable ho.
Qed.

(** The operator of a layer exists as soon as those of the two Toeplitz rules and the tangent
    field do; the field of type "fft" exists on every grid, that of type "opt" on the
    workable ones. *)
Theorem C94_field_partial Nx Ny nh (h : 'I_nh -> order) omega kx ky tan (u : 'M[C]_(Nx, Ny)) b N :
  (1 < Nx)%N -> (1 < Ny)%N ->
  build_matrix omega kx ky h (Original Nx Ny) 1 (EpsGrid u) = Ok b -> nu_hat_inv_iso h u = Ok N ->
  ((exists t, tan u = Ok t) <-> (exists b', build_matrix omega kx ky h (TangentLike tan) 1 (EpsGrid u) = Ok b')) /\
  (forall normalize, exists t, tangent_field_fft normalize u = Ok t) /\
  (forall minimize normalize, workable Nx Ny -> indexed h (minn 64 Nx) (minn 64 Nx) ->
     exists t, opt_field h minimize normalize u = Ok t).
Proof.
move=> hx hy hb hN; have Nx0 := ltnW hx; have Ny0 := ltnW hy; split; [split|split].
- by move=> [t ht]; exact: (vector_build Nx0 Ny0 hb hN ht).
- move=> [b' hb']; move: hb'; rewrite /build_matrix => H.
  by ubind H ya g1; ubind H yb g2; ubind H yc g3; ubind g3 t ht; exists t.
- by move=> normalize; exact: Tangent_Proofs.tangent_total.
- move=> minimize normalize hw hi.
  have e : minn 64 Ny = minn 64 Nx.
    case: hw => [[-> _]|[k [l [ex ey]]]] //.
    by rewrite ex ey in Nx0 Ny0 *; rewrite !muln_gt0 /= in Nx0 Ny0; rewrite !(minn_idPl _) // leq_pmulr.
  apply: (proj1 (C92_accepts_partial minimize normalize hx hy hi _ _)) => //; first by rewrite e.
  exists (Ordinal Nx0), (Ordinal Ny0) => u0.
  by move: hN; rewrite /nu_hat_inv_iso /pointwise_inv; case: ifP => // /forallP /(_ (Ordinal Nx0)) /forallP /(_ (Ordinal Ny0)); rewrite u0 eqxx.
Qed.
Print Assumptions C94_grid_refuted.
Print Assumptions C94_field_partial.

(** A square lattice sampled on 64 by 32 points: the constructor accepts every formulation,
    "jones", "pol" and "tangent" never return efficiencies. *)
Definition opt_tan nh (h : 'I_nh -> order) minimize (form : string) (u : 'M[C]_(64, 32)) :=
  let! t := opt_field h minimize (String.eqb form "tangent") u in
  Ok (map_mx (real_complex R_rcfType) t.1, map_mx (real_complex R_rcfType) t.2).
Lemma opt_tan_default nh (h : 'I_nh -> order) minimize : default_type (opt_tan h minimize).
Proof. by move=> form u t H; ubind H t' ht; exists nh, h, minimize, (String.eqb form "tangent"), t'. Qed.

Definition half_space n e : user_layer 64 32 := UserLayer n 0 (LayerIn None (EpsUniform 64 32 (rc e))).
Definition pattern u : user_layer 64 32 := UserLayer "grating" 0 (LayerIn (Some 1%Re) (EpsGrid u)).
Example C94_case u nh (h : 'I_nh -> order) minimize : exists s,
  Init_Model.sim_init Argsort.isort (fun=> Lattice_Examples.square false)
     (List.map (@to_py 64 32) [:: half_space "air" 1; pattern u; half_space "glass" 2]) 12 "jones" = Ok s /\
  forall pw out, simulate demo_eig Argsort.isort (opt_tan h minimize) (fun=> Lattice_Examples.square false)
     [:: half_space "air" 1; pattern u; half_space "glass" 2] pw 12 "jones" <> Ok out.
Proof.
have [s [hs _]] := Props_Init.C12_case; exists s; split=> // pw.
apply: (@C94_grid_refuted 64 32 _ _ _ _ _ _ _ _ _ (pattern u) u (@opt_tan_default _ h minimize) not_64_32) => //.
- by left.
- by right; left.
Qed.

(** A grid of 4 by 4 points with three orders, on which both fields exist. *)
Example C94_field_case : exists b N,
  build_matrix 1%Re 0 0 Herm_Proofs2.g3 (Original 4 4) 1 (EpsGrid Herm_Proofs2.post) = Ok b /\
  nu_hat_inv_iso Herm_Proofs2.g3 Herm_Proofs2.post = Ok N /\ workable 4 4 /\
  indexed Herm_Proofs2.g3 (minn 64 4) (minn 64 4).
Proof.
have [b hb] : exists b, build_matrix 1%Re 0 0 Herm_Proofs2.g3 (Original 4 4) 1 (EpsGrid Herm_Proofs2.post) = Ok b.
  rewrite /build_matrix /get_toeplitz Herm_Proofs2.post_E; cbn [of_option bind].
  by rewrite Herm_Proofs2.post_unit; cbn [bind]; rewrite /assemble oner_eq0; eexists.
exists b; eexists; split; first exact: hb.
split; first exact: Herm_Proofs2.post_N.
split; first by left.
by move=> [[|[|[|i]]] hi] //; rewrite /index_ok /=; lia.
Qed.

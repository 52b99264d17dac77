(** C95: lossless patterns and the formulations with a tangent field. *)
From Coq Require Import Reals ZArith Lra Lia.
From mathcomp Require Import all_ssreflect all_algebra.
From mathcomp Require Import complex.
From Verif Require Import RStruct Cplx Base Fourier_Model Fourier_Spec Sim_Model Sim_Spec Setup_Model.
From Verif Require Import Energy_Spec Energy_Proofs3 Orders_Model Fourier_Proofs Herm_Spec Herm_Proofs Herm_Proofs2.
From Verif Require Import Diag_Proofs Demo_Proofs Aniso_Proofs Run_Proofs Orders_Proofs.
From Verif Require Import Props_Energy Props_Tangent.

Set Implicit Arguments.
Unset Strict Implicit.
Unset Printing Implicit Defensive.

Import Order.TTheory GRing.Theory Num.Theory.
Local Open Scope ring_scope.
Local Open Scope complex_scope.

(** The operator need not be Hermitian: permittivities 1 and 2, a real field of unit vectors,
    three orders, at every wavelength and incidence. *)
Theorem C95_hermitian_refuted : exists (u : 'M[C]_4) (t : 'M[C]_4 * 'M[C]_4) (h : 'I_3 -> order),
  (forall i j, u i j = 1 \/ u i j = 1 + 1) /\
  (forall i j, (t.1 i j = 1 /\ t.2 i j = 0) \/ (t.1 i j = 0 /\ t.2 i j = 1)) /\
  forall omega kx ky, (0 < omega)%Re -> exists b P,
    build_matrix omega kx ky h (TangentLike (fun _ => Ok t)) 1 (EpsGrid u) = Ok b /\
    bt_Peps b = Some P /\ ~ hermitian P.
Proof.
exists post, turn, g3; split; [|split].
- by move=> i j; rewrite mxE; case: ifP => _; [right|left; rewrite addr0].
- by move=> i j; rewrite !mxE; case: ifP => _; [right; rewrite subrr add0r|left; rewrite !addr0].
- by move=> omega kx ky w; apply: post_not; apply/eqP => -[] e; apply: (Rgt_not_eq _ _ w).
Qed.

Section Operator.
Variables (Nx Ny nh : nat).
Hypotheses (Nx0 : (0 < Nx)%N) (Ny0 : (0 < Ny)%N).
Variable omega : R.
Hypothesis w0 : (0 < omega)%Re.
Variables (kx ky : 'rV[C]_nh) (h : 'I_nh -> order) (u : 'M[C]_(Nx, Ny)).
Hypothesis hu : forall x y, conj (u x y) = u x y.
Variables (tan : 'M[C]_(Nx, Ny) -> res ('M[C]_(Nx, Ny) * 'M[C]_(Nx, Ny))) (t : 'M[C]_(Nx, Ny) * 'M[C]_(Nx, Ny)).
Hypothesis ht : tan u = Ok t.
Variables (b : built nh) (P : 'M[C]_(nh + nh)).
Hypothesis hb : build_matrix omega kx ky h (TangentLike tan) 1 (EpsGrid u) = Ok b.
Hypothesis hP : bt_Peps b = Some P.

Lemma w_nz : rc omega != 0.
Proof. by apply/eqP => -[] e; apply: (Rgt_not_eq _ _ w0). Qed.

(** It is exactly when the projector commutes with the difference of the two Toeplitz rules. *)
Theorem C95_commute_partial E N Pi :
  toeplitz h u = Some E -> nu_hat_inv_iso h u = Ok N -> proj_blocks h t.1 t.2 = Ok Pi ->
  (hermitian P <-> commute_mx (block_mx (E - N) 0 0 (E - N)) Pi).
Proof. by move=> hE hN hPi; exact: (peps_iff Nx0 Ny0 w_nz hu hb ht hE hN hPi hP). Qed.

(** In particular when the field is constant. *)
Theorem C95_constant_partial :
  separated Nx Ny h -> constant_field t -> hermitian P.
Proof. by move=> sep hc; exact: (constant_op Nx0 Ny0 w_nz hu sep ht hc hb hP). Qed.
End Operator.

(** Where every operator is Hermitian, power is conserved, whatever the formulation. *)
Theorem C95_energy_partial (Nx Ny nh : nat) (eig : forall m, 'M[C]_m -> 'rV[C]_m * 'M[C]_m)
    (pw : planewave) (rec : 'M[R]_2) (h : 'I_nh -> order) (form : formulation_t Nx Ny) (i0 : 'I_nh)
    (l0 : layer_in Nx Ny) (rest : seq (layer_in Nx Ny)) (e0 eN : R) (r : effs nh) :
  (0 < Nx)%N -> (0 < Ny)%N ->
  (forall m (A : 'M[C]_m), A *m (eig m A).2 = (eig m A).2 *m diag_mx (eig m A).1) ->
  (0 < pw_lambda pw)%Re -> (0 < cos (pw_theta pw))%Re -> h i0 = (0%Zc, 0%Zc) -> (0 < e0)%Re ->
  li_eps l0 = EpsUniform Nx Ny (rc e0) -> li_eps (last l0 rest) = EpsUniform Nx Ny (rc eN) ->
  run_efficiencies eig pw rec h form (l0 :: rest) i0 = Ok r ->
  (forall l, List.In l (l0 :: rest) -> lossless (li_eps l)) ->
  (forall l b P, List.In l (l0 :: rest) ->
    build_matrix (sim_omega pw) (sim_kx pw rec h (rc e0)) (sim_ky pw rec h (rc e0)) h form 1 (li_eps l) = Ok b ->
    bt_Peps b = Some P -> hermitian P) ->
  \sum_i r.1 i ord0 + \sum_i r.2 i ord0 = 1.
Proof.
move=> Nx0 Ny0 eig_ok lam cth hi0 e0p he0 heN hr hl hh.
apply: (herm_sum Nx0 Ny0 eig_ok lam cth hi0 e0p he0 heN hr hl) => l hin b P hb hP.
exact: hh hin hb hP.
Qed.

Print Assumptions C95_hermitian_refuted.
Print Assumptions C95_commute_partial.
Print Assumptions C95_constant_partial.
Print Assumptions C95_energy_partial.

(** The same pattern with the field along y everywhere. *)
Example C95_case : exists b P,
  build_matrix 1%Re 0 0 g3 (TangentLike (fun _ => Ok (0, const_mx 1))) 1 (EpsGrid post) = Ok b /\
  bt_Peps b = Some P /\ hermitian P.
Proof.
have n4 : (0 < 4)%N by [].
have [Pi hPi] : exists Pi, proj_blocks g3 (0 : 'M[C]_4) (const_mx 1) = Ok Pi.
  have [M1 e1] := toep_some (Tangent_Proofs.pfun 0 (const_mx 1) 0 0).
  have [M2 e2] := toep_some (Tangent_Proofs.pfun 0 (const_mx 1) (const_mx 1) (const_mx 1)).
  have [M3 e3] := toep_some (Tangent_Proofs.pfun 0 (const_mx 1) 0 (const_mx 1)).
  have [M4 e4] := toep_some (Tangent_Proofs.pfun 0 (const_mx 1) (const_mx 1) 0).
  rewrite /proj_blocks /get_toeplitz; cbv zeta; rewrite /Tangent_Proofs.pfun in e1 e2 e3 e4.
  by rewrite e1 e2 e3 e4; eexists.
have w1 : (0 < 1)%Re by lra.
have [b hb] : exists b, build_matrix 1%Re 0 0 g3 (TangentLike (fun _ => Ok (0, const_mx 1))) 1 (EpsGrid post) = Ok b.
  rewrite /build_matrix /get_toeplitz post_E; cbn [of_option bind].
  rewrite post_unit; cbn [bind]; rewrite post_N; cbn [bind].
  by rewrite /get_Peps hPi; cbn [bind]; rewrite /assemble oner_eq0; eexists.
have [t [E [N [Pi' [[h1 h2 h3 h4] hP]]]]] := grid_peps (w_nz w1) hb.
exists b; eexists; split=> //; split; first exact: hP.
apply: (C95_constant_partial n4 n4 w1 _ (erefl _ : (fun _ => Ok (0, const_mx 1)) post = Ok _) hb hP).
- move=> x y; rewrite /post mxE conjD; congr (_ + _); first exact: (conj_nat 1).
  by case: ifP => _; [exact: (conj_nat 1)|exact: (conj_nat 0)].
- exact: g3_separated.
- by move=> i j i' j'; rewrite /= !mxE.
Qed.

(** A simulation with a tangent field in which power is conserved. *)
Definition still : 'M[C]_2 -> res ('M[C]_2 * 'M[C]_2) := fun _ => Ok (0, 0).
Lemma still_op omega kx ky :
  build_matrix omega kx ky demo_h (TangentLike still) 1 (EpsGrid demo_grid) =
  build_matrix omega kx ky demo_h (Original 2 2) 1 (EpsGrid demo_grid).
Proof.
have hu i j : demo_grid i j = stripes i ord0 by rewrite !mxE.
have h0 i : (demo_h i).2 = 0%Zc by [].
have hPi : proj_blocks demo_h (0 : 'M[C]_2) 0 = Ok 0.
  have [Pi hPi] := @one_proj 2 2 isT isT 0 0; have hPi' : proj_blocks demo_h (0 : 'M[C]_2) 0 = Ok Pi := hPi.
  rewrite hPi'; congr Ok.
  have [Pxx [Pyy [Pxy [Pyx [[e1 e2 e3 e4] ->]]]]] := Tangent_Proofs.proj_blocksE hPi'.
  have z (M : 'M[C]_1) : toeplitz demo_h (Tangent_Proofs.pfun (0 : 'M[C]_2) 0 0 0) = Some M -> M = 0.
    by apply: (toeplitz0 (isT : (0 < 2)%N) (isT : (0 < 2)%N)) => i j; rewrite !mxE !mul0r.
  by rewrite (z _ e1) (z _ e2) (z _ e3) (z _ e4) block_mx0.
have hN : nu_hat_inv_iso demo_h demo_grid = Ok (rc 3%Re)%:M.
  by rewrite (@nu_y 2 2 1 demo_h isT isT h0 stripes) //; exact: stripes_nu.
rewrite /build_matrix /still; case: (get_toeplitz demo_h demo_grid) => [E|//]; cbn [bind].
case: (linv E) => [Ei|//]; cbn [bind]; rewrite hN; cbn [bind].
by rewrite /get_Peps [(_, _).1]/= [(_, _).2]/= hPi; cbn [bind]; rewrite mulmx0 subr0.
Qed.

Example C95_energy_case : exists r,
  run_efficiencies demo_eig demo_pw demo_rec demo_h (TangentLike still) (demo_layers demo_grid) ord0 = Ok r /\
  r.1 ord0 ord0 + r.2 ord0 ord0 = 1.
Proof.
have [r [F [hr [hF [hl [hf [h1 [h2 h3]]]]]]]] := C28_case.
have hr' : run_efficiencies demo_eig demo_pw demo_rec demo_h (TangentLike still) (demo_layers demo_grid) ord0 = Ok r.
  have hs om kx ky : solve_layer demo_eig om kx ky demo_h (TangentLike still) (Some 1%Re) 1 (EpsGrid demo_grid) =
    solve_layer demo_eig om kx ky demo_h (Original 2 2) (Some 1%Re) 1 (EpsGrid demo_grid) by rewrite /solve_layer still_op.
  rewrite -hr /run_efficiencies /demo_layers [scalar_eps _]/=; cbn [bind]; rewrite /solve_stack.
  by cbn [mapr li_thick li_eps]; rewrite hs.
exists r; split=> //.
have e0p : (0 < 1 * 1)%Re by lra.
rewrite /demo_layers in hr' hl.
set x := LayerIn _ _ in hr' hl; set xs := [:: _; _] in hr' hl.
have E1 : li_eps x = EpsUniform 2 2 (rc (1 * 1)%Re) by [].
have E2 : li_eps (last x xs) = EpsUniform 2 2 (rc (3 * 3)%Re) by [].
have n2 : (0 < 2)%N by [].
have := C95_energy_partial n2 n2 demo_eig_ok h1 h2 h3 e0p E1 E2 hr' hl; rewrite !big_ord1; apply=> l b P hin hb hP.
have w1 : (0 < sim_omega demo_pw)%Re by exact: demo_w.
move: hin hb => [<-|[<-|[<-|[]]]] hb.
- by move: hb hP => /=; case: ifP => // _ [<-].
- apply: (C95_constant_partial n2 n2 w1 _ (erefl _ : still demo_grid = Ok _) hb hP).
  + by move=> a c; exact: (hl _ (or_intror (or_introl erefl)) a c).
  + by move=> i j; rewrite (ord1 i) (ord1 j) eqxx.
  + by move=> i j i' j'; rewrite /= !mxE.
- by move: hb hP => /=; case: ifP => // _ [<-].
Qed.

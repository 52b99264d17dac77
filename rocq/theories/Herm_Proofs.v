(** The permittivity operator of the vector formulations in lossless layers. *)
From Coq Require Import Reals ZArith Lra Lia.
From mathcomp Require Import all_ssreflect all_algebra.
From mathcomp Require Import complex.
From Verif Require Import RStruct Cplx Cderiv Base Fourier_Model Fourier_Spec Sim_Model Sim_Spec Setup_Model.
From Verif Require Import SMat_Proofs SMat_Proofs2 SMat_Proofs3 Maxwell_Spec Modes_Proofs Maxwell_Proofs.
From Verif Require Import Fourier_Proofs Energy_Spec Energy_Proofs Energy_Proofs2 Energy_Proofs3.
From Verif Require Tangent_Proofs.
From Verif Require Import Herm_Spec.

Set Implicit Arguments.
Unset Strict Implicit.
Unset Printing Implicit Defensive.

Import Order.TTheory GRing.Theory Num.Theory.
Local Open Scope ring_scope.
Local Open Scope complex_scope.

Lemma herm_mul_sub m (E D Pi : 'M[C]_m) : herm E -> herm D -> herm Pi ->
  (herm (E - D *m Pi) <-> D *m Pi = Pi *m D).
Proof.
move=> hE hD hPi.
have adj : (D *m Pi)^T = map_mx conj (Pi *m D).
  by rewrite trmx_mul map_mxM; move: hD hPi => /hermP -> /hermP ->.
split=> [H|H].
- have H1 : herm (D *m Pi).
    have -> : D *m Pi = E + - (E - D *m Pi) by rewrite opprB addrC subrK.
    by apply: hermD => //; apply: hermN.
  move/hermP: H1; rewrite adj => /matrixP H2; apply/matrixP=> i j.
  by move: (H2 i j); rewrite [LHS]mxE [RHS]mxE => /(can_inj conjK) ->.
- apply: hermD => //; apply: hermN; apply/hermP; rewrite adj.
  by congr map_mx.
Qed.

Section Herm.
Variables (Nx Ny nh : nat).
Hypotheses (Nx0 : (0 < Nx)%N) (Ny0 : (0 < Ny)%N).
Variable omega : R.
Hypothesis omega_neq0 : rc omega != 0.
Variables (kx ky : 'rV[C]_nh) (h : 'I_nh -> order).
Notation n2 := (nh + nh)%N.

Lemma proj_herm (t0 t1 : 'M[C]_(Nx, Ny)) Pi : proj_blocks h t0 t1 = Ok Pi -> herm Pi.
Proof.
move=> /(Tangent_Proofs.proj_hermitian Nx0 Ny0) e; rewrite /Tangent_Proofs.herm in e.
by move=> i j; rewrite -[in LHS]e !mxE.
Qed.

Lemma nu_herm (u : 'M[C]_(Nx, Ny)) nu : (forall x y, conj (u x y) = u x y) ->
  nu_hat_inv_iso h u = Ok nu -> herm nu.
Proof.
move=> hl hnu; rewrite /nu_hat_inv_iso in hnu; ubind hnu iu hiu; ubind hnu nuhat hnh.
move: hnu; rewrite /linv; case: ifP => // _ [<-].
apply: herm_inv; apply: (herm_toeplitz Nx0 Ny0) hnh => x y.
move: hiu; rewrite /pointwise_inv; case: ifP => // _ [<-].
by rewrite mxE conjV hl.
Qed.

Lemma grid_peps tan (u : 'M[C]_(Nx, Ny)) b :
  build_matrix omega kx ky h (TangentLike tan) 1 (EpsGrid u) = Ok b ->
  exists t E N Pi, [/\ tan u = Ok t, get_toeplitz h u = Ok E, nu_hat_inv_iso h u = Ok N &
    proj_blocks h t.1 t.2 = Ok Pi] /\
    bt_Peps b = Some (block_mx E 0 0 E - (block_mx E 0 0 E - block_mx N 0 0 N) *m Pi).
Proof.
move=> hb; rewrite /build_matrix in hb; ubind hb E hE; ubind hb ehi hi; ubind hb P hP.
ubind hP t ht; ubind hP nu hnu; rewrite /get_Peps in hP; ubind hP Pi hPi; case: hP => eP.
have [hQ [h1 [h2 h3]]] := assembleP omega_neq0 hb.
by exists t, E, nu, Pi; rewrite h2 -eP.
Qed.

Lemma diag_herm (A : 'M[C]_nh) : herm A -> herm (block_mx A 0 0 A).
Proof. by move=> hA; apply: herm_block => //; exact: conj_zero. Qed.

Lemma peps_iff tan (u : 'M[C]_(Nx, Ny)) t E N Pi b P : (forall x y, conj (u x y) = u x y) ->
  build_matrix omega kx ky h (TangentLike tan) 1 (EpsGrid u) = Ok b ->
  tan u = Ok t -> toeplitz h u = Some E -> nu_hat_inv_iso h u = Ok N -> proj_blocks h t.1 t.2 = Ok Pi ->
  bt_Peps b = Some P ->
  (herm P <-> commute_mx (block_mx (E - N) 0 0 (E - N)) Pi).
Proof.
move=> hu /grid_peps [t' [E' [N' [Pi' [[h1 h2 h3 h4] hP]]]]] ht hE hN hPi.
move: h1 h2 h3; rewrite ht hN /get_toeplitz hE => -[e1] [e2] [e3]; subst t' E' N'.
move: h4; rewrite hPi => -[e4]; subst Pi'; rewrite hP => -[<-].
have hEE : herm E by apply: (herm_toeplitz Nx0 Ny0 hu (h := h)); rewrite /get_toeplitz hE.
have hNN := nu_herm hu hN.
have -> : block_mx E 0 0 E - block_mx N 0 0 N = block_mx (E - N) 0 0 (E - N).
  by rewrite opp_block_mx add_block_mx !oppr0 !addr0.
apply: herm_mul_sub; [exact: diag_herm| |exact: proj_herm hPi].
by apply: diag_herm; apply: hermD => //; apply: hermN.
Qed.

(** A layer whose operator is Hermitian conserves power, whatever the formulation. *)
Variable eig : forall m, 'M[C]_m -> 'rV[C]_m * 'M[C]_m.
Hypothesis eig_ok : forall m (A : 'M[C]_m), A *m (eig A).2 = (eig A).2 *m diag_mx (eig A).1.
Hypothesis kx_real : forall i, conj (kx ord0 i) = kx ord0 i.
Hypothesis ky_real : forall i, conj (ky ord0 i) = ky ord0 i.

Lemma epsz_herm form (eps : eps_t Nx Ny) b : lossless eps ->
  build_matrix omega kx ky h form 1 eps = Ok b -> herm (layer_epsz eps b).
Proof.
move=> hl; case: eps hl => [e|u|u|e] hl hb //.
- by apply: herm_scalar.
- rewrite /build_matrix in hb; ubind hb eh he; ubind hb ehi hi; ubind hb P hP.
  have [hQ [h1 [h2 h3]]] := assembleP omega_neq0 hb.
  rewrite /layer_epsz h1 /=; exact: (herm_toeplitz Nx0 Ny0 hl he).
- rewrite /build_matrix in hb; ubind hb eh he; ubind hb ehi hi; ubind hb ep hep; ubind hb P hP.
  have [hQ [h1 [h2 h3]]] := assembleP omega_neq0 hb.
  rewrite /layer_epsz h1 /=.
  by apply: (herm_toeplitz Nx0 Ny0) he => x y; rewrite -hl.
Qed.

Definition herm_operator form (eps : eps_t Nx Ny) : Prop :=
  forall b P, build_matrix omega kx ky h form 1 eps = Ok b -> bt_Peps b = Some P -> herm P.

Lemma peps_op form (eps : eps_t Nx Ny) b : lossless eps -> herm_operator form eps ->
  build_matrix omega kx ky h form 1 eps = Ok b -> herm (layer_Peps eps b).
Proof.
move=> hl ho hb; case: eps hl ho hb => [e|u|u|e] hl ho hb //.
- by apply: herm_scalar.
- have [t [hP ?]] : exists P, bt_Peps b = Some P /\ True.
    have hb' := hb; rewrite /build_matrix in hb'; ubind hb' eh he; ubind hb' ehi hi; ubind hb' P hP.
    by have [hQ [h1 [h2 h3]]] := assembleP omega_neq0 hb'; exists P.
  by rewrite /layer_Peps hP /=; exact: ho hb hP.
- have [t [hP ?]] : exists P, bt_Peps b = Some P /\ True.
    have hb' := hb; rewrite /build_matrix in hb'; ubind hb' eh he; ubind hb' ehi hi; ubind hb' ep hep; ubind hb' P hP.
    by have [hQ [h1 [h2 h3]]] := assembleP omega_neq0 hb'; exists P.
  by rewrite /layer_Peps hP /=; exact: ho hb hP.
Qed.

Lemma herm_layer form thick (eps : eps_t Nx Ny) l : lossless eps -> herm_operator form eps ->
  solve_layer eig omega kx ky h form thick 1 eps = Ok l -> lossless_modes l.
Proof.
move=> hl ho hs; have hs' := hs; rewrite /solve_layer in hs'; ubind hs' b hb.
have hz := epsz_herm hl hb; have hP := peps_op hl ho hb.
have [hm [_ _]] := solve_layer_modes omega_neq0 eig_ok hb hs.
have [_ hQ] := Qeps_layer omega_neq0 eig_ok hb hs.
exists (Ptilde omega kx ky eps b); split; last split=> //.
- apply: hermD => //; apply: hermN; apply: hermZ; first by rewrite conjV; congr (_^-1); exact: w2_real.
  by apply: herm_Kmatrix => //; apply: herm_scalar; exact: (conj_nat 1).
- by rewrite hQ; apply: herm_Q => //; apply: herm_inv.
Qed.

(** A constant field: the projector is made of multiples of the identity. *)
Lemma constant_comm (t : 'M[C]_(Nx, Ny) * 'M[C]_(Nx, Ny)) Pi (A : 'M[C]_nh) : separated Nx Ny h -> constant_field t ->
  proj_blocks h t.1 t.2 = Ok Pi -> commute_mx (block_mx A 0 0 A) Pi.
Proof.
move=> sep hc /Tangent_Proofs.proj_blocksE [Pxx [Pyy [Pxy [Pyx [[h1 h2 h3 h4] ->]]]]].
pose x0 : 'I_Nx := Ordinal Nx0; pose y0 : 'I_Ny := Ordinal Ny0.
have cst (a b : 'M[C]_(Nx, Ny)) M : (forall i j, a i j = a x0 y0) -> (forall i j, b i j = b x0 y0) ->
  toeplitz h (Tangent_Proofs.pfun t.1 t.2 a b) = Some M -> exists c, M = c%:M.
  move=> ha hb hM; exists (a x0 y0 * conj (b x0 y0) / nt2 (t.1 x0 y0) (t.2 x0 y0)).
  apply: (toeplitz_const Nx0 Ny0 sep); rewrite -hM; congr toeplitz; apply/matrixP=> i j; rewrite !mxE ha hb.
  by have [-> ->] := hc i j x0 y0.
have c1 i j : t.1 i j = t.1 x0 y0 by have [] := hc i j x0 y0.
have c2 i j : t.2 i j = t.2 x0 y0 by have [] := hc i j x0 y0.
have [xx ->] := cst _ _ _ c1 c1 h1; have [yy ->] := cst _ _ _ c2 c2 h2.
have [xy ->] := cst _ _ _ c1 c2 h3; have [yx ->] := cst _ _ _ c2 c1 h4.
rewrite /commute_mx !mulmx_block !mul0mx !mulmx0 !addr0 !add0r.
by rewrite !mul_mx_scalar !mul_scalar_mx.
Qed.

Lemma constant_op tan (u : 'M[C]_(Nx, Ny)) t : (forall x y, conj (u x y) = u x y) -> separated Nx Ny h ->
  tan u = Ok t -> constant_field t -> herm_operator (TangentLike tan) (EpsGrid u).
Proof.
move=> hu sep ht hc b P hb hP.
have [t' [E [N [Pi [[h1 h2 h3 h4] _]]]]] := grid_peps hb.
move: h1; rewrite ht => -[e]; subst t'.
have hE : toeplitz h u = Some E by move: h2; rewrite /get_toeplitz; case: toeplitz => //= M [->].
apply/(peps_iff hu hb ht hE h3 h4 hP); exact: (constant_comm _ sep hc h4).
Qed.

Lemma plain_op form (eps : eps_t Nx Ny) : plain_form form -> lossless eps -> herm_operator form eps.
Proof.
move=> hf hl b P hb hP.
have [_ H] := lossless_herm omega_neq0 Nx0 Ny0 hf hl hb.
case: eps hl hb H => [e|u|u|e] hl hb //=; rewrite ?hP //.
by move: hb hP => /=; case: ifP => // _ [<-].
Qed.
End Herm.

Section Run.
Variables (Nx Ny nh : nat).
Hypotheses (Nx0 : (0 < Nx)%N) (Ny0 : (0 < Ny)%N).
Variable eig : forall m, 'M[C]_m -> 'rV[C]_m * 'M[C]_m.
Hypothesis eig_ok : forall m (A : 'M[C]_m), A *m (eig A).2 = (eig A).2 *m diag_mx (eig A).1.
Variable pw : planewave.
Hypothesis lam : (0 < pw_lambda pw)%Re.
Hypothesis cth : (0 < cos (pw_theta pw))%Re.
Variables (rec : 'M[R]_2) (h : 'I_nh -> order) (form : formulation_t Nx Ny) (i0 : 'I_nh).
Hypothesis hi0 : h i0 = (0%Zc, 0%Zc).
Variables (l0 : layer_in Nx Ny) (rest : seq (layer_in Nx Ny)) (e0 eN : R).
Hypothesis e0p : (0 < e0)%Re.
Hypothesis he0 : li_eps l0 = EpsUniform Nx Ny (rc e0).
Hypothesis heN : li_eps (last l0 rest) = EpsUniform Nx Ny (rc eN).
Variable r : effs nh.
Hypothesis hr : run_efficiencies eig pw rec h form (l0 :: rest) i0 = Ok r.

Definition sim_herm (eps : eps_t Nx Ny) : Prop :=
  herm_operator (sim_omega pw) (sim_kx pw rec h (rc e0)) (sim_ky pw rec h (rc e0)) h form eps.

Lemma herm_sum : (forall l, List.In l (l0 :: rest) -> lossless (li_eps l)) ->
  (forall l, List.In l (l0 :: rest) -> sim_herm (li_eps l)) ->
  \sum_i r.1 i ord0 + \sum_i r.2 i ord0 = 1.
Proof.
move=> hl ho; have [a [s0 [ss [ha [hst [he [h0 [hN hi]]]]]]]] := run_data lam cth hi0 e0p he0 heN hr.
have w0 := w_neq0 lam.
have [Sm [hS _]] := eff_data h0 hN hi he.
have hloss l : l = s0 \/ List.In l ss -> q_ok l /\ lossless_modes l.
  move=> hin; split; first exact: (smatrix_q hS).
  have hin' : List.In l (s0 :: ss) by case: hin => [->|hin]; [left|right].
  have [li [hli hs]] := mapr_in hst hin'.
  have hh := ho _ hli; rewrite /sim_herm in hh.
  have [ekx eky] := sim_kE pw rec h e0p; move: hs hh; rewrite ekx eky => hs hh.
  have rr (k : 'rV[R]_nh) i : conj (map_mx (real_complex R_rcfType) k ord0 i) = map_mx (real_complex R_rcfType) k ord0 i.
    by rewrite mxE; apply: rc_conj.
  exact: (herm_layer Nx0 Ny0 w0 eig_ok (rr _) (rr _) (hl _ hli) hh hs).
have := energy_balance w0 h0 hN hi he hloss; rewrite /= => ->.
have -> : \sum_i ff (sim_omega pw) (rkx pw rec h e0) (rky pw rec h e0) e0 (sim_a0 i0 a) i = incident_flux pw (rc e0).
  rewrite (bigD1 i0) //= big1 ?addr0 ?(i0_flux lam cth hi0 e0p ha h0) // => i ni.
  by apply: ff_zero; rewrite /up /dn /sim_a0 ?col_mxEu ?col_mxEd mxE (negPf ni).
by rewrite divff //; apply/eqP; apply: Rgt_not_eq; exact: flux_pos.
Qed.
End Run.

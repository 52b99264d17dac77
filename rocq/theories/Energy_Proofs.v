(** Energy conservation. *)
From Coq Require Import Reals ZArith Lra.
From mathcomp Require Import all_ssreflect all_algebra.
From mathcomp Require Import complex.
From Verif Require Import RStruct Cplx Cderiv Base Fourier_Model Fourier_Spec Sim_Model Sim_Spec Setup_Model.
From Verif Require Import SMat_Proofs SMat_Proofs2 SMat_Proofs3 Maxwell_Spec Modes_Proofs Maxwell_Proofs.
From Verif Require Import Fourier_Proofs Energy_Spec.

Set Implicit Arguments.
Unset Strict Implicit.
Unset Printing Implicit Defensive.

Import Order.TTheory GRing.Theory Num.Theory.
Local Open Scope ring_scope.
Local Open Scope complex_scope.

Definition herm m (A : 'M[C]_m) : Prop := forall i j, A j i = conj (A i j).

Lemma conjK (a : C) : conj (conj a) = a. Proof. exact: conjcK. Qed.

Definition dot m (u v : 'cV[C]_m) : C := \sum_i u i ord0 * conj (v i ord0).

Lemma dotC m (u v : 'cV[C]_m) : dot v u = conj (dot u v).
Proof. by rewrite /dot conj_sum; apply: eq_bigr => i _; rewrite conjM conjK mulrC. Qed.

Lemma dotZl m c (u v : 'cV[C]_m) : dot (c *: u) v = c * dot u v.
Proof. by rewrite /dot mulr_sumr; apply: eq_bigr => i _; rewrite mxE mulrA. Qed.

Lemma dotZr m c (u v : 'cV[C]_m) : dot u (c *: v) = conj c * dot u v.
Proof. by rewrite dotC dotZl conjM -dotC. Qed.

Lemma dotDl m (u u' v : 'cV[C]_m) : dot (u + u') v = dot u v + dot u' v.
Proof. by rewrite /dot -big_split; apply: eq_bigr => i _; rewrite mxE mulrDl. Qed.

Lemma dotDr m (u v v' : 'cV[C]_m) : dot u (v + v') = dot u v + dot u v'.
Proof. by rewrite dotC dotDl conjD -!dotC. Qed.

Lemma dotN m (u v : 'cV[C]_m) : dot (- u) v = - dot u v.
Proof. by rewrite -scaleN1r dotZl mulN1r. Qed.

Lemma dot_herm m (A : 'M[C]_m) u v : herm A -> dot (A *m u) v = dot u (A *m v).
Proof.
move=> hA; rewrite /dot.
rewrite (eq_bigr (fun i => \sum_j A i j * u j ord0 * conj (v i ord0))); last first.
  by move=> i _; rewrite mxE mulr_suml.
rewrite exchange_big; apply: eq_bigr => j _ /=.
rewrite mxE conj_sum mulr_sumr; apply: eq_bigr => i _.
by rewrite conjM -hA; cring.
Qed.

Lemma cRe_conj (a : C) : complex.Re (conj a) = complex.Re a. Proof. by case: a. Qed.

Lemma real_dot m (A : 'M[C]_m) u : herm A -> conj (dot (A *m u) u) = dot (A *m u) u.
Proof. by move=> hA; rewrite -dotC dot_herm. Qed.

Lemma Re_iM (a : C) : conj a = a -> complex.Re ('i * a) = 0.
Proof.
case: a => x y; rewrite /conj => -[e] /=.
have -> : y = 0%Re by move: e; rfold; lra.
by rfold; ring.
Qed.

Lemma Re_add (a b : C) : complex.Re (a + b) = complex.Re a + complex.Re b.
Proof. by case: a => ? ?; case: b. Qed.
Lemma Re_opp (a : C) : complex.Re (- a) = - complex.Re a.
Proof. by case: a. Qed.
Lemma Re_sum (I : Type) (r : seq I) (P : pred I) (F : I -> C) :
  complex.Re (\sum_(i <- r | P i) F i) = \sum_(i <- r | P i) complex.Re (F i).
Proof. by elim/big_rec2: _ => // i x y _ <-; rewrite Re_add. Qed.

Lemma hermD m (A B : 'M[C]_m) : herm A -> herm B -> herm (A + B).
Proof. by move=> hA hB i j; rewrite !mxE conjD hA hB. Qed.
Lemma hermN m (A : 'M[C]_m) : herm A -> herm (- A).
Proof. by move=> hA i j; rewrite !mxE conjN hA. Qed.
Lemma hermZ m (c : C) (A : 'M[C]_m) : conj c = c -> herm A -> herm (c *: A).
Proof. by move=> hc hA i j; rewrite !mxE conjM hA hc. Qed.
Lemma herm_scalar m (c : C) : conj c = c -> herm (c%:M : 'M[C]_m).
Proof. by move=> hc i j; rewrite !mxE eq_sym; case: eqP => _; rewrite ?mulr1n ?mulr0n ?hc // -[LHS](conj_nat 0). Qed.

Lemma hermP m (A : 'M[C]_m) : herm A <-> A^T = map_mx conj A.
Proof.
split=> h; first by apply/matrixP=> i j; rewrite !mxE h.
by move=> i j; move/matrixP: h => /(_ i j); rewrite !mxE.
Qed.

Lemma herm_inv m (A : 'M[C]_m) : herm A -> herm (invmx A).
Proof.
move=> /hermP h; apply/hermP; rewrite trmx_inv h.
by rewrite map_invmx.
Qed.

Lemma herm_block m (A B D : 'M[C]_m) (B' : 'M[C]_m) : herm A -> herm D -> B'^T = map_mx conj B ->
  herm (block_mx A B B' D).
Proof.
move=> /hermP hA /hermP hD hB; apply/hermP.
rewrite tr_block_mx map_block_mx hA hD hB.
congr block_mx; apply/matrixP=> i j; rewrite !mxE.
by move/matrixP: hB => /(_ j i); rewrite !mxE => ->; rewrite conjK.
Qed.

Lemma conj_zero m k : (0 : 'M[C]_(m, k))^T = map_mx conj (0 : 'M[C]_(k, m)).
Proof. by apply/matrixP=> i j; rewrite !mxE; symmetry; exact: (conj_nat 0). Qed.

Section Energy.
Variables (Nx Ny nh : nat).
Variable eig : forall m, 'M[C]_m -> 'rV[C]_m * 'M[C]_m.
Variable omega : R.
Hypothesis omega_neq0 : rc omega != 0.
Variables kx ky : 'rV[C]_nh.
Variable h : 'I_nh -> order.
Notation n2 := (nh + nh)%N.
Notation Kx := (diag_mx kx).
Notation Ky := (diag_mx ky).
Notation w2 := (omega2 omega).
Implicit Types (l : slayer nh) (p : amp nh).

(** z-flux of tangential fields E = (-ey,ex), H = (hx,hy) *)
Definition tflux (E H : 'cV[C]_n2) : R := complex.Re (dot E H).

Lemma tflux_fields (F : fields nh) :
  tflux (col_mx (- f_ey F) (f_ex F)) (col_mx (f_hx F) (f_hy F)) = total_flux F.
Proof.
rewrite /tflux /dot big_split_ord /= /total_flux Re_add !Re_sum -big_split; apply: eq_bigr => i _ /=.
rewrite !col_mxEu !col_mxEd mxE /order_flux -Re_add addrC mulNr //.
Qed.

(** Abstract lossless layer: a Hermitian P with P Q phi = phi q^2, Q Hermitian. *)
Definition lossless_modes l : Prop :=
  exists P : 'M[C]_n2, herm P /\ herm (sl_Qeps l) /\ P *m sl_Qeps l *m sl_phi l = sl_phi l *m qsq l.

Lemma rc_conj x : conj (rc x) = rc x.
Proof. by apply/eqP; rewrite eq_complex /= oppr0 !eqxx. Qed.

Lemma flux_const l p z z' : q_ok l -> lossless_modes l ->
  tflux (mode_E omega l z p) (mode_H l z p) = tflux (mode_E omega l z' p) (mode_H l z' p).
Proof.
move=> hq [P [hP [hQ hm]]].
apply: (deriv0_const (f := fun t => tflux (mode_E omega l t p) (mode_H l t p))) => t.
have dE := mode_E_deriv omega p t hq.
have dH := mode_H_deriv omega_neq0 p t hq hm.
set E := mode_E _ _; set H := mode_H _.
have hd i : cderiv (fun t => E t p i ord0 * conj (H t p i ord0)) t
  ((('i / rc omega) *: (sl_Qeps l *m H t p)) i ord0 * conj (H t p i ord0) +
   E t p i ord0 * conj ((('i * rc omega) *: (P *m E t p)) i ord0)).
  by apply: cderiv_mul; [exact: dE|apply: cderiv_conj; exact: dH].
have := cderiv_sum (index_enum _) hd => -[hRe _].
apply: derivable_pt_lim_eq hRe.
rewrite big_split /= -/(dot (('i / rc omega) *: (sl_Qeps l *m H t p)) (H t p)).
rewrite -/(dot (E t p) (('i * rc omega) *: (P *m E t p))).
rewrite dotZl dotZr -dot_herm // conjM rc_conj.
have r1 : conj ((rc omega)^-1 * dot (sl_Qeps l *m H t p) (H t p)) =
  (rc omega)^-1 * dot (sl_Qeps l *m H t p) (H t p) by rewrite conjM real_dot // conjV rc_conj.
have r2 : conj (rc omega * dot (P *m E t p) (E t p)) = rc omega * dot (P *m E t p) (E t p).
  by rewrite conjM real_dot // rc_conj.
have i2 : conj 'i = - 'i by apply/eqP; rewrite eq_complex /= oppr0 !eqxx.
rewrite i2 Re_add !mulNr Re_opp -!mulrA Re_iM // Re_iM //; rfold; ring.
Qed.

(** ** Lossless layers have Hermitian operators *)
Hypothesis kx_real : forall i, conj (kx ord0 i) = kx ord0 i.
Hypothesis ky_real : forall i, conj (ky ord0 i) = ky ord0 i.

Lemma herm_Kmatrix (u : 'M[C]_nh) (a b : 'rV[C]_nh) : herm u ->
  (forall i, conj (a ord0 i) = a ord0 i) -> (forall i, conj (b ord0 i) = b ord0 i) ->
  herm (build_Kmatrix u (diag_mx a) (diag_mx b)).
Proof.
move=> hu ha hb.
have hE (c d : 'rV[C]_nh) i j : (diag_mx c *m u *m diag_mx d) i j = c ord0 i * u i j * d ord0 j.
  by rewrite mul_mx_diag mxE mul_diag_mx mxE.
rewrite build_KmatrixE; apply: herm_block.
- by move=> i j; rewrite !hE !conjM !ha hu; cring.
- by move=> i j; rewrite !hE !conjM !hb hu; cring.
- by apply/matrixP=> i j; rewrite mxE [RHS]mxE !hE !conjM ha hb hu; cring.
Qed.

Lemma w2_real : conj w2 = w2. Proof. exact: rc_conj. Qed.

Lemma herm_Q (ei : 'M[C]_nh) : herm ei -> herm (w2%:M - build_Kmatrix ei Ky (- Kx)).
Proof.
move=> hei; apply: hermD; first by apply: herm_scalar; exact: w2_real.
apply: hermN; rewrite diagN; apply: herm_Kmatrix => // i.
by rewrite mxE conjN kx_real.
Qed.

Lemma herm_toeplitz (u : 'M[C]_(Nx, Ny)) M : (0 < Nx)%N -> (0 < Ny)%N ->
  (forall x y, conj (u x y) = u x y) -> get_toeplitz h u = Ok M -> herm M.
Proof.
move=> Nx0 Ny0 hu; rewrite /get_toeplitz; case E: (toeplitz h u) => [M'|] //= -[<-].
exact: (toeplitz_herm Nx0 Ny0 hu E).
Qed.

Lemma toeplitz_conj (u v : 'M[C]_(Nx, Ny)) M M' : (0 < Nx)%N -> (0 < Ny)%N ->
  (forall x y, v x y = conj (u x y)) -> get_toeplitz h u = Ok M -> get_toeplitz h v = Ok M' ->
  M'^T = map_mx conj M.
Proof.
move=> Nx0 Ny0 huv; rewrite /get_toeplitz.
case: (toeplitzP Nx0 Ny0 h u) => [[_ ->]|[_ ->]] //= -[<-].
case: (toeplitzP Nx0 Ny0 h v) => [[_ ->]|[_ ->]] //= -[<-].
apply/matrixP=> i j; rewrite !mxE /coef conjM conjV conj_nat; congr (_ / _).
rewrite conj_sum; apply: eq_bigr => x _; rewrite conj_sum; apply: eq_bigr => y _.
rewrite conjM -huv; congr (_ * _); rewrite !waveE conjM.
by congr (_ * _); rewrite root_conj; congr root; ring.
Qed.

Hypothesis eig_ok : forall m (A : 'M[C]_m), A *m (eig A).2 = (eig A).2 *m diag_mx (eig A).1.

Lemma lossless_herm form (eps : eps_t Nx Ny) b : (0 < Nx)%N -> (0 < Ny)%N -> plain_form form -> lossless eps ->
  build_matrix omega kx ky h form 1 eps = Ok b ->
  herm (layer_epsz eps b) /\ herm (layer_Peps eps b).
Proof.
move=> Nx0 Ny0 hf hl; case: eps hl => [e|u|u|e] hl hb //.
- by split; apply: herm_scalar.
- rewrite /build_matrix in hb; ubind hb eh he; ubind hb ehi hi; ubind hb P hP.
  have [hQ [h1 [h2 h3]]] := assembleP omega_neq0 hb.
  rewrite /layer_epsz /layer_Peps h1 h2 /=.
  have heh := herm_toeplitz Nx0 Ny0 hl he; split=> //.
  case: form hf hP => [|//|//] _.
  + by move=> [<-]; apply: herm_block => //; exact: conj_zero.
  + move=> hP; ubind hP nu hnu; case: hP => <-.
    apply: herm_block => //; last by exact: conj_zero.
    rewrite /nu_hat_inv_iso in hnu; ubind hnu iu hiu; ubind hnu nuhat hnh.
    move: hnu; rewrite /linv; case: ifP => // _ [<-].
    apply: herm_inv; apply: herm_toeplitz hnh => // x y.
    move: hiu; rewrite /pointwise_inv; case: ifP => // _ [<-].
    by rewrite mxE conjV hl.
- rewrite /build_matrix in hb; ubind hb eh he; ubind hb ehi hi; ubind hb ep hep; ubind hb P hP.
  have [hQ [h1 [h2 h3]]] := assembleP omega_neq0 hb.
  rewrite /layer_epsz /layer_Peps h1 h2 /=.
  split; first by apply: herm_toeplitz he => // x y; rewrite -hl.
  case: form hf hP => [|//|//] _ [<-].
  rewrite /toeplitz_transverse in hep; ubind hep a11 e11; ubind hep a12 e12; ubind hep a21 e21; ubind hep a22 e22.
  case: hep => <-; apply: herm_block.
  + by apply: herm_toeplitz e11 => // x y; rewrite -hl.
  + by apply: herm_toeplitz e22 => // x y; rewrite -hl.
  + by apply: toeplitz_conj e12 e21.
Qed.

Lemma lossless_layer form thick (eps : eps_t Nx Ny) l : (0 < Nx)%N -> (0 < Ny)%N -> plain_form form -> lossless eps ->
  solve_layer eig omega kx ky h form thick 1 eps = Ok l -> lossless_modes l.
Proof.
move=> Nx0 Ny0 hf hl hs; have hs' := hs; rewrite /solve_layer in hs'; ubind hs' b hb.
have [hz hP] := lossless_herm Nx0 Ny0 hf hl hb.
have [hm [_ _]] := solve_layer_modes omega_neq0 eig_ok hb hs.
have [_ hQ] := Qeps_layer omega_neq0 eig_ok hb hs.
exists (Ptilde omega kx ky eps b); split; last split=> //.
- apply: hermD => //; apply: hermN; apply: hermZ; first by rewrite conjV w2_real.
  by apply: herm_Kmatrix => //; apply: herm_scalar; exact: (conj_nat 1).
- by rewrite hQ; apply: herm_Q; apply: herm_inv.
Qed.

(** ** Flux through a stack *)
Definition lflux l p z := tflux (mode_E omega l z p) (mode_H l z p).

Lemma chain_flux l p ls ps : (forall l', l' = l \/ List.In l' ls -> q_ok l' /\ lossless_modes l') ->
  chain omega l p ls ps -> forall z z', lflux l p z = lflux (last l ls) (last p ps) z'.
Proof.
elim: ls l p ps => [|l' ls IH] l p [|p' ps] //= hl.
  by move=> _ z z'; have [hq hm] := hl l (or_introl erefl); apply: flux_const.
move=> [[mH mE] hc] z z'.
have [hq hm] := hl l (or_introl erefl).
rewrite {1}/lflux (flux_const p z (thick0 l) hq hm) mH mE -/(lflux l' p' 0).
apply: IH hc 0 z' => l'' [->|hin]; apply: hl; right; [by left|by right].
Qed.
End Energy.

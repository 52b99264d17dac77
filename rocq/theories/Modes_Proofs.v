From Coq Require Import Reals ZArith Lra.
From mathcomp Require Import all_ssreflect all_algebra.
From mathcomp Require Import complex.
From Verif Require Import RStruct Cplx Cderiv Base Fourier_Model Sim_Model Sim_Spec.
From Verif Require Import SMat_Proofs SMat_Proofs2 SMat_Proofs3 Maxwell_Spec.

Set Implicit Arguments.
Unset Strict Implicit.
Unset Printing Implicit Defensive.

Import Order.TTheory GRing.Theory Num.Theory.
Local Open Scope ring_scope.
Local Open Scope complex_scope.

Lemma csqrt_sq z : csqrt z * csqrt z = z.
Proof. by rewrite -expr2 /csqrt sqr_sqrtc. Qed.

Lemma branch_sq w : branch w * branch w = w.
Proof. by rewrite /branch; case: ifP => _; rewrite ?mulrNN csqrt_sq. Qed.

Section Modes.
Variables (Nx Ny nh : nat).
Variable eig : forall m, 'M[C]_m -> 'rV[C]_m * 'M[C]_m.
Variable omega : R.
Hypothesis omega_neq0 : rc omega != 0.
Variables kx ky : 'rV[C]_nh.
Variable h : 'I_nh -> order.
Notation n2 := (nh + nh)%N.
Notation Kx := (diag_mx kx).
Notation Ky := (diag_mx ky).
Notation w2 := (omega2 omega).

Lemma omega2E : w2 = rc omega * rc omega.
Proof. by rewrite /omega2 -rmorphM. Qed.

Lemma omega2_neq0 : w2 != 0.
Proof. by rewrite omega2E mulf_neq0. Qed.

(** The einsum construction is the product Kcol u Krow. *)
Lemma build_KmatrixE (u : 'M[C]_nh) (a b : 'rV[C]_nh) :
  build_Kmatrix u (diag_mx a) (diag_mx b) =
  block_mx (diag_mx a *m u *m diag_mx a) (diag_mx a *m u *m diag_mx b)
           (diag_mx b *m u *m diag_mx a) (diag_mx b *m u *m diag_mx b).
Proof.
have E (c d : 'rV[C]_nh) : (matmuldiag (diag_mx c)^T (matmuldiag (diag_mx d) u)^T)^T =
   diag_mx d *m u *m diag_mx c.
  apply/matrixP=> i j; rewrite mul_mx_diag mul_diag_mx !mxE !eqxx !mulr1n; cring.
by rewrite /build_Kmatrix !E.
Qed.

Lemma diagC (a b : 'rV[C]_nh) : diag_mx a *m diag_mx b = diag_mx b *m diag_mx a.
Proof. by apply/matrixP=> i j; rewrite !mul_diag_mx !mxE; case: eqP => [->|]; rewrite ?mulr0n ?mulr0 // !mulr1n mulrC. Qed.

Lemma diagN (a : 'rV[C]_nh) : - diag_mx a = diag_mx (- a).
Proof. by rewrite linearN. Qed.

(** Factored form: [Kx;Ky] u [Kx,Ky]. *)
Lemma Kmatrix_factor (u : 'M[C]_nh) (a b : 'rV[C]_nh) :
  build_Kmatrix u (diag_mx a) (diag_mx b) =
  col_mx (diag_mx a) (diag_mx b) *m u *m row_mx (diag_mx a) (diag_mx b).
Proof. by rewrite build_KmatrixE mul_col_mx mul_col_row. Qed.

(** Kmu Keps = 0: the two matrices annihilate each other. *)
Lemma Kmu_Keps (u v : 'M[C]_nh) :
  build_Kmatrix u Kx Ky *m build_Kmatrix v Ky (- Kx) = 0.
Proof.
rewrite diagN !Kmatrix_factor -mulmxA (mulmxA (row_mx _ _)) (mulmxA (row_mx _ _)).
rewrite mul_row_col -diagN mulmxN diagC subrr !mul0mx mulmx0 //.
Qed.

(** In a uniform medium c*Keps + Kmu is multiplication by kx^2 + ky^2. *)
Lemma Keps_Kmu_scalar (c : C) : c != 0 ->
  c *: build_Kmatrix (c^-1)%:M Ky (- Kx) + build_Kmatrix 1%:M Kx Ky =
  diag_mx (row_mx (\row_i (kx ord0 i ^+ 2 + ky ord0 i ^+ 2))
                  (\row_i (kx ord0 i ^+ 2 + ky ord0 i ^+ 2))).
Proof.
move=> c0; rewrite diagN !build_KmatrixE -diagN scale_block_mx add_block_mx.
rewrite !(mul_mx_scalar, mul_scalar_mx) -!scalemxAl !scale1r !scalerA ?mulmx1 ?divff //.
rewrite diag_mx_row; congr block_mx; apply/matrixP=> i j;
  rewrite ?(mulNmx, mulmxN) ?opprK !mul_diag_mx !mxE;
  case: eqP => [->|]; rewrite ?mulr0n ?mulr0 ?mulr1n ?subrr ?oppr0 ?addr0 ?scale1r //. all: try by rewrite mul1r addrC !expr2.
all: by rewrite ?mulr0 ?mul1r // mulrC addNr.
Qed.

Notation Keps ei := (build_Kmatrix ei Ky (- Kx)).
Notation Kmu1 := (build_Kmatrix 1%:M Kx Ky).

(** (Peps - Kmu/w^2) (w^2 - Keps) = w^2 Peps - Peps Keps - Kmu *)
Lemma matrix_factor (P : 'M[C]_n2) (ei : 'M[C]_nh) :
  (P - w2^-1 *: Kmu1) *m (w2%:M - Keps ei) = w2 *: P - (P *m Keps ei + Kmu1).
Proof.
rewrite mulmxBl !mulmxBr !mul_mx_scalar -scalemxAl Kmu_Keps scaler0 subr0 scalerA divff ?omega2_neq0 //.
by rewrite scale1r opprD addrA.
Qed.

(** The transverse permittivity matrix seen by (-ey,ex). *)
Definition layer_Peps (eps : eps_t Nx Ny) (b : built nh) : 'M[C]_n2 :=
  match eps with
  | EpsUniform e => e%:M
  | _ => odflt 0 (bt_Peps b)
  end.

(** The second order operator factors through Qeps. *)
Definition Ptilde (eps : eps_t Nx Ny) (b : built nh) : 'M[C]_n2 :=
  layer_Peps eps b - w2^-1 *: Kmu1.

Lemma Pmu1 : (block_mx 1%:M 0 0 1%:M : 'M[C]_n2) = 1%:M.
Proof. by rewrite -scalar_mx_block. Qed.

Lemma assembleP eh ehi P b : assemble omega kx ky 1 eh ehi P = Ok b ->
  bt_Qeps b = w2%:M - Keps ehi /\ bt_eps_hat b = Some eh /\ bt_Peps b = Some P /\
  bt_matrix b = Some ((P - w2^-1 *: Kmu1) *m (w2%:M - Keps ehi)).
Proof.
rewrite /assemble oner_eq0 => -[<-] /=; rewrite Pmu1 invr1 !mulmx1 matrix_factor.
by rewrite scale_scalar_mx mulr1.
Qed.

(** Patterned layers: what build_matrix returns. *)
Lemma build_patternedP form eps b :
  (forall e, eps <> EpsUniform Nx Ny e) ->
  build_matrix omega kx ky h form 1 eps = Ok b ->
  exists eh ehi, bt_eps_hat b = Some eh /\ eh \in unitmx /\ ehi = invmx eh /\
    bt_Qeps b = w2%:M - Keps ehi /\
    bt_matrix b = Some (Ptilde eps b *m bt_Qeps b) /\
    (exists P, bt_Peps b = Some P) /\
    (forall u, eps = EpsGrid u -> get_toeplitz h u = Ok eh) /\
    (forall u, eps = EpsGrid u -> form = Original Nx Ny ->
       bt_Peps b = Some (block_mx eh 0 0 eh)) /\
    (forall u, eps = EpsTensorGrid u -> get_toeplitz h (u ord_max ord_max) = Ok eh /\
       (form = Original Nx Ny -> exists P, toeplitz_transverse h (fun a b => u (xy a) (xy b)) = Ok P /\
          bt_Peps b = Some P)).
Proof.
case: eps => [e|u|u|e] hne H.
- by case: (hne e).
- rewrite /build_matrix in H; ubind H eh he; ubind H ehi hi; ubind H P hP.
  move: hi; rewrite /linv; case: ifP => // eu [ei].
  have [hQ [h1 [h2 h3]]] := assembleP H.
  exists eh, ehi; do !split => //.
  + by rewrite /Ptilde /= h2 hQ.
  + by exists P.
  + by move=> u' [<-].
  + by move=> u' _ hf; rewrite h2; move: hP; rewrite hf => -[<-].
- rewrite /build_matrix in H; ubind H eh he; ubind H ehi hi; ubind H ep hep; ubind H P hP.
  move: hi; rewrite /linv; case: ifP => // eu [ei].
  have [hQ [h1 [h2 h3]]] := assembleP H.
  exists eh, ehi; do !split => //.
  + by rewrite /Ptilde /= h2 hQ.
  + by exists P.
  + by move: H0 => [<-].
  + move=> hf; exists ep; move: H0 => [<-]; split=> //.
    by rewrite h2; move: hP; rewrite hf => -[<-].
- by [].
Qed.

Hypothesis eig_ok : forall m (A : 'M[C]_m), A *m (eig A).2 = (eig A).2 *m diag_mx (eig A).1.

Definition qsq (l : slayer nh) : 'M[C]_n2 := diag_mx (\row_i (sl_q l ord0 i ^+ 2)).

Lemma uniform_modes (e : C) b : build_matrix omega kx ky h (Original Nx Ny) 1 (EpsUniform Nx Ny e) = Ok b ->
  Ptilde (EpsUniform Nx Ny e) b *m bt_Qeps b =
  diag_mx (\row_i (uniform_q omega kx ky e 1 ord0 i ^+ 2)).
Proof.
rewrite /build_matrix; case: eqP => // /eqP e0 [<-] /=.
rewrite /Ptilde /= Pmu1 scale_scalar_mx mulr1 matrix_factor mul_scalar_mx (Keps_Kmu_scalar e0).
rewrite scale_scalar_mx /uniform_q.
apply/matrixP=> i j; rewrite !mxE; case: eqP => [_|]; rewrite ?mulr0n ?subr0 // !mulr1n.
case: (split i) => k; rewrite !mxE !expr2 csqrt_sq mulr1; cring.
Qed.

(** Every mode returned by solve satisfies the second order equation. *)
Lemma solve_layer_modes form thick eps l b :
  build_matrix omega kx ky h form 1 eps = Ok b ->
  solve_layer eig omega kx ky h form thick 1 eps = Ok l ->
  Ptilde eps b *m sl_Qeps l *m sl_phi l = sl_phi l *m qsq l /\
  sl_Qeps l = bt_Qeps b /\ sl_thick l = thick.
Proof.
move=> hb; rewrite /solve_layer hb /=.
case: eps hb => [e|u|u|e] hb //.
- move=> [<-] /=; rewrite mulmx1 mul1mx; split=> //.
  rewrite (@uniform_modes e b) //; by move: hb.
- have [|eh [ehi [h1 [h2 [h3 [h4 [h5 _]]]]]]] := build_patternedP _ hb; first by [].
  rewrite h1 h5 => -[<-] /=; split=> //.
  rewrite eig_ok; congr (_ *m diag_mx _); apply/rowP=> i.
  by rewrite !mxE expr2 branch_sq.
- have [|eh [ehi [h1 [h2 [h3 [h4 [h5 _]]]]]]] := build_patternedP _ hb; first by [].
  rewrite h1 h5 => -[<-] /=; split=> //.
  rewrite eig_ok; congr (_ *m diag_mx _); apply/rowP=> i.
  by rewrite !mxE expr2 branch_sq.
Qed.

End Modes.

(** Reciprocity: layers of symmetric media have transposed operators at opposite wavevectors. *)
From Coq Require Import Reals ZArith Lra.
From mathcomp Require Import all_ssreflect all_algebra fingroup perm.
From mathcomp Require Import complex.
From Verif Require Import RStruct Cplx Cderiv Base Fourier_Model Fourier_Spec Sim_Model Sim_Spec Setup_Model.
From Verif Require Import SMat_Proofs SMat_Proofs2 SMat_Proofs3 Maxwell_Spec Modes_Proofs Maxwell_Proofs.
From Verif Require Import Fourier_Proofs Energy_Spec Energy_Proofs Energy_Proofs2 Symm_Proofs2 Symm_Proofs3 Symm_Proofs5.
From Verif Require Import Recip_Spec Recip_Proofs.

Set Implicit Arguments.
Unset Strict Implicit.
Unset Printing Implicit Defensive.

Import Order.TTheory GRing.Theory Num.Theory.
Local Open Scope ring_scope.
Local Open Scope complex_scope.

Section Pair.
Variables (Nx Ny nh : nat).
Hypotheses (Nx0 : (0 < Nx)%N) (Ny0 : (0 < Ny)%N).
Variables eig1 eig2 : forall m, 'M[C]_m -> 'rV[C]_m * 'M[C]_m.
Hypothesis eig1_ok : forall m (A : 'M[C]_m), A *m (eig1 A).2 = (eig1 A).2 *m diag_mx (eig1 A).1.
Hypothesis eig2_ok : forall m (A : 'M[C]_m), A *m (eig2 A).2 = (eig2 A).2 *m diag_mx (eig2 A).1.
Variable omega : R.
Hypothesis omega_neq0 : rc omega != 0.
Variable h : 'I_nh -> order.
Variable form : formulation_t Nx Ny.
Hypothesis hform : plain_form form.
Variable tau : 'S_nh.
Hypothesis htau : forall i, h (tau i) = ((- (h i).1)%Zc, (- (h i).2)%Zc).
Variables kx1 ky1 kx2 ky2 : 'rV[C]_nh.
Hypothesis hkx : forall i, kx2 ord0 (tau i) = - kx1 ord0 i.
Hypothesis hky : forall i, ky2 ord0 (tau i) = - ky1 ord0 i.
Notation n2 := (nh + nh)%N.
Notation J := (um tau (@one_ph nh)).
Notation U := (Um tau (@one_ph nh) 1%Re 0%Re 0%Re 1%Re).
Notation D := (@diag_mx _ nh).
Notation adj := (adj tau).

Let u1 : (1 * 1 + 0 * 0 = 1)%Re. Proof. lra. Qed.
Let u2 : (0 * 0 + 1 * 1 = 1)%Re. Proof. lra. Qed.
Let u3 : (1 * 0 + 0 * 1 = 0)%Re. Proof. lra. Qed.
Let r1 : rc 1%Re = 1. Proof. by []. Qed.
Let r0 : rc 0%Re = 0. Proof. by []. Qed.

Lemma toep_adj (u : 'M[C]_(Nx, Ny)) M : get_toeplitz h u = Ok M -> M^T *m J = J *m M.
Proof.
rewrite /get_toeplitz; have [[_ ->]|[_ ->]] // := toeplitzP Nx0 Ny0 h u.
move=> [<-]; apply: tw_entries => i j; rewrite !mxE /one_ph mulr1 mul1r !htau /=.
by congr coef; ring.
Qed.

Lemma toep_adj2 (u v : 'M[C]_(Nx, Ny)) M N : u = v -> get_toeplitz h u = Ok M -> get_toeplitz h v = Ok N ->
  M^T *m J = J *m N.
Proof.
move=> -> hM hN; have [<-] : Ok M = Ok N by rewrite -hM -hN.
exact: toep_adj hM.
Qed.

Lemma U_block : U = block_mx J 0 0 J.
Proof. by rewrite /Um r1 r0 !scale1r !scale0r. Qed.

Lemma adj_block (a b c d a' b' c' d' : 'M[C]_nh) : a^T *m J = J *m a' -> d^T *m J = J *m d' ->
  b^T *m J = J *m c' -> c^T *m J = J *m b' -> adj (block_mx a b c d) (block_mx a' b' c' d').
Proof.
move=> ha hd hb hc; rewrite /adj U_block tr_block_mx !mulmx_block !mul0mx !mulmx0 !addr0 !add0r.
by rewrite ha hb hc hd.
Qed.

Lemma tw_diag (a1 a2 : 'rV[C]_nh) : (forall i, a2 ord0 (tau i) = - a1 ord0 i) -> D a1 *m J = - (J *m D a2).
Proof.
move=> ha; apply/matrixP=> i j; rewrite mul_diag_mx mxE [RHS]mxE mul_mx_diag [X in - X]mxE !mxE.
by case: eqP => [->|_]; rewrite ?mulr0 ?mul0r ?oppr0 // ha mulrN opprK mulrC.
Qed.

Lemma adj_K (m1 m2 : 'M[C]_nh) (a1 b1 a2 b2 : 'rV[C]_nh) : m1^T *m J = J *m m2 ->
  (forall i, a2 ord0 (tau i) = - a1 ord0 i) -> (forall i, b2 ord0 (tau i) = - b1 ord0 i) ->
  adj (build_Kmatrix m1 (D a1) (D b1)) (build_Kmatrix m2 (D a2) (D b2)).
Proof.
move=> hm ha hb; have ka := tw_diag ha; have kb := tw_diag hb.
rewrite !build_KmatrixE.
have two (x1 y1 x2 y2 : 'rV[C]_nh) : D x1 *m J = - (J *m D x2) -> D y1 *m J = - (J *m D y2) ->
  (D x1 *m m1 *m D y1)^T *m J = J *m (D y2 *m m2 *m D x2).
  move=> hx hy; rewrite !trmx_mul !tr_diag_mx.
  have -> : D y1 *m (m1^T *m D x1) *m J = D y1 *m (m1^T *m (D x1 *m J)) by rewrite -!mulmxA.
  rewrite hx mulmxN mulmxN (mulmxA m1^T) hm -mulmxA (mulmxA (D y1)) hy mulNmx opprK.
  by rewrite -!mulmxA.
by apply: adj_block; apply: two.
Qed.

Lemma adjD A1 A2 B1 B2 : adj A1 A2 -> adj B1 B2 -> adj (A1 + B1) (A2 + B2).
Proof. by rewrite /adj linearD /= mulmxDl mulmxDr => -> ->. Qed.
Lemma adjZ (c : C) A1 A2 : adj A1 A2 -> adj (c *: A1) (c *: A2).
Proof. by rewrite /adj linearZ /= -scalemxAl -scalemxAr => ->. Qed.
Lemma adjN A1 A2 : adj A1 A2 -> adj (- A1) (- A2).
Proof. by rewrite -!scaleN1r; apply: adjZ. Qed.
Lemma adj_scalar (c : C) : adj c%:M c%:M.
Proof. by rewrite /adj tr_scalar_mx mul_scalar_mx mul_mx_scalar. Qed.

Lemma tw_invT (m1 m2 : 'M[C]_nh) : m1 \in unitmx -> m2 \in unitmx -> m1^T *m J = J *m m2 ->
  (invmx m1)^T *m J = J *m invmx m2.
Proof. by move=> h1 h2 hm; rewrite trmx_inv; apply: tw_inv; rewrite ?unitmx_tr. Qed.

Lemma eps_adj (eps : eps_t Nx Ny) b1 b2 : reciprocal eps ->
  build_matrix omega kx1 ky1 h form 1 eps = Ok b1 -> build_matrix omega kx2 ky2 h form 1 eps = Ok b2 ->
  (layer_epsz eps b1)^T *m J = J *m layer_epsz eps b2 /\ adj (layer_Peps eps b1) (layer_Peps eps b2).
Proof.
case: eps => [e|u|u|e] hr hb1 hb2 //.
- by split; [rewrite /layer_epsz tr_scalar_mx mul_scalar_mx mul_mx_scalar|apply: adj_scalar].
- rewrite /build_matrix in hb1; ubind hb1 eh he; ubind hb1 ehi hi; ubind hb1 P hP.
  have [_ [p1 [p2 _]]] := assembleP omega_neq0 hb1.
  rewrite /build_matrix he /= hi /= hP /= in hb2.
  have [_ [p3 [p4 _]]] := assembleP omega_neq0 hb2.
  rewrite /layer_epsz /layer_Peps p1 p2 p3 p4 /=.
  have heh := toep_adj he; split=> //.
  case: form hform hP => [|//|//] _.
  + by move=> [<-]; apply: adj_block => //; rewrite trmx0 mul0mx mulmx0.
  + move=> hP; ubind hP nu hnu; case: hP => <-.
    apply: adj_block; rewrite ?trmx0 ?mul0mx ?mulmx0 //.
    rewrite /nu_hat_inv_iso in hnu; ubind hnu iu hiu; ubind hnu nuhat hnh.
    have [hu ->] := linvP hnu.
    by apply: tw_invT => //; apply: toep_adj hnh.
- rewrite /build_matrix in hb1; ubind hb1 eh he; ubind hb1 ehi hi; ubind hb1 ep hep; ubind hb1 P hP.
  have [_ [p1 [p2 _]]] := assembleP omega_neq0 hb1.
  rewrite /build_matrix he /= hi /= hep /= hP /= in hb2.
  have [_ [p3 [p4 _]]] := assembleP omega_neq0 hb2.
  rewrite /layer_epsz /layer_Peps p1 p2 p3 p4 /=; split; first exact: toep_adj he.
  case: form hform hP => [|//|//] _ [<-].
  rewrite /toeplitz_transverse in hep; ubind hep a11 e11; ubind hep a12 e12; ubind hep a21 e21; ubind hep a22 e22.
  case: hep => <-; apply: adj_block.
  + exact: toep_adj e11.
  + exact: toep_adj e22.
  + by apply: toep_adj2 e12 e21; apply: hr.
  + by apply: toep_adj2 e21 e12; apply: hr.
Qed.

Lemma layer_paired t eps l1 l2 : reciprocal eps ->
  solve_layer eig1 omega kx1 ky1 h form t 1 eps = Ok l1 ->
  solve_layer eig2 omega kx2 ky2 h form t 1 eps = Ok l2 -> q_ok l1 -> q_ok l2 ->
  paired tau l1 l2.
Proof.
move=> hr hl1 hl2 q1 q2.
have [b1 hb1] : exists b, build_matrix omega kx1 ky1 h form 1 eps = Ok b.
  by move: (hl1); rewrite /solve_layer => H; ubind H b hb; exists b.
have [b2 hb2] : exists b, build_matrix omega kx2 ky2 h form 1 eps = Ok b.
  by move: (hl2); rewrite /solve_layer => H; ubind H b hb; exists b.
have [hz hP] := eps_adj hr hb1 hb2.
have [hm1 [_ ht1]] := solve_layer_modes omega_neq0 eig1_ok hb1 hl1.
have [hm2 [_ ht2]] := solve_layer_modes omega_neq0 eig2_ok hb2 hl2.
have [un1 hQ1] := Qeps_layer omega_neq0 eig1_ok hb1 hl1.
have [un2 hQ2] := Qeps_layer omega_neq0 eig2_ok hb2 hl2.
split; first by rewrite /thick0 ht1 ht2.
split=> //; split=> //; split.
  rewrite hQ1 hQ2; apply: adjD; first exact: adj_scalar.
  apply: adjN; rewrite !diagN; apply: adj_K => //; first exact: tw_invT.
  by move=> i; rewrite !mxE hkx.
exists (Ptilde omega kx1 ky1 eps b1), (Ptilde omega kx2 ky2 eps b2); split=> //.
apply: adjD => //; apply: adjN; apply: adjZ; apply: adj_K => //.
by rewrite tr_scalar_mx mul1mx mulmx1.
Qed.
End Pair.

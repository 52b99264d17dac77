(** Patterns moved by a bijection of the grid: the layer matrices. *)
From Coq Require Import Reals ZArith Lra.
From mathcomp Require Import all_ssreflect all_algebra all_fingroup.
From mathcomp Require Import complex.
From Verif Require Import RStruct Cplx Cderiv Base Fourier_Model Fourier_Spec Sim_Model Sim_Spec Setup_Model.
From Verif Require Import SMat_Proofs Modes_Proofs Maxwell_Proofs.
From Verif Require Import Fourier_Proofs Grid_Spec Grid_Proofs Energy_Spec Energy_Proofs Energy_Proofs2 Basis_Proofs.
From Verif Require Import Symm_Proofs Symm_Proofs2 Symm_Proofs3.

Set Implicit Arguments.
Unset Strict Implicit.
Unset Printing Implicit Defensive.

Import Order.TTheory GRing.Theory Num.Theory.
Local Open Scope ring_scope.
Local Open Scope complex_scope.

Section Grid.
Variable nh : nat.
Notation n2 := (nh + nh)%N.
Variable tau : 'S_nh.
Variable ph : 'I_nh -> C.
Hypothesis ph1 : forall i, ph i * conj (ph i) = 1.
Variables o00 o01 o10 o11 : R.
Hypothesis c0 : (o00 * o00 + o10 * o10 = 1)%Re.
Hypothesis c1 : (o01 * o01 + o11 * o11 = 1)%Re.
Hypothesis c01 : (o00 * o01 + o10 * o11 = 0)%Re.
Variables Nx1 Ny1 Nx2 Ny2 : nat.
Hypotheses (Nx10 : (0 < Nx1)%N) (Ny10 : (0 < Ny1)%N) (Nx20 : (0 < Nx2)%N) (Ny20 : (0 < Ny2)%N).
Variables (h1 h2 : 'I_nh -> order).
(** the point of the first grid that becomes the point p of the second one *)
Variable g : 'I_Nx2 * 'I_Ny2 -> 'I_Nx1 * 'I_Ny1.
Hypothesis gb : bijective g.
(** all harmonics may change by a common phase *)
Variable cw : C.
Hypothesis cw1 : conj cw * cw = 1.
Hypothesis hg : forall i x y, wave (h2 i).1 (h2 i).2 x y =
  cw * conj (ph i) * wave (h1 (tau i)).1 (h1 (tau i)).2 (g (x, y)).1 (g (x, y)).2.
Notation um := (um tau ph).
Notation Um := (Um tau ph o00 o01 o10 o11).

Definition pull (u : 'M[C]_(Nx1, Ny1)) : 'M[C]_(Nx2, Ny2) := \matrix_(x, y) u (g (x, y)).1 (g (x, y)).2.

Lemma pull_size : (Nx2 * Ny2 = Nx1 * Ny1)%N.
Proof.
have := bij_eq_card gb.
by rewrite !card_prod !card_ord.
Qed.

Lemma wave_diff i j (x : 'I_Nx2) (y : 'I_Ny2) :
  wave (- ((h2 i).1 - (h2 j).1)) (- ((h2 i).2 - (h2 j).2)) x y =
  ph i * conj (ph j) * wave (- ((h1 (tau i)).1 - (h1 (tau j)).1)) (- ((h1 (tau i)).2 - (h1 (tau j)).2)) (g (x, y)).1 (g (x, y)).2.
Proof.
have D (a b : order) n0 n1 (x' : 'I_n0) (y' : 'I_n1) :
  wave (- (a.1 - b.1)) (- (a.2 - b.2)) x' y' = conj (wave a.1 a.2 x' y') * wave b.1 b.2 x' y'.
  by rewrite wave_conj waveM; congr wave; rewrite Z.opp_sub_distr.
rewrite !D !hg 2!conjM conjcK mulrACA; congr (_ * _).
by rewrite mulrACA cw1 mul1r.
Qed.

Lemma coef_pull u i j : coef (pull u) ((h2 i).1 - (h2 j).1) ((h2 i).2 - (h2 j).2) =
  ph i * conj (ph j) * coef u ((h1 (tau i)).1 - (h1 (tau j)).1) ((h1 (tau i)).2 - (h1 (tau j)).2).
Proof.
rewrite /coef pull_size mulrA; congr (_ / _).
rewrite !pair_big /= big_distrr /= (reindex g) /=; last by apply: onW_bij.
by apply: eq_bigr => -[x y] _ /=; rewrite mxE wave_diff mulrCA.
Qed.

Lemma toep_tw u M1 M2 : get_toeplitz h1 u = Ok M1 -> get_toeplitz h2 (pull u) = Ok M2 ->
  M2 *m um = um *m M1.
Proof.
rewrite /get_toeplitz.
have [[_ ->]|[_ ->]] // := toeplitzP Nx10 Ny10 h1 u.
have [[_ ->]|[_ ->]] // := toeplitzP Nx20 Ny20 h2 (pull u).
move=> [<-] [<-]; apply: tw_entries => i j; rewrite !mxE coef_pull.
by rewrite -[ph i * _ * _ * _]mulrA [_ * ph j]mulrC mulrA -[ph i * _ * ph j]mulrA [_ * ph j]mulrC ph1 mulr1.
Qed.

Lemma pointwise_inv_pull u v w : pointwise_inv u = Ok v -> pointwise_inv (pull u) = Ok w -> w = pull v.
Proof.
rewrite /pointwise_inv; case: ifP => // _ [<-]; case: ifP => // _ [<-].
by apply/matrixP=> x y; rewrite !mxE.
Qed.

Lemma linvP m (A B : 'M[C]_m) : linv A = Ok B -> A \in unitmx /\ B = invmx A.
Proof. by rewrite /linv; case: ifP => // hu [<-]. Qed.

Lemma nu_tw u N1 N2 : nu_hat_inv_iso h1 u = Ok N1 -> nu_hat_inv_iso h2 (pull u) = Ok N2 -> N2 *m um = um *m N1.
Proof.
rewrite /nu_hat_inv_iso => H1 H2; ubind H1 v1 hv1; ubind H2 v2 hv2; ubind H1 t1 ht1; ubind H2 t2 ht2.
rewrite (pointwise_inv_pull hv1 hv2) in ht2; have T := toep_tw ht1 ht2.
by have [u1 ->] := linvP H1; have [u2 ->] := linvP H2; apply: tw_inv.
Qed.

(** a 2 x 2 array of patterns, as a tensor *)
Definition conj_tensor (A2 : 'I_2 -> 'I_2 -> 'M[C]_(Nx2, Ny2)) (A1 : 'I_2 -> 'I_2 -> 'M[C]_(Nx1, Ny1)) : Prop :=
  let O (a c : 'I_2) := rc (if a == ord0 then (if c == ord0 then o00 else o01) else (if c == ord0 then o10 else o11)) in
  forall a b, A2 a b =
   pull (O a ord0 * O b ord0 *: A1 ord0 ord0 + O a ord0 * O b ord_max *: A1 ord0 ord_max +
         O a ord_max * O b ord0 *: A1 ord_max ord0 + O a ord_max * O b ord_max *: A1 ord_max ord_max).

Lemma toep_lin (x y z w : C) u1 u2 u3 u4 M1 M2 M3 M4 : get_toeplitz h1 u1 = Ok M1 -> get_toeplitz h1 u2 = Ok M2 ->
  get_toeplitz h1 u3 = Ok M3 -> get_toeplitz h1 u4 = Ok M4 ->
  get_toeplitz h1 (x *: u1 + y *: u2 + z *: u3 + w *: u4 : 'M[C]_(Nx1, Ny1)) =
   Ok (x *: M1 + y *: M2 + z *: M3 + w *: M4).
Proof.
rewrite /get_toeplitz => H1 H2 H3 H4.
have U u M : of_option IndexError (toeplitz h1 (u : 'M[C]_(Nx1, Ny1))) = Ok M -> toeplitz h1 u = Some M.
  by case: (toeplitz h1 u) => //= M' [<-].
have Z : toeplitz h1 (0 : 'M[C]_(Nx1, Ny1)) = Some 0.
  have [[_ e]|[k2 _]] := toeplitzP Nx10 Ny10 h1 (0 : 'M[C]_(Nx1, Ny1)); last first.
    by have := U _ _ H1; have [[k1 _]|[_ ->]] := toeplitzP Nx10 Ny10 h1 u1.
  rewrite e; congr Some; apply/matrixP=> i j; rewrite !mxE /coef big1 ?mul0r // => a _; rewrite big1 // => b _.
  by rewrite mxE mul0r.
have h1' := toeplitzDZ Nx10 Ny10 x Z (U _ _ H1); rewrite !add0r in h1'.
by rewrite (toeplitzDZ Nx10 Ny10 w (toeplitzDZ Nx10 Ny10 z (toeplitzDZ Nx10 Ny10 y h1' (U _ _ H2)) (U _ _ H3)) (U _ _ H4)).
Qed.

Lemma tensor_tw A2 A1 M2 M1 : conj_tensor A2 A1 -> toeplitz_transverse h1 A1 = Ok M1 ->
  toeplitz_transverse h2 A2 = Ok M2 -> M2 *m Um = Um *m M1.
Proof.
move=> hA; rewrite /toeplitz_transverse => H1 H2.
ubind H1 a1 ha1; ubind H1 b1 hb1; ubind H1 c1' hc1; ubind H1 dd1 hd1; case: H1 => <-.
ubind H2 a2 ha2; ubind H2 b2 hb2; ubind H2 c2 hc2; ubind H2 dd2 hd2; case: H2 => <-.
rewrite hA in ha2; rewrite hA in hb2; rewrite hA in hc2; rewrite hA in hd2.
have C0 : rc o00 * rc o00 + rc o10 * rc o10 = 1 by rewrite -!rmorphM -rmorphD; congr (rc _).
have C1 : rc o01 * rc o01 + rc o11 * rc o11 = 1 by rewrite -!rmorphM -rmorphD; congr (rc _).
have C01 : rc o00 * rc o01 + rc o10 * rc o11 = 0 by rewrite -!rmorphM -rmorphD; congr (rc _).
have L x y z w := toep_lin x y z w ha1 hb1 hc1 hd1.
have {ha2} ta := toep_tw (L _ _ _ _) ha2; have {hb2} tb := toep_tw (L _ _ _ _) hb2.
have {hc2} tc := toep_tw (L _ _ _ _) hc2; have {hd2} td := toep_tw (L _ _ _ _) hd2.
rewrite /= in ta tb tc td.
rewrite /Um !mulmx_block -!scalemxAr -!scalemxAl ta tb tc td !mulmxDr -!scalemxAr.
move: (um *m a1) (um *m b1) (um *m c1') (um *m dd1) => a b c d.
have K (x y x' y' p q : C) : p * x + q * x' = 1 -> p * y + q * y' = 0 -> forall (r t : C) (a b c d : 'M[C]_nh),
  p *: (r * x *: a + r * y *: b + t * x *: c + t * y *: d) + q *: (r * x' *: a + r * y' *: b + t * x' *: c + t * y' *: d) =
  r *: a + t *: c.
  move=> e1 e2 r t a' b' c' d'.
  apply/matrixP=> i j; rewrite !mxE.
  have -> : p * (r * x * a' i j + r * y * b' i j + t * x * c' i j + t * y * d' i j) +
    q * (r * x' * a' i j + r * y' * b' i j + t * x' * c' i j + t * y' * d' i j) =
    (p * x + q * x') * (r * a' i j + t * c' i j) + (p * y + q * y') * (r * b' i j + t * d' i j) by cring.
  by rewrite e1 e2 mul1r mul0r addr0.
have K' (x y x' y' p q : C) : p * x + q * x' = 0 -> p * y + q * y' = 1 -> forall (r t : C) (a b c d : 'M[C]_nh),
  p *: (r * x *: a + r * y *: b + t * x *: c + t * y *: d) + q *: (r * x' *: a + r * y' *: b + t * x' *: c + t * y' *: d) =
  r *: b + t *: d.
  move=> e1 e2 r t a' b' c' d'.
  apply/matrixP=> i j; rewrite !mxE.
  have -> : p * (r * x * a' i j + r * y * b' i j + t * x * c' i j + t * y * d' i j) +
    q * (r * x' * a' i j + r * y' * b' i j + t * x' * c' i j + t * y' * d' i j) =
    (p * x + q * x') * (r * a' i j + t * c' i j) + (p * y + q * y') * (r * b' i j + t * d' i j) by cring.
  by rewrite e1 e2 mul1r mul0r add0r.
have C10 : rc o01 * rc o00 + rc o11 * rc o10 = 0 by rewrite mulrC [rc o11 * _]mulrC.
by rewrite (K _ _ _ _ _ _ C0 C01) (K _ _ _ _ _ _ C0 C01) (K' _ _ _ _ _ _ C10 C1) (K' _ _ _ _ _ _ C10 C1).
Qed.

(** the permittivity of an isotropic pattern and its inverse rule *)
Section Builds.
Variables (w1 w2 : R).
Hypotheses (w10 : rc w1 != 0) (w20 : rc w2 != 0).
Variables (kx1 ky1 kx2 ky2 : 'rV[C]_nh).
Notation rel form1 form2 := (rel_eps tau ph o00 o01 o10 o11 w1 w2 kx1 ky1 kx2 ky2 h1 h2 form1 form2).

Lemma rel_original u : rel (Original Nx1 Ny1) (Original Nx2 Ny2) (EpsGrid (pull u)) (EpsGrid u).
Proof.
move=> b2 b1 H2 H1 /=; rewrite /build_matrix in H1 H2.
ubind H1 t1 ht1; ubind H2 t2 ht2; have T := toep_tw ht1 ht2; ubind H1 i1 hi1; ubind H2 i2 hi2.
have [_ [-> [-> _]]] := assembleP w10 H1; have [_ [-> [-> _]]] := assembleP w20 H2 => /=.
by split=> //; apply: Tw_diag.
Qed.

Lemma rel_tangent1d u : o01 = 0%Re -> o10 = 0%Re ->
  rel (Tangent1D Nx1 Ny1) (Tangent1D Nx2 Ny2) (EpsGrid (pull u)) (EpsGrid u).
Proof.
move=> z01 z10 b2 b1 H2 H1 /=; rewrite /build_matrix in H1 H2.
ubind H1 t1 ht1; ubind H2 t2 ht2; have T := toep_tw ht1 ht2; ubind H1 i1 hi1; ubind H2 i2 hi2.
ubind H1 P1 hP1; ubind H2 P2 hP2; ubind hP1 nu1 hn1; ubind hP2 nu2 hn2; have N := nu_tw hn1 hn2.
case: hP1 => e1; case: hP2 => e2; subst P1 P2.
have [_ [-> [-> _]]] := assembleP w10 H1; have [_ [-> [-> _]]] := assembleP w20 H2 => /=.
split=> //; rewrite /Um !mulmx_block z01 z10 !mul0mx !scale0r !mulmx0 ?mul0mx ?(addr0, add0r).
by rewrite -!scalemxAr -!scalemxAl T N.
Qed.

(** the two components in the order the projector uses them *)
Definition turned (t0 t1 : 'M[C]_(Nx1, Ny1)) (s0 s1 : 'M[C]_(Nx2, Ny2)) : Prop :=
  s1 = pull (rc o00 *: t1 + rc o01 *: t0) /\ s0 = pull (rc o10 *: t1 + rc o11 *: t0).

Lemma norm_turned (a b : C) : norm2 (rc o10 * b + rc o11 * a) (rc o00 * b + rc o01 * a) = norm2 a b.
Proof.
rewrite /norm2; congr (_ + complex.Re (csqrt _)).
have C0 : rc o00 * rc o00 + rc o10 * rc o10 = 1 by rewrite -!rmorphM -rmorphD; congr (rc _).
have C1 : rc o01 * rc o01 + rc o11 * rc o11 = 1 by rewrite -!rmorphM -rmorphD; congr (rc _).
have C01 : rc o00 * rc o01 + rc o10 * rc o11 = 0 by rewrite -!rmorphM -rmorphD; congr (rc _).
rewrite !conjD !conjM !rc_conj.
have -> : (rc o10 * b + rc o11 * a) * (rc o10 * conj b + rc o11 * conj a) + (rc o00 * b + rc o01 * a) * (rc o00 * conj b + rc o01 * conj a) =
  (rc o00 * rc o00 + rc o10 * rc o10) * (b * conj b) + (rc o01 * rc o01 + rc o11 * rc o11) * (a * conj a) +
  (rc o00 * rc o01 + rc o10 * rc o11) * (a * conj b + b * conj a) by cring.
by rewrite C0 C1 C01 !mul1r mul0r addr0 addrC.
Qed.

Lemma nt2_turned (a b : C) : nt2 (rc o10 * b + rc o11 * a) (rc o00 * b + rc o01 * a) = nt2 a b.
Proof. by rewrite /nt2 norm_turned. Qed.

Definition proj_tensor Nx Ny (t0 t1 : 'M[C]_(Nx, Ny)) (a b : 'I_2) : 'M[C]_(Nx, Ny) :=
  let v (a : 'I_2) := if a == ord0 then t1 else t0 in
  \matrix_(i, j) (v a i j * conj (v b i j) / nt2 (t0 i j) (t1 i j)).

Lemma proj_blocksE Nx Ny (h : 'I_nh -> order) (t0 t1 : 'M[C]_(Nx, Ny)) P : proj_blocks h t0 t1 = Ok P ->
  toeplitz_transverse h (proj_tensor t0 t1) = Ok P.
Proof.
rewrite /proj_blocks /toeplitz_transverse => H; ubind H xx hxx; ubind H yy hyy; ubind H pxy hxy; ubind H pyx hyx; case: H => <-.
have Q (b c : 'M[C]_(Nx, Ny)) M : get_toeplitz h (\matrix_(i, j) (b i j * conj (c i j) / nt2 (t0 i j) (t1 i j))) = Ok M ->
  forall A, A = \matrix_(i, j) (b i j * conj (c i j) / nt2 (t0 i j) (t1 i j)) -> get_toeplitz h A = Ok M by move=> <- A ->.
by rewrite (Q _ _ _ hyy) // (Q _ _ _ hyx) // (Q _ _ _ hxy) // (Q _ _ _ hxx).
Qed.

Lemma two (i : 'I_2) : i = ord0 \/ i = ord_max.
Proof. by case: i => -[|[|]] // hi; [left|right]; exact: val_inj. Qed.

Lemma expand2 (a b ca cb n p q r s : C) : (p * a + q * b) * (r * ca + s * cb) * n =
  p * r * (a * ca * n) + p * s * (a * cb * n) + q * r * (b * ca * n) + q * s * (b * cb * n).
Proof. cring. Qed.

Lemma proj_conj t0 t1 s0 s1 : turned t0 t1 s0 s1 -> conj_tensor (proj_tensor s0 s1) (proj_tensor t0 t1).
Proof.
move=> [-> ->] O a b; apply/matrixP=> x y; rewrite /proj_tensor !mxE nt2_turned {}/O.
move: (nt2 _ _)^-1 => n.
case: (two a) => ->; case: (two b) => -> /=; rewrite !mxE !conjD !conjM !rc_conj;
exact: expand2.
Qed.


Lemma Peps_tw P2 P1 N2 N1 t0 t1 s0 s1 Q2 Q1 : turned t0 t1 s0 s1 -> P2 *m Um = Um *m P1 -> N2 *m Um = Um *m N1 ->
  get_Peps h1 P1 N1 t0 t1 = Ok Q1 -> get_Peps h2 P2 N2 s0 s1 = Ok Q2 -> Q2 *m Um = Um *m Q1.
Proof.
move=> ht hP hN; rewrite /get_Peps => H1 H2; ubind H1 Pi1 h1'; ubind H2 Pi2 h2'; case: H1 => <-; case: H2 => <-.
have T := tensor_tw (proj_conj ht) (proj_blocksE h1') (proj_blocksE h2').
by rewrite mulmxBl mulmxBr hP -mulmxA T !mulmxA mulmxBl mulmxBr hP hN.
Qed.

Lemma rel_tangent u tan1 tan2 :
  (forall t s, tan1 u = Ok t -> tan2 (pull u) = Ok s -> turned t.1 t.2 s.1 s.2) ->
  rel (TangentLike tan1) (TangentLike tan2) (EpsGrid (pull u)) (EpsGrid u).
Proof.
move=> ht b2 b1 H2 H1 /=; rewrite /build_matrix in H1 H2.
ubind H1 e1 he1; ubind H2 e2 he2; have T := toep_tw he1 he2; ubind H1 i1 hi1; ubind H2 i2 hi2.
ubind H1 P1 hP1; ubind H2 P2 hP2; ubind hP1 v1 hv1; ubind hP2 v2 hv2; ubind hP1 nu1 hn1; ubind hP2 nu2 hn2; have N := nu_tw hn1 hn2.
have [_ [-> [-> _]]] := assembleP w10 H1; have [_ [-> [-> _]]] := assembleP w20 H2 => /=.
by split=> //; apply: (Peps_tw (ht _ _ hv1 hv2) (Tw_diag _ _ _ _ T) (Tw_diag _ _ _ _ N) hP1 hP2).
Qed.

(** tensors: the transverse part turned, the zz component carried along *)
Definition tensor_moved (u2 : 'I_3 -> 'I_3 -> 'M[C]_(Nx2, Ny2)) (u1 : 'I_3 -> 'I_3 -> 'M[C]_(Nx1, Ny1)) : Prop :=
  u2 ord_max ord_max = pull (u1 ord_max ord_max) /\
  conj_tensor (fun a b => u2 (xy a) (xy b)) (fun a b => u1 (xy a) (xy b)).

Lemma rel_tensor u2 u1 : tensor_moved u2 u1 ->
  rel (Original Nx1 Ny1) (Original Nx2 Ny2) (EpsTensorGrid u2) (EpsTensorGrid u1).
Proof.
move=> [hz ht] b2 b1 H2 H1 /=; rewrite /build_matrix in H1 H2.
ubind H1 e1 he1; ubind H2 e2 he2; rewrite hz in he2; have T := toep_tw he1 he2; ubind H1 i1 hi1; ubind H2 i2 hi2.
ubind H1 P1 hP1; ubind H2 P2 hP2; have N := tensor_tw ht hP1 hP2.
have [_ [-> [-> _]]] := assembleP w10 H1; have [_ [-> [-> _]]] := assembleP w20 H2 => /=.
by split.
Qed.

End Builds.
End Grid.

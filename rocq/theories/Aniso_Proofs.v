(** Patterned layers with a tensor permittivity: the operator the code builds is
    that of the tensor turned by 90 degrees about z. *)
From Coq Require Import Reals ZArith Lra Lia.
From mathcomp Require Import all_ssreflect all_algebra.
From mathcomp Require Import complex.
From Verif Require Import RStruct Cplx Cderiv Base Fourier_Model Fourier_Spec Sim_Model Sim_Spec Setup_Model.
From Verif Require Import SMat_Proofs SMat_Proofs2 SMat_Proofs3 Maxwell_Spec Modes_Proofs Maxwell_Proofs.
From Verif Require Import Fourier_Proofs Energy_Spec Energy_Proofs Energy_Proofs2 Energy_Proofs3 Basis_Proofs.
From Verif Require Import Run_Proofs Diag_Proofs Orders_Model Orders_Proofs.

Set Implicit Arguments.
Unset Strict Implicit.
Unset Printing Implicit Defensive.

Import Order.TTheory GRing.Theory Num.Theory.
Local Open Scope ring_scope.
Local Open Scope complex_scope.

Lemma cderiv_unique f z d d' : cderiv f z d -> cderiv f z d' -> d = d'.
Proof.
case=> a b [a' b']; apply/eqP; rewrite eq_complex; apply/andP; split; apply/eqP.
- exact: (uniqueness_limite _ _ _ _ a a').
- exact: (uniqueness_limite _ _ _ _ b b').
Qed.

(** The displacement is determined by the fields. *)
Lemma maxwell_unique nh (omega : R) (kx ky : 'rV[C]_nh) F Dx Dy Dz Dx' Dy' Dz' z :
  rc omega != 0 ->
  maxwell_at omega kx ky F Dx Dy Dz z -> maxwell_at omega kx ky F Dx' Dy' Dz' z ->
  Dx = Dx' /\ Dy = Dy' /\ Dz = Dz'.
Proof.
move=> w0 [a1 [a2 [a3 [a4 [a5 [_ [_ [d3 [d4 [d5 H]]]]]]]]]] [b1 [b2 [b3 [b4 [b5 [_ [_ [d3' [d4' [d5' H']]]]]]]]]].
have e3 : a3 = b3 by apply/colP=> i; exact: (cderiv_unique (d3 i) (d3' i)).
have e4 : a4 = b4 by apply/colP=> i; exact: (cderiv_unique (d4 i) (d4' i)).
subst b3 b4.
have i0 : ('i : C) != 0 by apply/eqP=> -[/eqP]; rewrite oner_eq0.
have wn : (- 'i * rc omega : C) != 0 by rewrite mulf_neq0 // oppr_eq0.
by do !split; apply/colP=> i; have [_ [_ [_ [h1 [h2 [h3 _]]]]]] := H i;
  have [_ [_ [_ [h1' [h2' [h3' _]]]]]] := H' i; apply: (mulfI wn);
  [rewrite -h1 -h1'|rewrite -h2 -h2'|rewrite -h3 -h3'].
Qed.

Section Rot.
Variables (Nx Ny : nat).
Definition x3 : 'I_3 := ord0.
Definition y3 : 'I_3 := xy ord_max.

(** R u R^T for the rotation by 90 degrees about z (transverse block) *)
Definition rot90 (u : 'I_3 -> 'I_3 -> 'M[C]_(Nx, Ny)) (a b : 'I_3) : 'M[C]_(Nx, Ny) :=
  if (a == x3) && (b == x3) then u y3 y3
  else if (a == x3) && (b == y3) then - u y3 x3
  else if (a == y3) && (b == x3) then - u x3 y3
  else if (a == y3) && (b == y3) then u x3 x3
  else u a b.
End Rot.

Section RunTensor.
Variables (Nx Ny nh : nat).
Hypotheses (Nx0 : (0 < Nx)%N) (Ny0 : (0 < Ny)%N).
Variable eig : forall m, 'M[C]_m -> 'rV[C]_m * 'M[C]_m.
Hypothesis eig_ok : forall m (A : 'M[C]_m), A *m (eig A).2 = (eig A).2 *m diag_mx (eig A).1.
Variable pw : planewave.
Variable rec : 'M[R]_2.
Variable h : 'I_nh -> order.
Variable i0 : 'I_nh.
Notation form := (@Original Nx Ny).
Notation run_field := (run_field eig pw rec h form).

Lemma convN (u : 'M[C]_(Nx, Ny)) (E D : 'cV[C]_nh) : convolves h u E D -> convolves h (- u) E (- D).
Proof.
move=> H i; rewrite mxE H -sumrN; apply: eq_bigr => j _.
by rewrite -scaleN1r coefZ mulN1r mulNr.
Qed.

Lemma run_maxwell_tensor layers k li u z0 F0 e0 :
  List.nth_error layers k = Some li -> first_eps layers e0 -> li_eps li = EpsTensorGrid u ->
  run_field layers i0 k z0 = Ok F0 ->
  exists F, (forall z, run_field layers i0 k z = Ok (F z)) /\
  forall z, exists Dx Dy Dz,
    tensor_displacement h (rot90 u) (f_ex (F z)) (f_ey (F z)) (f_ez (F z)) Dx Dy Dz /\
    maxwell_at (sim_omega pw) (sim_kx pw rec h e0) (sim_ky pw rec h e0) F Dx Dy Dz z.
Proof.
move=> hk he0 hu hF.
have [e0' [a [st [h1 [h2 [h3 h4]]]]]] := run_fieldP hF.
have e : e0' = e0 by move: he0 h1; case: layers {hk hF h3} => [|l0 ls] //= -> [].
subst e0'; have w0 := gff_omega h4.
have [l [hl hs]] := mapr_nth h3 hk.
have H := h4; rewrite /get_field_fourier hl in H; ubind H p hp; ubind H p' hp'.
have [F hFF] := field_all_z hp' H.
exists F; split=> [z|z].
  move: he0 h3; rewrite /Setup_Model.run_field /first_eps; case: layers {hk hF h1} => [|l0 ls] //= -> /= h3.
  by rewrite h2 /= h3 /= /get_field_fourier hl hp /=; apply: hFF.
have hs' := hs; rewrite /solve_layer in hs'; ubind hs' b hb.
have := maxwell_layer w0 eig_ok z hb hs hFF.
set DT := layer_Peps _ _ *m _ => hm.
exists (dsubmx DT), (- usubmx DT), (layer_epsz (li_eps li) b *m f_ez (F z)); split=> //.
move: hb; rewrite /DT hu /build_matrix => hb.
ubind hb eh he; ubind hb ehi hi; ubind hb P hP; rewrite /= in hb; 
have [hQ [g1 [g2 g3]]] := assembleP w0 hb.
rewrite /layer_Peps /layer_epsz g1 g2 /=.
rewrite /toeplitz_transverse in hP; ubind hP A hA; ubind hP B hB; ubind hP Cm hC; ubind hP D hD; case: hP => <-.
rewrite mul_block_col col_mxKd col_mxKu.
have ex0 : xy ord0 = x3 by apply: val_inj.
have ey0 : xy ord_max = y3 by [].
rewrite ex0 ey0 in hA hB hC hD.
exists (D *m f_ex (F z)), (- (Cm *m f_ey (F z))), (- (B *m f_ex (F z))), (A *m f_ey (F z)).
rewrite /rot90 ![_ == _]/=.
split; first exact: (toeplitz_convolves Nx0 Ny0).
split; first by apply: convN; exact: (toeplitz_convolves Nx0 Ny0).
split; first by apply: convN; exact: (toeplitz_convolves Nx0 Ny0).
split; first exact: (toeplitz_convolves Nx0 Ny0).
rewrite !mulmxN; split; first by rewrite addrC.
split; first by rewrite opprD opprK addrC.
exact: (toeplitz_convolves Nx0 Ny0).
Qed.
End RunTensor.

(** ** A concrete structure: one order, normal incidence *)
Section Demo.
(** an eigensolver good enough for diagonal matrices *)
Definition demo_eig m (A : 'M[C]_m) : 'rV[C]_m * 'M[C]_m :=
  if is_diag_mx A then (\row_i A i i, 1%:M) else (0, 0).

Lemma demo_eig_ok m (A : 'M[C]_m) : A *m (demo_eig A).2 = (demo_eig A).2 *m diag_mx (demo_eig A).1.
Proof.
rewrite /demo_eig; case: ifP => [/is_diag_mxP H|_] /=; last by rewrite mulmx0 mul0mx.
rewrite mulmx1 mul1mx; apply/matrixP=> i j; rewrite !mxE; case: (eqVneq i j) => [->//|ij]; exact: H.
Qed.

Lemma demo_eig_dg n (a : 'I_(n + n) -> C) : demo_eig (dg a) = (\row_i a i, 1%:M).
Proof.
rewrite /demo_eig diag_mx_is_diag; congr pair; apply/rowP=> i; by rewrite !mxE eqxx.
Qed.

Definition demo_pw : planewave := PlaneWave 1 0 0 0.
Definition demo_h : 'I_1 -> order := fun _ => (0%Zc, 0%Zc).
Definition demo_rec : 'M[R]_2 := ((2 * PI)%Re)%:M.

Lemma demo_k (e : C) : sim_kx demo_pw demo_rec demo_h e = 0 /\ sim_ky demo_pw demo_rec demo_h e = 0.
Proof.
have z0 : zC 0 = 0 by [].
by split; apply/rowP=> i; rewrite [LHS]mxE [RHS]mxE /= /pw_kx /pw_ky /= sin_0 ?Rmult_0_l ?Rmult_0_r mul0r z0 !mulr0 !addr0.
Qed.

Lemma demo_w : (0 < sim_omega demo_pw)%Re.
Proof. by rewrite /sim_omega /pw_k0 /=; have := PI_RGT_0; lra. Qed.

Lemma demo_a0 : pw_a0 demo_pw = Ok (0%Re, 1%Re).
Proof.
have w0 := demo_w; rewrite /sim_omega in w0.
rewrite /pw_a0 /pw_det /pw_Q11 /pw_Q12 /pw_Q22 /pw_q /pw_kx /pw_ky /pw_cx /pw_cy.
move: (pw_k0 demo_pw) w0 => k k0 /=; rewrite sin_0 cos_0 !(Rmult_0_l, Rmult_0_r, Rmult_1_l, Rmult_1_r, Rminus_0_r).
case: Req_EM_T => [e|ne].
  by exfalso; move: e; apply: Rgt_not_eq; do !(apply: Rmult_lt_0_compat => //).
rewrite sqrt_square; last lra.
by congr (Ok (_, _)); field; lra.
Qed.

Lemma matmul0 n (A : 'M[C]_n) : matmuldiag 0 A = 0.
Proof. by apply/matrixP=> i j; rewrite !mxE mul0r. Qed.

Lemma K00 n (u : 'M[C]_n) : build_Kmatrix u 0 0 = 0.
Proof. by rewrite /build_Kmatrix !trmx0 !matmul0 trmx0 block_mx0. Qed.

Lemma diag0 n : diag_mx (0 : 'rV[C]_n) = 0.
Proof. exact: linear0. Qed.

Lemma scaledg n c (a : 'I_(n + n) -> C) : c *: dg a = dg (fun i => c * a i).
Proof. by apply/matrixP=> i j; rewrite !mxE mulrnAr. Qed.

Definition two (n : nat) (x y : C) (i : 'I_(n + n)) : C := if (i < n)%N then x else y.

Lemma two_block n (x y : C) : block_mx (x%:M : 'M[C]_n) 0 0 (y%:M : 'M[C]_n) = dg (two x y).
Proof.
apply/matrixP=> i j; rewrite [RHS]mxE [in RHS]mxE.
case: (split_ordP i) => k ->; case: (split_ordP j) => k' ->;
 rewrite ?block_mxEul ?block_mxEur ?block_mxEdl ?block_mxEdr ?eq_lshift ?eq_rshift ?eq_lrshift ?eq_rlshift ?mulr0n
   /two ?mxE /= ?ltn_ord //.
by rewrite ltnNge leq_addr.
Qed.

Notation w := (sim_omega demo_pw).

Lemma demo_toep n N1 N2 (hh : 'I_n -> order) (N10 : (0 < N1)%N) (N20 : (0 < N2)%N) c :
  (forall i, hh i = (0%Zc, 0%Zc)) -> n = 1%N -> get_toeplitz hh (const_mx c : 'M[C]_(N1, N2)) = Ok c%:M.
Proof.
move=> h0 n1; rewrite /get_toeplitz.
case: (toeplitzP N10 N20 hh (const_mx c)) => [[_ ->]|[H _]] /=.
  congr Ok; apply/matrixP=> i j; rewrite !mxE !h0 coef_const //=.
  have -> : i == j by move: i j; rewrite n1 => i j; rewrite (ord1 i) (ord1 j).
  by rewrite mulr1n.
case: H => i j; rewrite !h0 /indexable /index_ok /=.
by move/ssrnat.ltP: N10 => ?; move/ssrnat.ltP: N20 => ?; split; lia.
Qed.

Variables (Nx Ny : nat).
Hypotheses (Nx0 : (0 < Nx)%N) (Ny0 : (0 < Ny)%N).

Lemma demo_sqrt (x : R) : (0 <= x)%Re -> csqrt (rc (x * x)%Re) = rc x.
Proof.
move=> x0; rewrite csqrt_rc; have -> : 0 <= (x * x)%Re by apply/RleP; have := Rle_0_sqr x; rewrite /Rsqr.
by congr (real_complex R_rcfType _); have := @sqrtr_sqr R_rcfType x; rewrite expr2 ger0_norm //; apply/RleP.
Qed.

Lemma demo_branch (x : R) : (0 <= x)%Re -> branch (rc (x * x)%Re) = rc x.
Proof. by move=> x0; rewrite /branch demo_sqrt //= ltxx. Qed.

Definition demo_l0 : slayer 1 := SLayer (Some 0) (\row_i rc w) 1%:M (dg (fun _ => omega2 w)) (inl 1).

Lemma demo_layer0 form : solve_layer demo_eig w 0 0 demo_h form (Some 0) 1 (EpsUniform Nx Ny 1) = Ok demo_l0.
Proof.
have w0 := demo_w.
rewrite /solve_layer /build_matrix oner_eq0 !diag0 oppr0 K00 subr0 /=.
congr (Ok (SLayer _ _ _ _ _)).
- apply/rowP=> i; rewrite mxE; case: (split_ordP i) => k ->; rewrite ?row_mxEl ?row_mxEr !mxE;
  by rewrite expr0n !subr0 !mul1r demo_sqrt //; lra.
- by rewrite two_block; apply/matrixP=> i j; rewrite !mxE mulrnAr /two; case: ifP; rewrite mulr1.
Qed.

(** diag(a^2, b^2, 1) on a constant grid *)
Definition demo_u (a b : R) (i j : 'I_3) : 'M[C]_(Nx, Ny) :=
  const_mx (if i != j then 0 else if i == x3 then rc (a * a)%Re else if i == y3 then rc (b * b)%Re else 1).

Definition demo_l1 (a b : R) : slayer 1 :=
  SLayer (Some 0) (\row_i two (rc (w * a)%Re) (rc (w * b)%Re) i) 1%:M (dg (fun _ => omega2 w)) (inr 1%:M).

Lemma demo_layer1 a b : (0 <= a)%Re -> (0 <= b)%Re ->
  solve_layer demo_eig w 0 0 demo_h (Original Nx Ny) (Some 0) 1 (EpsTensorGrid (demo_u a b)) = Ok (demo_l1 a b).
Proof.
move=> a0 b0; have w0 := demo_w.
rewrite /solve_layer /build_matrix /toeplitz_transverse /demo_u.
have ex0 : xy ord0 = x3 by apply: val_inj.
have ey0 : xy ord_max = y3 by [].
rewrite ex0 ey0 ![_ == _]/= ![~~ _]/=.
rewrite !(demo_toep Nx0 Ny0) // !bindE /linv unitmx1 !bindE.
rewrite /assemble oner_eq0 !diag0 oppr0 K00 K00 !bindE [bt_matrix _]/= [bt_eps_hat _]/= [bt_Qeps _]/=.
have z0 : (0%:M : 'M[C]_1) = 0 by apply/matrixP=> i j; rewrite !mxE mul0rn.
rewrite z0 mulmx0 mul0mx addr0 !subr0 -scalar_mx_block mulmx1 two_block scaledg.
congr (Ok (SLayer _ _ _ _ _)).
- have wa x : (0 <= x)%Re -> branch (omega2 w * rc (x * x)%Re) = rc (w * x)%Re.
    move=> x0; rewrite /omega2 -rmorphM -demo_branch; last by apply: Rmult_le_pos; lra.
    by congr (branch (rc _)); rfold; ring.
  by rewrite /eigen_q demo_eig_dg; apply/rowP=> i; rewrite !mxE /two; case: ifP => _; apply: wa.
- by rewrite /eigen_phi demo_eig_dg.
- by rewrite dg1 scaledg; apply: dg_eq => i; rewrite mulr1.
Qed.

Lemma w2n : omega2 w != 0.
Proof. by apply/eqP=> -[]; apply: Rgt_not_eq; apply: Rmult_lt_0_compat; exact: demo_w. Qed.

Lemma demo_dec0 : decoupled demo_l0 (fun _ => omega2 w).
Proof.
split=> // [|i]; last exact: w2n.
by apply/forallP=> i; rewrite mxE; apply/eqP=> -[]; apply: Rgt_not_eq; exact: demo_w.
Qed.

Lemma demo_dec1 a b : (0 < a)%Re -> (0 < b)%Re -> decoupled (demo_l1 a b) (fun _ => omega2 w).
Proof.
move=> a0 b0; split=> // [|i]; last exact: w2n.
apply/forallP=> i; rewrite mxE /two; case: ifP => _; apply/eqP=> -[]; apply: Rgt_not_eq;
  by apply: Rmult_lt_0_compat => //; exact: demo_w.
Qed.

Definition demo_stack a b : seq (layer_in Nx Ny) :=
  [:: LayerIn (Some 0%Re) (EpsUniform Nx Ny 1); LayerIn (Some 0%Re) (EpsTensorGrid (demo_u a b))].

(** E_x behind the interface is 2/(1+b): the index seen by an x polarised wave is
    b, the y index of the medium. *)
Lemma demo_run a b : (0 < a)%Re -> (0 < b)%Re -> exists F,
  run_field demo_eig demo_pw demo_rec demo_h (Original Nx Ny) (demo_stack a b) ord0 1 0 = Ok F /\
  f_ex F ord0 ord0 = rc (2 / (1 + b))%Re.
Proof.
move=> a0 b0; have w0 := demo_w.
rewrite /run_field /demo_stack [scalar_eps _]/= bindE demo_a0 bindE /solve_stack.
have [-> ->] := demo_k 1; rewrite /= demo_layer0 demo_layer1 ?bindE; [|lra|lra].
have A0 i : adm demo_l0 (fun _ => omega2 w) i = rc w.
  rewrite /adm mxE /omega2 rmorphM mulfK //; apply/eqP=> -[]; exact: Rgt_not_eq.
have A1 i : adm (demo_l1 a b) (fun _ => omega2 w) i = two (rc (w / a)%Re) (rc (w / b)%Re) i.
  rewrite /adm mxE /two /omega2; case: ifP => _; rewrite rcV -?rmorphM; try (apply: Rgt_not_eq; exact: Rmult_lt_0_compat);
  congr (real_complex R_rcfType _); rfold; field; lra.
have hs i : adm demo_l0 (fun _ => omega2 w) i + adm (demo_l1 a b) (fun _ => omega2 w) i != 0.
  rewrite A0 A1 /two; case: ifP => _; rewrite -rmorphD; apply/eqP=> -[]; apply: Rgt_not_eq; apply: Rplus_lt_0_compat => //;
  by apply: Rmult_lt_0_compat => //; apply: Rinv_0_lt_compat.
have [Sm [hS [hS11 _]]] := two_layers demo_dec0 (demo_dec1 a0 b0) hs.
rewrite /get_field_fourier [List.nth_error _ _]/= /get_amplitudes [(1 == _)%N]/= [(_ == (size _).-1)%N]/= hS !bindE.
rewrite /translate /= phasor0 vmul1 vmul0 /field_of.
have dc := demo_dec1 a0 b0; rewrite (dc_q dc).
have -> : (rc w == 0) = false by apply/eqP=> -[]; exact: Rgt_not_eq.
cbn [negb orb sl_eps demo_l1].
rewrite solve_unit ?unitmx1 // bindE; eexists; split; first by [].
cbn [f_ex sl_phi sl_Qeps sl_q demo_l1 fst snd].
rewrite mulmx0 addr0 subr0 mul1mx mxE hS11 /dg mul_diag_mx mxE [X in _ * X]mxE mul_diag_mx.
rewrite [X in _ * (X / _)]mxE [(\row_i _) _ _]mxE.
have -> : (\row_i (2%:R * adm demo_l0 (fun=> omega2 w) i /
    (adm demo_l0 (fun=> omega2 w) i + adm (demo_l1 a b) (fun=> omega2 w) i) *
    phasor (sl_q demo_l0) (thick0 demo_l0) ord0 i)) 0 (rshift 1 ord0) = 2%:R * rc w / (rc w + rc (w / b)%Re).
  by rewrite mxE A0 A1 [phasor _ _ _ _]mxE /thick0 /= mulr0 cexp0 mulr1.
rewrite /sim_a0 col_mxEd [(\col_i _) _ _]mxE eqxx mulr1 [(\row_i _) _ _]mxE /two [(_ < 1)%N]/= /omega2.
have e2 : (2%Re : R) = 2%:R by rewrite mulr2n; rfold; ring.
have -> : (2%:R : C) = rc 2%Re by rewrite e2 rmorph_nat.
rewrite -!(rmorphD, rmorphM).
have p1 : (0 < w * (w * b))%Re by do !(apply: Rmult_lt_0_compat => //).
have p2 : (0 < w / b)%Re by apply: Rmult_lt_0_compat => //; exact: Rinv_0_lt_compat.
rewrite !rcV; try (by apply: Rgt_not_eq; rfold; lra).
rewrite -!rmorphM; congr (real_complex R_rcfType _); rfold; field; do !split; apply: Rgt_not_eq; nra.
Qed.

Lemma conv_const c (E D : 'cV[C]_1) : convolves demo_h (const_mx c : 'M[C]_(Nx, Ny)) E D ->
  D ord0 ord0 = c * E ord0 ord0.
Proof. by move=> /(_ ord0) ->; rewrite big_ord1 coef_const. Qed.

Lemma aniso_wrong a b : (0 < a)%Re -> (0 < b)%Re -> a <> b -> exists F,
  (forall z, run_field demo_eig demo_pw demo_rec demo_h (Original Nx Ny) (demo_stack a b) ord0 1 z = Ok (F z)) /\
  forall Dx Dy Dz, tensor_displacement demo_h (demo_u a b) (f_ex (F 0)) (f_ey (F 0)) (f_ez (F 0)) Dx Dy Dz ->
    ~ maxwell_at w (sim_kx demo_pw demo_rec demo_h 1) (sim_ky demo_pw demo_rec demo_h 1) F Dx Dy Dz 0.
Proof.
move=> a0 b0 ab; have [F0 [hF0 hex]] := demo_run a0 b0.
have [F [hF HD]] := run_maxwell_tensor Nx0 Ny0 demo_eig_ok (layers := demo_stack a b) (k := 1) (li := LayerIn (Some 0%Re) (EpsTensorGrid (demo_u a b)))
  erefl (erefl : first_eps (demo_stack a b) 1) erefl hF0.
exists F; split=> // Dx Dy Dz hD hM.
have eF : F 0 = F0 by move: (hF 0); rewrite hF0 => -[].
have [Dx' [Dy' [Dz' [hD' hM']]]] := HD 0.
have w0 : rc w != 0 by apply/eqP=> -[]; apply: Rgt_not_eq; exact: demo_w.
have [eD _] := maxwell_unique w0 hM hM'; subst Dx'.
case: hD => d1 [d2 [d3 [d4 [h1 [h2 [_ [_ [e1 _]]]]]]]].
case: hD' => g1 [g2 [g3 [g4 [k1 [k2 [_ [_ [e2 _]]]]]]]].
move: h1 h2 k1 k2; rewrite /rot90 /demo_u ![_ == _]/= ![~~ _]/= -/(const_mx _) => /conv_const h1 /conv_const h2 /conv_const k1 /convN k2.
move: (e1); rewrite e2 => /(congr1 (fun v : 'cV[C]_1 => v ord0 ord0)).
rewrite [LHS]mxE [RHS]mxE h1 h2 k1.
have -> : g2 ord0 ord0 = 0.
  move: (k2 ord0); rewrite big_ord1 opprK coef_const // mxE mul0r => /eqP.
  by rewrite oppr_eq0 => /eqP.
rewrite mul0r !addr0 eF hex -!rmorphM => -[].
have p : (0 < 2 / (1 + b))%Re by apply: Rmult_lt_0_compat; [lra|apply: Rinv_0_lt_compat; lra].
move=> /(Rmult_eq_reg_r _ _ _) H; apply: ab; have : (b * b = a * a)%Re by apply: H; apply: Rgt_not_eq.
by nra.
Qed.
End Demo.

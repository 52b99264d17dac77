(** A concrete structure with several diffraction orders along x: normal
    incidence, a grating finer than what the kept orders resolve. *)
From Coq Require Import Reals ZArith Lra Lia.
From mathcomp Require Import all_ssreflect all_algebra.
From mathcomp Require Import complex.
From Verif Require Import RStruct Cplx Cderiv Base Fourier_Model Fourier_Spec Sim_Model Sim_Spec Setup_Model.
From Verif Require Import SMat_Proofs SMat_Proofs2 SMat_Proofs3 Maxwell_Spec Modes_Proofs Maxwell_Proofs.
From Verif Require Import Fourier_Proofs Energy_Spec Energy_Proofs Energy_Proofs2 Energy_Proofs3 Basis_Proofs.
From Verif Require Import Grid_Spec Grid_Proofs Run_Proofs Diag_Proofs Orders_Model Orders_Proofs Aniso_Proofs Demo_Proofs.

Set Implicit Arguments.
Unset Strict Implicit.
Unset Printing Implicit Defensive.

Import Order.TTheory GRing.Theory Num.Theory.
Local Open Scope ring_scope.
Local Open Scope complex_scope.

Notation half := (2%:R^-1 : C).

Lemma expi_unit (x : R) : cexp ('i * rc x) * conj (cexp ('i * rc x)) = 1.
Proof.
rewrite -cexp_conj conjM rc_conj -cexpD.
have -> : 'i * rc x + conj 'i * rc x = 0 by apply/eqP; rewrite eq_complex /=; apply/andP; split; apply/eqP; rfold; ring.
exact: cexp0.
Qed.

Lemma spl m n (i : 'I_m) : split (lshift n i) = inl i. Proof. exact: (unsplitK (inl i)). Qed.
Lemma spr m n (i : 'I_n) : split (rshift m i) = inr i. Proof. exact: (unsplitK (inr i)). Qed.

Section D3.
Variables (nh : nat) (w : R) (K : 'I_nh -> R).
Hypothesis w0 : (0 < w)%Re.
Hypothesis hK : forall i, (K i * K i < w * w)%Re.
Notation n2 := (nh + nh)%N.
Definition Kof (i : 'I_n2) : R := match split i with inl k => K k | inr k => K k end.
Definition qof (n : R) (i : 'I_n2) : R := sqrt (w * n * (w * n) - Kof i * Kof i).
Definition dof (n : R) (i : 'I_n2) : R :=
  match split i with inl k => (w * w)%Re | inr k => (w * w - K k * K k / (n * n))%Re end.

Definition med (t n : R) (e : C + 'M[C]_nh) : slayer nh :=
  SLayer (Some t) (\row_i rc (qof n i)) 1%:M (dg (fun i => rc (dof n i))) e.

Lemma hKof i : (Kof i * Kof i < w * w)%Re.
Proof. by rewrite /Kof; case: (split i) => k. Qed.
Lemma rad_pos n i : (1 <= n)%Re -> (0 < w * n * (w * n) - Kof i * Kof i)%Re.
Proof.
move=> n1; have h := hKof i; have nn : (1 <= n * n)%Re by nra.
have ww : (0 < w * w)%Re by nra.
have e : (w * n * (w * n) = w * w * (n * n))%Re by ring.
by rewrite e; nra.
Qed.
Lemma qof_pos n i : (1 <= n)%Re -> (0 < qof n i)%Re.
Proof. by move=> n1; apply: sqrt_lt_R0; exact: rad_pos. Qed.
Lemma dof_pos n i : (1 <= n)%Re -> (0 < dof n i)%Re.
Proof.
move=> n1; rewrite /dof; case: (split i) => k; first nra.
have h := hK k; have nn : (1 <= n * n)%Re by nra.
have : (K k * K k / (n * n) <= K k * K k)%Re; last lra.
apply: (Rmult_le_reg_r (n * n)); first lra.
rewrite /Rdiv Rmult_assoc Rinv_l; last lra.
by have := Rle_0_sqr (K k); rewrite /Rsqr; nra.
Qed.
Lemma rcn0 (x : R) : (0 < x)%Re -> rc x != 0.
Proof. by move=> x0; apply/eqP=> -[]; exact: Rgt_not_eq. Qed.
Lemma med_dec t n e : (1 <= n)%Re -> decoupled (med t n e) (fun i => rc (dof n i)).
Proof.
move=> n1; split=> // [|i]; last by apply: rcn0; exact: dof_pos.
by apply/forallP=> i; rewrite mxE; apply: rcn0; exact: qof_pos.
Qed.
Lemma med_adm t n e i : (1 <= n)%Re -> adm (med t n e) (fun i => rc (dof n i)) i = rc (dof n i / qof n i)%Re.
Proof.
move=> n1; have q0 := qof_pos i n1; rewrite /adm mxE rcV -?rmorphM; last exact: Rgt_not_eq.
by [].
Qed.
Lemma med_phase t n e i : exists x : R, phasor (sl_q (med t n e)) (thick0 (med t n e)) ord0 i = cexp ('i * rc x).
Proof. by exists (qof n i * t)%Re; rewrite mxE mxE /thick0 [odflt _ _]/= rmorphM mulrA. Qed.

Lemma denom (x y : R) (f : C) : (0 < x)%Re -> (0 < y)%Re -> f * conj f = 1 ->
  half * (1 + rc y) - f * ((f * 0 * (half * (1 + rc x)) - half * (1 - rc x)) * f /
     (half * (1 + rc x) - f * 0 * (half * (1 - rc x)))) * (half * (1 - rc y)) != 0.
Proof.
move=> x0 y0 ff; apply/eqP=> e.
have hp (z : R) : half * (1 + rc z) = rc ((1 + z) / 2)%Re.
  by rewrite half_rc (_ : (1 : C) = rc 1%Re) // -rmorphD -rmorphM; congr (real_complex R_rcfType _); rfold; field.
have hm (z : R) : half * (1 - rc z) = rc ((1 - z) / 2)%Re.
  by rewrite half_rc (_ : (1 : C) = rc 1%Re) // -rmorphB -rmorphM; congr (real_complex R_rcfType _); rfold; field.
move: e; rewrite !hp !hm !(mulr0, mul0r, subr0, sub0r).
set a := ((1 + x) / 2)%Re; set b := ((1 + y) / 2)%Re; set c := ((1 - x) / 2)%Re; set d := ((1 - y) / 2)%Re.
have a0 : rc a != 0 by apply: rcn0; rewrite /a; lra.
move=> e; have e1 : rc (a * b)%Re = - (f * f * rc (c * d)%Re).
  have : rc a * (rc b - f * (- rc c * f / rc a) * rc d) = 0 by rewrite e mulr0.
  rewrite mulrBr; have -> : rc a * (f * (- rc c * f / rc a) * rc d) = - (f * f * (rc c * rc d)).
    by move: a0 => /eqP a0; cfield.
  by move=> /eqP; rewrite subr_eq0 -!rmorphM => /eqP.
have e2 : rc (a * b)%Re * conj (rc (a * b)%Re) = rc (c * d)%Re * conj (rc (c * d)%Re).
  rewrite e1 !(conjM, conjN) mulrNN (_ : _ * _ = f * conj f * (f * conj f) * (rc (c * d)%Re * conj (rc (c * d)%Re))); last cring.
  by rewrite ff !mul1r.
move: e2; rewrite !rc_conj -!rmorphM => -[]; rfold; rewrite /a /b /c /d => e2.
have h1 : (0 < x * y)%Re by nra.
have : ((1 + x) * (1 + y) * ((1 + x) * (1 + y)) = (1 - x) * (1 - y) * ((1 - x) * (1 - y)))%Re by lra.
nra.
Qed.

Definition pick (a b : 'I_nh -> C) (i : 'I_n2) : C := match split i with inl k => a k | inr k => b k end.
Lemma pick_block (a b : 'I_nh -> C) : block_mx (diag_mx (\row_i a i)) 0 0 (diag_mx (\row_i b i)) = dg (pick a b).
Proof.
apply/matrixP=> i j; rewrite /dg mxE [in RHS]mxE /pick.
case: (split_ordP i) => k ->; case: (split_ordP j) => k' ->;
 rewrite ?block_mxEul ?block_mxEur ?block_mxEdl ?block_mxEdr ?eq_lshift ?eq_rshift ?eq_lrshift ?eq_rlshift ?mulr0n
   ?mxE ?spl ?spr; rewrite ?[LHS]mxE ?[in LHS]mxE //.
Qed.
Notation Kx := (diag_mx (\row_i rc (K i))).
Lemma K_low (c : C) : build_Kmatrix c%:M 0 (- Kx) = dg (pick (fun=> 0) (fun i => rc (K i) * c * rc (K i))).
Proof.
rewrite /build_Kmatrix !trmx0 !matmul0 !trmx0 -pick_block; congr block_mx.
- by apply/matrixP=> i j; rewrite !mxE mul0rn.
- by apply/matrixP=> i j; rewrite !mxE mulr0.
- apply/matrixP=> i j; rewrite !mxE; case: (eqVneq i j) => [->|ij]; last by rewrite ?[j == i]eq_sym ?(negPf ij) !mulr0n !mulr0.
  by rewrite ?eqxx !mulr1n; cring.
Qed.
Lemma K_up : build_Kmatrix 1%:M Kx 0 = dg (pick (fun i => rc (K i) * rc (K i)) (fun=> 0)).
Proof.
rewrite /build_Kmatrix !trmx0 !matmul0 !trmx0 -pick_block; congr block_mx.
- apply/matrixP=> i j; rewrite !mxE; case: (eqVneq i j) => [->|ij]; last by rewrite ?[j == i]eq_sym ?(negPf ij) !mulr0n !mulr0.
  by rewrite ?eqxx !mulr1n; cring.
- by apply/matrixP=> i j; rewrite !mxE mulr0.
- by apply/matrixP=> i j; rewrite !mxE mul0rn.
Qed.
Lemma pick_scal (c d : C) : block_mx (c%:M : 'M[C]_nh) 0 0 d%:M = dg (pick (fun=> c) (fun=> d)).
Proof.
by rewrite -pick_block; congr block_mx; apply/matrixP=> i j; rewrite !mxE.
Qed.
Variables (Nx Ny : nat) (h : 'I_nh -> order) (form : formulation_t Nx Ny).
Notation kx := (\row_i rc (K i)).
Lemma rcsq (x : R) : rc x ^+ 2 = rc (x * x)%Re. Proof. by rewrite expr2 -rmorphM. Qed.

Lemma med_uniform t n : (1 <= n)%Re ->
  solve_layer demo_eig w kx 0 h form (Some t) 1 (EpsUniform Nx Ny (rc (n * n)%Re)) = Ok (med t n (inl (rc (n * n)%Re))).
Proof.
move=> n1; have nn : (0 < n * n)%Re by nra.
rewrite /solve_layer /build_matrix (negPf (rcn0 nn)) diag0 K_low bindE [bt_Qeps _]/=.
congr (Ok (SLayer _ _ _ _ _)).
- apply/rowP=> i; rewrite [RHS]mxE /qof /Kof.
  have q k : csqrt (rc (n * n)%Re * 1 * omega2 w - (\row_i0 rc (K i0)) ord0 k ^+ 2 - (0 : 'rV[C]_nh) ord0 k ^+ 2) =
    rc (sqrt (w * n * (w * n) - K k * K k)).
    rewrite !mxE expr0n subr0 mulr1 /omega2 rcsq -rmorphM -rmorphB.
    have pos : (0 < w * n * (w * n) - K k * K k)%Re by have := rad_pos (lshift nh k) n1; rewrite /Kof spl.
    rewrite -demo_sqrt; last exact: sqrt_pos.
    rewrite sqrt_sqrt; last exact: Rlt_le.
    by congr (csqrt (rc _)); rfold; ring.
  by case: (split_ordP i) => k ->; rewrite ?row_mxEl ?row_mxEr mxE q ?spl ?spr.
- rewrite pick_scal scaledg dgB; apply: dg_eq => i; rewrite /pick /dof /omega2; case: (split i) => k.
  + by rewrite mulr1 subr0.
  + rewrite mulr1 rcV; last exact: Rgt_not_eq.
    rewrite -!rmorphM -rmorphB; congr (real_complex R_rcfType _); rfold; field; lra.
Qed.

Lemma med_grid t n (u : 'M[C]_(Nx, Ny)) : (1 <= n)%Re -> get_toeplitz h u = Ok (rc (n * n)%Re)%:M ->
  solve_layer demo_eig w kx 0 h (Original Nx Ny) (Some t) 1 (EpsGrid u) = Ok (med t n (inr (rc (n * n)%Re)%:M)).
Proof.
move=> n1 ht; have nn : (0 < n * n)%Re by nra.
have e0 := rcn0 nn.
have hu : (rc (n * n)%Re)%:M \in @unitmx _ nh by rewrite unitmxE det_scalar unitrX // unitfE.
rewrite /solve_layer /build_matrix ht bindE /linv hu !bindE /assemble oner_eq0 invr1 !diag0 invmx_scalar K_low K_up bindE.
rewrite [bt_matrix _]/= [bt_eps_hat _]/= [bt_Qeps _]/=.
rewrite !pick_scal !dgM !scaledg !dgD !dgB.
have mE : dg (fun i : 'I_n2 => omega2 w * (pick (fun=> rc (n * n)%Re) (fun=> rc (n * n)%Re) i * pick (fun=> 1) (fun=> 1) i) -
   (pick (fun=> rc (n * n)%Re) (fun=> rc (n * n)%Re) i * pick (fun=> 0) (fun i0 => rc (K i0) * (rc (n * n)%Re)^-1 * rc (K i0)) i +
    pick (fun i0 => rc (K i0) * rc (K i0)) (fun=> 0) i * pick (fun=> 1) (fun=> 1) i)) =
  dg (fun i => rc (w * n * (w * n) - Kof i * Kof i)%Re).
  apply: dg_eq => i; rewrite /pick /Kof /omega2; case: (split i) => k.
  + by rewrite !mulr1 mulr0 add0r -!rmorphM -rmorphB; congr (real_complex R_rcfType _); rfold; ring.
  + rewrite !mulr1 addr0 rcV; last exact: Rgt_not_eq.
    by rewrite -!rmorphM -rmorphB; congr (real_complex R_rcfType _); rfold; field; lra.
rewrite mE; congr (Ok (SLayer _ _ _ _ _)).
- rewrite /eigen_q demo_eig_dg; apply/rowP=> i; rewrite !mxE /qof.
  have pos := rad_pos i n1; rewrite -[RHS]demo_branch; last exact: sqrt_pos.
  by rewrite sqrt_sqrt //; exact: Rlt_le.
- by rewrite /eigen_phi demo_eig_dg.
- apply: dg_eq => i; rewrite /pick /dof /omega2; case: (split i) => k.
  + by rewrite mulr1 subr0.
  + rewrite mulr1 rcV; last exact: Rgt_not_eq.
    rewrite -!rmorphM -rmorphB; congr (real_complex R_rcfType _); rfold; field; lra.
Qed.

Lemma med3 t0 t1 t2 n0 n1 n2' (e0 e1 e2 : C + 'M[C]_nh) : (1 <= n0)%Re -> (1 <= n1)%Re -> (1 <= n2')%Re ->
  (exists Sm, smatrix [:: med t0 n0 e0; med t1 n1 e1; med t2 n2' e2] = Ok Sm) /\
  (exists Sm, smatrix [:: med t1 n1 e1; med t2 n2' e2] = Ok Sm).
Proof.
move=> p0 p1 p2; rewrite /smatrix /smat_loop -/smat_loop /smat_id dg1 dg0.
have d0 := med_dec t0 e0 p0; have d1 := med_dec t1 e1 p1; have d2 := med_dec t2 e2 p2.
have pos n i : (1 <= n)%Re -> (0 < dof n i / qof n i)%Re.
  by move=> h1; apply: Rmult_lt_0_compat; [exact: dof_pos|apply: Rinv_0_lt_compat; exact: qof_pos].
have rat t n e t' n' e' i : (1 <= n)%Re -> (1 <= n')%Re -> exists2 x : R, (0 < x)%Re &
  adm (med t' n' e') (fun i => rc (dof n' i)) i / adm (med t n e) (fun i => rc (dof n i)) i = rc x.
  move=> h1 h2; exists (dof n' i / qof n' i / (dof n i / qof n i))%Re.
    by apply: Rmult_lt_0_compat; [exact: pos|apply: Rinv_0_lt_compat; exact: pos].
  by rewrite !med_adm // rcV -?rmorphM //; apply: Rgt_not_eq; exact: pos.
have one (x : R) : (0 < x)%Re -> half * (1 + rc x) - cexp 0 * 0 * 0 != 0.
  move=> x0; rewrite mulr0 subr0 half_rc (_ : (1 : C) = rc 1%Re) // -rmorphD -rmorphM; apply: rcn0; rfold; lra.
split; last first.
  rewrite (step_dg _ _ _ d1 d2) ?bindE; first by eexists.
  move=> i; have [x x0 ->] := rat t1 n1 e1 t2 n2' e2 i p1 p2.
  by have := one x x0; rewrite !(mulr0, mul0r, subr0).
rewrite (step_dg _ _ _ d0 d1); last first.
  move=> i; have [x x0 ->] := rat t0 n0 e0 t1 n1 e1 i p0 p1.
  by have := one x x0; rewrite !(mulr0, mul0r, subr0).
rewrite bindE (step_dg _ _ _ d1 d2) ?bindE; first by eexists.
move=> i; have [x x0 ->] := rat t0 n0 e0 t1 n1 e1 i p0 p1; have [y y0 ->] := rat t1 n1 e1 t2 n2' e2 i p1 p2.
have [a ->] := med_phase t0 n0 e0 i; have [b ->] := med_phase t1 n1 e1 i.
have := denom x0 y0 (expi_unit b); rewrite !(mulr0, mul0r, subr0, sub0r) => //.
Qed.
End D3.

(** ** Runs *)
Section Runs.
Variables (nh Nx Ny : nat) (pw : planewave) (rec : 'M[R]_2) (h : 'I_nh -> order) (i0 : 'I_nh).
Hypothesis lam : (0 < pw_lambda pw)%Re.
Hypothesis th0 : pw_theta pw = 0%Re.
Hypothesis hx : forall i, (h i).2 = 0%Zc /\ (-1 <= (h i).1 <= 1)%Zc.
Hypothesis r10 : rec ord_max ord0 = 0%Re.
Notation w := (sim_omega pw).
Hypothesis hr : (rec ord0 ord0 * rec ord0 ord0 < w * w)%Re.
Let w0 : (0 < w)%Re. Proof. exact: k0_pos. Qed.
Let K i := (rec ord0 ord0 * IZR (h i).1)%Re.
Lemma run_hK i : (K i * K i < w * w)%Re.
Proof.
have [_ h1] := hx i; rewrite /K.
have : (-1 <= IZR (h i).1 <= 1)%Re by split; apply: IZR_le; lia.
move: hr w0; move: (rec ord0 ord0) (IZR (h i).1) => r m hw _ [m1 m2].
have mm : (m * m <= 1)%Re by nra.
have rr : (0 <= r * r)%Re by nra.
have e : (r * m * (r * m) = r * r * (m * m))%Re by ring.
by rewrite e; nra.
Qed.
Lemma run_k e : sim_kx pw rec h e = \row_i rc (K i) /\ sim_ky pw rec h e = 0.
Proof.
have z0 : zC 0 = 0 by [].
split; apply/rowP=> i; rewrite [LHS]mxE [RHS]mxE /= /pw_kx /pw_ky /= th0 sin_0 !Rmult_0_l !Rmult_0_r mul0r.
  by rewrite (hx i).1 z0 mulr0 addr0 add0r /K rmorphM.
by rewrite (hx i).1 z0 mulr0 addr0 add0r r10 mul0r.
Qed.
Lemma normal_a0 : pw_a0 pw = Ok (- pw_cy pw, pw_cx pw)%Re.
Proof.
have := w0; rewrite /sim_omega /pw_a0 /pw_det /pw_Q11 /pw_Q12 /pw_Q22 /pw_q /pw_kx /pw_ky.
move: (pw_cy pw) (pw_cx pw) => cy cx.
move: (pw_k0 pw) => k k0; rewrite th0 sin_0 !(Rmult_0_l, Rmult_0_r, Rminus_0_r).
case: Req_EM_T => [e|ne].
  by exfalso; move: e; apply: Rgt_not_eq; do !(apply: Rmult_lt_0_compat => //).
rewrite sqrt_square; last lra.
by congr (Ok (_, _)); field; lra.
Qed.

Definition demo3_layers (t0 t1 t2 : R) (u : 'M[C]_(Nx, Ny)) : seq (layer_in Nx Ny) :=
  [:: LayerIn (Some t0) (EpsUniform Nx Ny (rc (1 * 1)%Re)); LayerIn (Some t1) (EpsGrid u);
      LayerIn (Some t2) (EpsUniform Nx Ny (rc (3 * 3)%Re))].
Variables (t0 t1 t2 : R) (u : 'M[C]_(Nx, Ny)).
Hypothesis hu : get_toeplitz h u = Ok (rc (2 * 2)%Re)%:M.
Notation layers := (demo3_layers t0 t1 t2 u).

Lemma demo3_solve : exists e0 e1 e2, 
  solve_stack demo_eig pw rec h (Original Nx Ny) (rc (1 * 1)%Re) layers =
  Ok [:: med w K t0 1 e0; med w K t1 2 e1; med w K t2 3 e2] /\
  [/\ e0 = inl (rc (1 * 1)%Re), e1 = inr (rc (2 * 2)%Re)%:M & e2 = inl (rc (3 * 3)%Re)].
Proof.
rewrite /solve_stack; have [-> ->] := run_k (rc (1 * 1)%Re).
do 3!eexists; split; last by [].
rewrite /= !(med_uniform run_hK) //=; [|lra..]; rewrite /= (med_grid run_hK _ _ hu) //=; lra.
Qed.

Lemma demo3_eff : exists r, run_efficiencies demo_eig pw rec h (Original Nx Ny) layers i0 = Ok r.
Proof.
have [e0 [e1 [e2 [hs _]]]] := demo3_solve.
have [[Sm hS] _] := @med3 nh w K w0 run_hK t0 t1 t2 1 2 3 e0 e1 e2 ltac:(lra) ltac:(lra) ltac:(lra).
rewrite /run_efficiencies /demo3_layers [scalar_eps _]/= bindE normal_a0 bindE -/layers hs bindE.
by apply: eff_ok hS => //=; rewrite ?th0 ?cos_0; lra.
Qed.

(** the same stack upside down *)
Lemma demo3_rev_eff : exists r, run_efficiencies demo_eig pw rec h (Original Nx Ny) (rev layers) i0 = Ok r.
Proof.
have [r0 r1] := run_k (rc (3 * 3)%Re).
rewrite /run_efficiencies /rev /= normal_a0 bindE /solve_stack r0 r1 /=.
rewrite !(med_uniform run_hK) //=; [|lra..]; rewrite /= (med_grid run_hK _ _ hu) //=; [|lra].
set e2 := inl (rc (3 * 3)%Re); set e1 := inr _; set e0 := inl _.
have [[Sm hS] _] := @med3 nh w K w0 run_hK t2 t1 t0 3 2 1 e2 e1 e0 ltac:(lra) ltac:(lra) ltac:(lra).
by apply: eff_ok hS => //=; rewrite ?th0 ?cos_0; lra.
Qed.

Lemma demo3_field k z : (k < 3)%N -> exists F, run_field demo_eig pw rec h (Original Nx Ny) layers i0 k z = Ok F.
Proof.
move=> hk; rewrite /run_field /demo3_layers [scalar_eps _]/= bindE normal_a0 bindE -/layers.
have [e0 [e1 [e2 [-> [h0 h1 h2]]]]] := demo3_solve; rewrite bindE.
have [[Sm hS] [Sd hd]] := @med3 nh w K w0 run_hK t0 t1 t2 1 2 3 e0 e1 e2 ltac:(lra) ltac:(lra) ltac:(lra).
have wn := rcn0 w0; set a0 := sim_a0 _ _.
have [ps hps] := smatrix_exists wn a0 0 hS.
have [p hp] : exists p, get_amplitudes [:: med w K t0 1 e0; med w K t1 2 e1; med w K t2 3 e2] k a0 0 = Ok p.
  eexists; apply: (get_amplitudes_complete wn hS hps) => //.
  by case: k hk => [|[|[|k]]] // _; [left|right; right; rewrite -[drop _ _]/[:: med w K t1 2 e1; med w K t2 3 e2] hd|right; left].
have fok kx ky t n e (a : amp nh) : (1 <= n)%Re -> (match e with inl c => c != 0 | inr M => M \in unitmx end) ->
   exists F, field_of w kx ky (med w K t n e) a = Ok F.
  move=> n0 he; rewrite /field_of (dc_q (med_dec w0 run_hK t e n0)) (negPf wn) /=.
  by case: e he => [c|M] he; [rewrite (negPf he)|rewrite solve_unit // bindE]; eexists.
rewrite /get_field_fourier hp.
case: k hk {hp} => [|[|[|k]]] // _; cbn [List.nth_error bind translate sl_thick med].
- by apply: fok; [lra|rewrite h0; apply: rcn0; lra].
- apply: fok; first lra.
  by rewrite h1 unitmxE det_scalar unitrX // unitfE; apply: rcn0; lra.
- by apply: fok; [lra|rewrite h2; apply: rcn0; lra].
Qed.
End Runs.

(** ** A grating of period 2 on a grid of 6 points: lines 4 + a and 4 - a *)
Definition stripes (a : R) : 'M[C]_(6, 1) := \matrix_(x, y) rc (if odd x then 4 - a else 4 + a)%Re.

Lemma root63 : root 6 3 = -1.
Proof.
rewrite /root.
have -> : (2 * PI * IZR 3 / INR 6)%Re = PI by rewrite /=; field.
rewrite /cexp /=; apply/eqP; rewrite eq_complex /=; apply/andP; split; apply/eqP; rfold.
all: have -> : (0 * PI + - (1 * 0) = 0)%Re by ring.
all: have -> : (0 * 0 + 1 * PI = PI)%Re by ring.
all: by rewrite exp_0 ?cos_PI ?sin_PI; rfold; ring.
Qed.

Lemma stripesE a : stripes a = const_mx (rc 4%Re) + rc a *: (\matrix_(x, y) wave 3 0 x y).
Proof.
apply/matrixP=> x y; rewrite !mxE waveE Z.mul_0_l root0 mulr1 root_exp root63 -signr_odd.
by case: (odd x); rewrite ?expr1 ?expr0 ?mulrN1 ?mulr1 -?rmorphB -?rmorphD.
Qed.

Lemma stripes_toep nh (h : 'I_nh -> order) a : injective h ->
  (forall i, (h i).2 = 0%Zc /\ (-1 <= (h i).1 <= 1)%Zc) ->
  get_toeplitz h (stripes a) = Ok (rc (2 * 2)%Re)%:M.
Proof.
move=> hi hx; have four : (2 * 2 = 4)%Re by lra.
rewrite /get_toeplitz; case: (@toeplitzP 6 1 isT isT nh h (stripes a)) => [[_ ->]|[H _]] /=.
  congr Ok; apply/matrixP=> i j; rewrite !mxE stripesE coefD coefZ // coef_const // four.
  have [i2 i1] := hx i; have [j2 j1] := hx j; rewrite i2 j2 Z.sub_0_r.
  have -> : coef (\matrix_(x, y) wave 3 0 x y : 'M[C]_(6, 1)) ((h i).1 - (h j).1) 0 = 0.
    rewrite /coef.
    under eq_bigr => x _ do under eq_bigr => y _ do rewrite mxE waveM.
    rewrite wave_mean //.
    have : (-2 <= (h i).1 - (h j).1 <= 2)%Zc by lia.
    move: (_ - _)%Zc => d hd; rewrite -[Z.of_nat 6]/6%Zc.
    have dd : d = (-2)%Zc \/ d = (-1)%Zc \/ d = 0%Zc \/ d = 1%Zc \/ d = 2%Zc by lia.
    by case: dd => [->|[->|[->|[->|->]]]] /=; rewrite mul0r.
  rewrite mulr0 addr0; case: (eqVneq i j) => [->|ij]; first by rewrite Z.sub_diag mulr1n.
  have : ((h i).1 - (h j).1 <> 0)%Zc.
    move=> e; move/eqP: ij; apply; apply: hi; move: e i2 j2; case: (h i) => a1 a2; case: (h j) => b1 b2 /= e -> ->.
    by congr pair; lia.
  have : (-2 <= (h i).1 - (h j).1 <= 2)%Zc by lia.
  move: (_ - _)%Zc => d hd d0; rewrite -[Z.of_nat 6]/6%Zc.
  have dd : d = (-2)%Zc \/ d = (-1)%Zc \/ d = 1%Zc \/ d = 2%Zc by lia.
  by case: dd => [->|[->|[->|->]]] /=; rewrite mulr0n.
case: H => i j; have [i2 i1] := hx i; have [j2 j1] := hx j; rewrite /indexable /index_ok /= i2 j2.
by split; lia.
Qed.

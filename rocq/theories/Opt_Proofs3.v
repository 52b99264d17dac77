(** The "opt" tangent field of whole images. *)
From Coq Require Import Reals ZArith Lra Lia.
From mathcomp Require Import all_ssreflect all_algebra fingroup perm.
From mathcomp Require Import complex.
From Verif Require Import RStruct Cplx Base Fourier_Model Fourier_Spec Fourier_Proofs Sim_Model Filter_Model Filter_Proofs Tangent_Model Opt_Model Opt_Spec.
From Verif Require Import Energy_Proofs Energy_Proofs2 Tangent_Proofs Grid_Spec Grid_Proofs Recip_Spec Props_Filter Opt_Proofs Opt_Proofs2.

Set Implicit Arguments.
Unset Strict Implicit.
Unset Printing Implicit Defensive.

Import Order.TTheory GRing.Theory Num.Theory.
Local Open Scope ring_scope.
Local Open Scope complex_scope.

(** ** Pieces *)
Lemma amps_okP nh (h : 'I_nh -> order) n : (0 < n)%N -> reflect (indexed h n n) (amps_ok h n).
Proof.
move=> n0; apply: (iffP forallP) => H i.
- have /andP [a b] := H i; split.
  + by case: (pyidxP n (h i).1) => [[]|[_ e]] //; rewrite e in a.
  + by case: (pyidxP n (h i).2) => [[]|[_ e]] //; rewrite e in b.
- have [a b] := H i; apply/andP; split.
  + by case: (pyidxP n (h i).1) => [[_ [k [-> _]]]|[[]]].
  + by case: (pyidxP n (h i).2) => [[_ [k [-> _]]]|[[]]].
Qed.

Lemma onorm_sq a b : (onorm a b * onorm a b = machine_eps + a * a + b * b)%Re.
Proof. by rewrite /onorm sqrt_sqrt //; have := machine_eps_pos; nra. Qed.
Lemma onorm_pos a b : (0 < onorm a b)%Re.
Proof. by apply: sqrt_lt_R0; have := machine_eps_pos; nra. Qed.

Lemma grid_max_ge Nx Ny (f : 'I_Nx -> 'I_Ny -> R) i j : (f i j <= grid_max f)%Re.
Proof.
apply: Rle_trans (bigRmax_ge (fun i => \big[Rmax/0%Re]_(j < Ny) f i j) i).
exact: (bigRmax_ge (fun j => f i j)).
Qed.

Lemma finish_modulus normalize M a b : (onorm a b <= M)%Re ->
  ((finish normalize M (a, b)).1 * (finish normalize M (a, b)).1 +
   (finish normalize M (a, b)).2 * (finish normalize M (a, b)).2 <= 1)%Re.
Proof.
move=> hM; have e := onorm_sq a b; have p := onorm_pos a b; have ep := machine_eps_pos.
have key x : (onorm a b <= x)%Re -> (a / x * (a / x) + b / x * (b / x) <= 1)%Re.
  move=> hx; have -> : (a / x * (a / x) + b / x * (b / x) = (a * a + b * b) * / (x * x))%Re by field; lra.
  apply: (Rmult_le_reg_r (x * x)); first nra.
  by rewrite Rmult_assoc Rinv_l; nra.
rewrite /finish; case: normalize => /=; last exact: key.
case: Rle_dec => _ /=; first lra.
by apply: key; lra.
Qed.

Lemma lerp_id n f (i : nat) : (1 < n)%N -> lerp n n f i = f i.
Proof.
move=> n1; have p : (0 < n.-1)%N by rewrite -ltnS prednK // ltnW.
by rewrite /lerp modnMl eqxx mulnK.
Qed.

Lemma interpolated_id n (a : 'M[C]_n) : (1 < n)%N -> interpolated n n a = a.
Proof. by move=> n1; apply/matrixP=> i j; rewrite mxE !lerp_id // Tangent_Proofs.entryE. Qed.

Lemma sampled_id n (g : 'M[C]_n) : sampled_at n 1 1 g = g.
Proof. by apply/matrixP=> i j; rewrite mxE !muln1 Tangent_Proofs.entryE. Qed.

Lemma Re_lerp n N f i : complex.Re (lerp n N f i) = complex.Re (lerp n N (fun k => rc (complex.Re (f k))) i).
Proof.
rewrite /lerp; case: ifP => _ //; set k := (_ %/ _)%N; set x := rc (_ / _)%Re.
by rewrite /=; case: (f k) => a b; case: (f k.+1) => c d; rewrite /= !mulr0.
Qed.

Lemma lerp_ext n N f g i : f =1 g -> lerp n N f i = lerp n N g i.
Proof. by move=> e; rewrite /lerp !e. Qed.
Lemma lerp_zero n N i : lerp n N (fun _ => 0) i = 0.
Proof. by rewrite /lerp; case: ifP => _ //; rewrite subrr mul0r addr0. Qed.

Lemma interpolated_zero Nx Ny n (a : 'M[C]_n) : (forall x y, complex.Re (a x y) = 0) ->
  forall i j, complex.Re (interpolated Nx Ny a i j) = 0.
Proof.
move=> ha i j; rewrite mxE Re_lerp.
rewrite (@lerp_ext _ _ _ (fun _ => 0)) ?lerp_zero // => p.
rewrite Re_lerp (@lerp_ext _ _ _ (fun _ => 0)) ?lerp_zero // => q.
by rewrite /entry; case: insubP => // x _ _; case: insubP => // y _ _; rewrite ha.
Qed.

Lemma sampled_real Nx Ny n dx dy (g : 'M[C]_(Nx, Ny)) : (forall i j, conj (g i j) = g i j) ->
  forall x y, conj (sampled_at n dx dy g x y) = sampled_at n dx dy g x y.
Proof.
move=> hg x y; rewrite mxE /entry.
by case: insubP => [i' _ _|_]; [case: insubP => [j' _ _|_]|]; rewrite ?hg //; exact: (conj_nat 0).
Qed.

Lemma band_scale nh (h : 'I_nh -> order) n0 n1 (c : C) (g : 'M[C]_(n0, n1)) :
  band h (c *: g) = c *: band h g.
Proof.
apply/matrixP=> x y; rewrite !mxE mulr_sumr; apply: eq_bigr => i _; rewrite mulrA; congr (_ * _).
rewrite /coef mulrA; congr (_ / _); rewrite mulr_sumr; apply: eq_bigr => a _.
by rewrite mulr_sumr; apply: eq_bigr => b _; rewrite mxE mulrA.
Qed.

Lemma entryZ M N (c : C) (u : 'M[C]_(M, N)) i j : entry (c *: u) i j = c * entry u i j.
Proof. by rewrite /entry; case: insubP => [? _ _|_]; [case: insubP => [? _ _|_]|]; rewrite ?mxE ?mulr0. Qed.
Lemma diff1Z N (c : C) f g i : (forall k, f k = c * g k) -> diff1 N f i = c * diff1 N g i.
Proof. by move=> e; rewrite /diff1 !e; case: ifP => _; [|case: ifP => _]; rewrite -mulrBr // mulrA. Qed.
Lemma grad0Z M N (c : C) (u : 'M[C]_(M, N)) : grad0 (c *: u) = c *: grad0 u.
Proof. by apply/matrixP=> i j; rewrite !mxE; apply: diff1Z => k; exact: entryZ. Qed.
Lemma grad1Z M N (c : C) (u : 'M[C]_(M, N)) : grad1 (c *: u) = c *: grad1 u.
Proof. by apply/matrixP=> i j; rewrite !mxE; apply: diff1Z => k; exact: entryZ. Qed.

Lemma filterZ Nx Ny v rx ry (c : R) (u U : 'M[C]_(Nx, Ny)) :
  apply_filter v rx ry u = Ok U -> apply_filter v rx ry (rc c *: u) = Ok (rc c *: U).
Proof.
move=> hu; have := C51_linear (c - 1) hu hu.
have e (x : 'M[C]_(Nx, Ny)) : rc (c - 1) *: x + x = rc c *: x.
  by rewrite rcB' scalerBl scale1r subrK.
by rewrite !e.
Qed.

Section Image.
Variables (Nx Ny : nat) (u : 'M[C]_(Nx, Ny)).
Hypotheses (hx : (1 < Nx)%N) (hy : (1 < Ny)%N).
Hypothesis unz : exists i j, u i j <> 0.

Lemma cabs_pos z : z <> 0 -> (0 < cabs z)%Re.
Proof.
case: z => a b nz; apply: sqrt_lt_R0 => /=.
have [a0|a0] := Req_dec a 0; last by nra.
have [b0|b0] := Req_dec b 0; last by nra.
by case: nz; rewrite a0 b0.
Qed.

Let m := grid_max (fun i j => cabs (u i j)).
Lemma m_pos : (0 < m)%Re.
Proof. by have [i [j /cabs_pos p]] := unz; have := grid_max_ge (fun i j => cabs (u i j)) i j; rewrite -/m; lra. Qed.

Lemma scaledE : scaled u = rc (/ m)%Re *: modulus u.
Proof.
have p := m_pos; apply/matrixP=> i j; rewrite !mxE -/m mulrC; congr (_ * _).
have mz : rc m != 0 by apply/eqP => -[] e; move: p; rewrite e; exact: Rlt_irrefl.
apply: (mulIf mz); rewrite mulVf // -rcM'.
have -> : (Rinv m * m)%R = 1%Re :> R by change (/ m * m = 1)%Re; field; lra.
by [].
Qed.

Lemma four : (4%Re : R) != 0. Proof. by apply/eqP; rfold; lra. Qed.
Lemma filter_total v (g : 'M[C]_(Nx, Ny)) : exists U, apply_filter v 4%Re 4%Re g = Ok U /\ forall i j, conj (U i j) = U i j.
Proof.
rewrite filterE ?four //; [|exact: ltnW|exact: ltnW]; eexists; split; first by [].
by move=> i j; rewrite mxE rc_conj.
Qed.

(** The gradient used is a positive multiple of the smoothed gradient of the modulus. *)
Lemma opt_gradientE : exists k sx sy, [/\ (0 < k)%Re, edges0 u = Ok sx, edges1 u = Ok sy,
  (forall i j, conj (sx i j) = sx i j) /\ (forall i j, conj (sy i j) = sy i j) &
  opt_gradient u = Ok (rc k *: sx, rc k *: sy)].
Proof.
have p := m_pos.
have [sx [ex rx]] := filter_total None (grad0 (modulus u)).
have [sy [ey ry]] := filter_total None (grad1 (modulus u)).
rewrite /opt_gradient scaledE grad0Z grad1Z (filterZ _ ex) (filterZ _ ey); cbn [bind].
set W := grid_max _.
have w0 : (0 < W)%Re.
  have [i [j _]] := unz; apply: Rlt_le_trans (onorm_pos _ _) _.
  by apply: (grid_max_ge (fun i j => onorm (complex.Re ((rc (/ m)%Re *: sx) i j)) (complex.Re ((rc (/ m)%Re *: sy) i j))) i j).
exists (/ m * / W)%Re, sx, sy; split=> //.
  by apply: Rmult_lt_0_compat; apply: Rinv_0_lt_compat.
have wz : rc W != 0 by apply/eqP => -[] e; move: w0; rewrite e; exact: Rlt_irrefl.
have iW : (rc W)^-1 = rc (/ W)%Re.
  apply: (mulIf wz); rewrite mulVf // -rcM'.
  by have -> : (Rinv W * W)%R = 1%Re :> R by change (/ W * W = 1)%Re; field; lra.
have e (s : 'M[C]_(Nx, Ny)) : \matrix_(i, j) ((rc (/ m)%Re *: s) i j / rc W) = rc (/ m * / W)%Re *: s.
  by apply/matrixP=> i j; rewrite !mxE iW mulrAC -rcM'.
by rewrite !e.
Qed.
End Image.

(** ** The whole function *)
Section Whole.
Variables (Nx Ny nh : nat) (h : 'I_nh -> order).
Variable minimize : (('rV[C]_nh * 'rV[C]_nh) -> R) -> 'rV[C]_nh * 'rV[C]_nh.
Variable normalize : bool.
Variable u : 'M[C]_(Nx, Ny).
Notation nx := (minn (2 ^ 6) Nx).
Notation ny := (minn (2 ^ 6) Ny).
Notation field := (opt_field h minimize normalize u).

Lemma opt_modulus t : field = Ok t -> forall i j, (t.1 i j * t.1 i j + t.2 i j * t.2 i j <= 1)%Re.
Proof.
rewrite /opt_field; do 5![case: ifP => // _].
case: (opt_gradient u) => [g|//]; cbn [bind]; move: (raw_opt h minimize nx g) => T [<-] i j; cbn [fst snd]; rewrite !mxE.
by apply: finish_modulus; exact: (grid_max_ge (fun i j => onorm (T.1 i j) (T.2 i j)) i j).
Qed.

Hypotheses (hx : (1 < Nx)%N) (hy : (1 < Ny)%N).
Hypotheses (ix : indexed h nx nx) (iy : indexed h ny ny).

Lemma nx_gt1 : (1 < nx)%N. Proof. by rewrite leq_min hx. Qed.
Lemma ny_gt1 : (1 < ny)%N. Proof. by rewrite leq_min hy. Qed.

Lemma not_workable : ~ workable Nx Ny -> field = Err ValueError.
Proof.
move=> /(shapesP hx hy) hw; rewrite /opt_field leqNgt hx leqNgt hy /=.
have -> : amps_ok h nx by apply/amps_okP; [exact: ltnW nx_gt1|].
have -> : amps_ok h ny by apply/amps_okP; [exact: ltnW ny_gt1|].
rewrite /=; move: hw; case: eqP => //= _; rewrite -negb_and => hw.
by rewrite hw.
Qed.

Hypothesis hw : workable Nx Ny.
Hypothesis unz : exists i j, u i j <> 0.

Lemma opt_fieldE g : opt_gradient u = Ok g ->
  let t := raw_opt h minimize nx g in
  let M := grid_max (fun i j => onorm (t.1 i j) (t.2 i j)) in
  field = Ok (\matrix_(i, j) (finish normalize M (t.1 i j, t.2 i j)).1,
              \matrix_(i, j) (finish normalize M (t.1 i j, t.2 i j)).2).
Proof.
move=> eg t M; rewrite /opt_field leqNgt hx leqNgt hy /=.
have -> : amps_ok h nx by apply/amps_okP; [exact: ltnW nx_gt1|].
have -> : amps_ok h ny by apply/amps_okP; [exact: ltnW ny_gt1|].
have /(shapesP hx hy) /and3P [e1 e2 e3] := hw; rewrite e1 e2 e3 /=.
have -> : (grid_max (fun i j => cabs (u i j)) == 0) = false.
  by apply/eqP => e; have := m_pos unz; rewrite e; exact: Rlt_irrefl.
by rewrite eg.
Qed.

Lemma opt_total : exists t, field = Ok t.
Proof.
have [k [sx [sy [_ _ _ _ eg]]]] := opt_gradientE hx hy unz.
by rewrite (opt_fieldE eg); eexists.
Qed.

(** ** With a minimiser that minimises *)
Hypothesis hmin : forall f, (exists c0, forall c, (f c0 <= f c)%Re) -> forall c, (f (minimize f) <= f c)%Re.
Hypothesis hres : resolved h nx nx.
Hypothesis hopp : opposite_closed h.

Lemma n0 : (0 < nx)%N. Proof. exact: ltnW nx_gt1. Qed.
Lemma okx : amps_ok h nx. Proof. by apply/amps_okP; [exact: n0|]. Qed.
Lemma scale_pos : (0 < Nx * Ny)%N. Proof. by rewrite muln_gt0 (ltnW hx) (ltnW hy). Qed.

Lemma minimised (gx gy : 'M[C]_nx) : (forall x y, conj (gx x y) = gx x y) -> (forall x y, conj (gy x y) = gy x y) ->
  let c := minimize (objective h (Nx * Ny) gx gy) in
  (forall x y, complex.Re (amps h nx (Nx * Ny) c.1 x y) = complex.Re (band h gx x y)) /\
  (forall x y, complex.Re (amps h nx (Nx * Ny) c.2 x y) = complex.Re (band h gy x y)).
Proof.
move=> rx ry c; apply: (minimum n0 hres okx hopp rx ry scale_pos); apply: hmin.
exists (best h gx (Nx * Ny), best h gy (Nx * Ny)) => d; exact: (attained n0 hres okx hopp rx ry scale_pos).
Qed.

Lemma band0 n (g : 'M[C]_n) : g = 0 -> band h g = 0.
Proof. by move=> ->; rewrite -[in LHS](scale0r (0 : 'M[C]_n)) band_scale scale0r. Qed.

Lemma sampled0 n dx dy : sampled_at n dx dy (0 : 'M[C]_(Nx, Ny)) = 0.
Proof.
apply/matrixP=> x y; rewrite !mxE /entry.
by case: insubP => [? _ _|_]; [case: insubP => [? _ _|_]|]; rewrite ?mxE.
Qed.

Lemma filter0 v : apply_filter v 4%Re 4%Re (0 : 'M[C]_(Nx, Ny)) = Ok 0.
Proof.
have [U [e _]] := filter_total hx hy v (0 : 'M[C]_(Nx, Ny)).
by have := filterZ 0 e; rewrite scaler0 => ->; rewrite (_ : rc 0 = 0) // scale0r.
Qed.

Lemma scaleC_real k (s : 'M[C]_(Nx, Ny)) : (forall i j, conj (s i j) = s i j) ->
  forall i j, conj ((rc k *: s) i j) = (rc k *: s) i j.
Proof. by move=> hs i j; rewrite mxE conjM rc_conj hs. Qed.

(** Lines along the second axis. *)
Lemma lines_y : (forall i j j', u i j = u i j') ->
  exists t, field = Ok t /\ forall i j, t.1 i j = 0%Re \/ (normalize = true /\ t.1 i j = 1%Re /\ t.2 i j = 0%Re).
Proof.
move=> hu; have [k [sx [sy [k0 ex ey [rx ry] eg]]]] := opt_gradientE hx hy unz.
have sy0 : sy = 0.
  by move: ey; rewrite /edges1 grad1_const // ?filter0 => [[<-]|i j j'] //; rewrite !mxE (hu i j j').
have z i j : (raw_opt h minimize nx (rc k *: sx, rc k *: sy)).1 i j = 0.
  have [_ hc] := minimised (@sampled_real _ _ nx (Nx %/ nx)%N (Ny %/ nx)%N _ (scaleC_real k rx)) (@sampled_real _ _ nx (Nx %/ nx)%N (Ny %/ nx)%N _ (scaleC_real k ry)).
  rewrite /raw_opt; cbn [fst snd]; rewrite [LHS]mxE.
  apply: interpolated_zero => x y; rewrite hc sy0 scaler0 sampled0 band0 //; by rewrite mxE.
have := opt_fieldE eg; cbv zeta; move: (raw_opt h minimize nx _) z => T z ->.
eexists; split; first by [].
move=> i j; cbn [fst snd]; rewrite !mxE z /finish; case: normalize => /=; last by left; rewrite /Rdiv Rmult_0_l.
by case: Rle_dec => _ /=; [right|left; rewrite /Rdiv Rmult_0_l].
Qed.

Lemma lines_x : (forall i i' j, u i j = u i' j) ->
  exists t, field = Ok t /\ forall i j, t.2 i j = 0%Re.
Proof.
move=> hu; have [k [sx [sy [k0 ex ey [rx ry] eg]]]] := opt_gradientE hx hy unz.
have sx0 : sx = 0.
  by move: ex; rewrite /edges0 grad0_const // ?filter0 => [[<-]|i i' j] //; rewrite !mxE (hu i i' j).
have z i j : (raw_opt h minimize nx (rc k *: sx, rc k *: sy)).2 i j = 0.
  have [hc _] := minimised (@sampled_real _ _ nx (Nx %/ nx)%N (Ny %/ nx)%N _ (scaleC_real k rx)) (@sampled_real _ _ nx (Nx %/ nx)%N (Ny %/ nx)%N _ (scaleC_real k ry)).
  rewrite /raw_opt; cbn [fst snd]; rewrite [LHS]mxE.
  rewrite interpolated_zero ?Ropp_0 // => x y; rewrite hc sx0 scaler0 sampled0 band0 //; by rewrite mxE.
have := opt_fieldE eg; cbv zeta; move: (raw_opt h minimize nx _) z => T z ->.
eexists; split; first by [].
move=> i j; cbn [fst snd]; rewrite !mxE z /finish; case: normalize => /=; last by rewrite /Rdiv Rmult_0_l.
by case: Rle_dec => _ //=; rewrite /Rdiv Rmult_0_l.
Qed.
End Whole.

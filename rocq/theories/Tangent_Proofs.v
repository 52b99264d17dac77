(** Lemmas on the tangent and Jones fields and on the projection operator. *)
From Coq Require Import Reals ZArith Lra Lia.
From mathcomp Require Import all_ssreflect all_algebra.
From mathcomp Require Import complex.
From Verif Require Import RStruct Cplx Base Fourier_Model Fourier_Spec Fourier_Proofs Sim_Model.
From Verif Require Import Energy_Proofs Energy_Proofs2 Filter_Model Filter_Proofs Tangent_Model.

Set Implicit Arguments.
Unset Strict Implicit.
Unset Printing Implicit Defensive.

Import Order.TTheory GRing.Theory Num.Theory.
Local Open Scope ring_scope.
Local Open Scope complex_scope.

Lemma machine_eps_pos : (0 < machine_eps)%Re.
Proof. by apply: Rinv_0_lt_compat; apply: pow_lt; lra. Qed.
Lemma machine_eps_small : (machine_eps < threshold)%Re.
Proof.
rewrite /machine_eps /threshold; apply: Rinv_lt_contravar; last first.
  by rewrite (_ : 52 = 40 + 12)%N // pow_add; have := Rlt_pow 2 12 40; lra.
by apply: Rmult_lt_0_compat; apply: pow_lt; lra.
Qed.

Lemma sqn_ge0 z : (0 <= sqn z)%Re.
Proof. by case: z => a b; rewrite /sqn /=; have := Rle_0_sqr a; have := Rle_0_sqr b; rewrite /Rsqr; lra. Qed.

(** The norm is machine epsilon plus the Euclidean norm. *)
Lemma norm2P t0 t1 : exists m, [/\ (0 <= m)%Re, (m * m = sqn t0 + sqn t1)%Re & norm2 t0 t1 = (machine_eps + m)%Re].
Proof.
rewrite /norm2 !sqn_conj -rmorphD csqrt_rc.
have h : (0 <= sqn t0 + sqn t1)%Re by have := sqn_ge0 t0; have := sqn_ge0 t1; lra.
have h' : 0 <= sqn t0 + sqn t1 by apply/RleP.
rewrite h'; exists (Num.sqrt (sqn t0 + sqn t1)); split=> //.
- by apply/RleP; exact: sqrtr_ge0.
- by have := sqr_sqrtr h'; rewrite expr2.
Qed.
Lemma norm2_pos t0 t1 : (0 < norm2 t0 t1)%Re.
Proof. by have [m [m0 _ ->]] := norm2P t0 t1; have := machine_eps_pos; lra. Qed.

(** The square of the Euclidean norm is below the square of [norm2]. *)
Lemma norm2_sq t0 t1 : (sqn t0 + sqn t1 < norm2 t0 t1 * norm2 t0 t1)%Re.
Proof. have [m [m0 <- ->]] := norm2P t0 t1; have := machine_eps_pos; nra. Qed.

Lemma nt2E t0 t1 : nt2 t0 t1 = rc (norm2 t0 t1 * norm2 t0 t1)%Re.
Proof. by rewrite /nt2 expr2 -rmorphM. Qed.
Lemma nt2_inv t0 t1 : (nt2 t0 t1)^-1 = rc (/ (norm2 t0 t1 * norm2 t0 t1))%Re.
Proof. by rewrite nt2E rcV //; have := norm2_pos t0 t1; nra. Qed.

(** Cauchy-Schwarz in two dimensions. *)
Lemma cauchy2 (a b x y : C) :
  (sqn (conj a * x + conj b * y)%R <= (sqn a + sqn b) * (sqn x + sqn y))%Re.
Proof.
have -> : ((sqn a + sqn b) * (sqn x + sqn y))%Re =
  (sqn (conj a * x + conj b * y)%R + sqn (b * x - a * y)%R)%Re.
  by case: a => ? ?; case: b => ? ?; case: x => ? ?; case: y => ? ?; rewrite /sqn /=; rfold; ring.
by have := sqn_ge0 (b * x - a * y); lra.
Qed.

Lemma wave_split Nx Ny m n m' n' (r : 'I_Nx) (s : 'I_Ny) :
  wave (- (m - m')) (- (n - n')) r s = conj (wave m n r s) * wave m' n' r s.
Proof.
rewrite !waveE conjM !root_conj.
have -> : ((- (m - m')) * Z.of_nat r = - (m * Z.of_nat r) + m' * Z.of_nat r)%Zc by lia.
have -> : ((- (n - n')) * Z.of_nat s = - (n * Z.of_nat s) + n' * Z.of_nat s)%Zc by lia.
by rewrite !rootD; cring.
Qed.

Section Quad.
Variables (Nx Ny : nat).
Hypothesis (Nx0 : (0 < Nx)%N) (Ny0 : (0 < Ny)%N).
Variables (nh : nat) (h : 'I_nh -> order).

(** The field with Fourier amplitudes [x] on the harmonics. *)
Definition synth (x : 'I_nh -> C) (r : 'I_Nx) (s : 'I_Ny) : C :=
  \sum_i x i * wave (h i).1 (h i).2 r s.

Lemma quadT u M x y : toeplitz h u = Some M ->
  \sum_i \sum_j conj (x i) * (M i j * y j) =
  (\sum_r \sum_s u r s * (conj (synth x r s) * synth y r s)) / (Nx * Ny)%:R.
Proof.
case: (toeplitzP Nx0 Ny0 h u) => [[_ ->]|[_ -> //]] [<-] {M}.
transitivity (\sum_i \sum_j \sum_r \sum_s u r s *
   (conj (x i) * conj (wave (h i).1 (h i).2 r s) * (y j * wave (h j).1 (h j).2 r s)) / (Nx * Ny)%:R).
  apply: eq_bigr => i _; apply: eq_bigr => j _; rewrite mxE /coef.
  rewrite mulrA mulr_suml mulr_sumr mulr_suml; apply: eq_bigr => r _.
  rewrite mulr_suml mulr_sumr mulr_suml; apply: eq_bigr => s _.
  by rewrite wave_split; cring.
rewrite mulr_suml (eq_bigr (fun i => \sum_r \sum_j \sum_s u r s *
   (conj (x i) * conj (wave (h i).1 (h i).2 r s) * (y j * wave (h j).1 (h j).2 r s)) / (Nx * Ny)%:R));
  last by move=> i _; rewrite exchange_big.
rewrite exchange_big /=; apply: eq_bigr => r _.
rewrite mulr_suml (eq_bigr (fun i => \sum_s \sum_j u r s *
   (conj (x i) * conj (wave (h i).1 (h i).2 r s) * (y j * wave (h j).1 (h j).2 r s)) / (Nx * Ny)%:R));
  last by move=> i _; rewrite exchange_big.
rewrite exchange_big /=; apply: eq_bigr => s _.
rewrite /synth conj_sum mulr_suml mulr_sumr mulr_suml; apply: eq_bigr => i _.
by rewrite mulr_sumr mulr_sumr mulr_suml; apply: eq_bigr => j _; rewrite conjM.
Qed.

(** Parseval for separated harmonics. *)
Lemma parseval x : separated Nx Ny h -> (forall i j, indexable Nx Ny (odiff (h i) (h j))) ->
  (\sum_r \sum_s rc (sqn (synth x r s))) / (Nx * Ny)%:R = \sum_i rc (sqn (x i)).
Proof.
move=> sep hi.
case: (toeplitzP Nx0 Ny0 h (const_mx 1)) => [[_ hM]|[n _]]; last by case: n.
have e := quadT x x hM.
have M1 := toeplitz_const Nx0 Ny0 sep hM.
transitivity ((\sum_r \sum_s (const_mx 1 : 'M[C]_(Nx, Ny)) r s * (conj (synth x r s) * synth x r s)) / (Nx * Ny)%:R).
  congr (_ / _); apply: eq_bigr => r _; apply: eq_bigr => s _.
  by rewrite mxE mul1r mulrC sqn_conj.
rewrite -e; apply: eq_bigr => i _; rewrite M1 (bigD1 i) //= big1 => [|j /negbTE ne].
  by rewrite mxE eqxx mul1r addr0 mulrC sqn_conj.
by rewrite mxE eq_sym ne mul0r mulr0.
Qed.
End Quad.

Section Proj.
Variables (Nx Ny nh : nat) (h : 'I_nh -> order).
Hypothesis (Nx0 : (0 < Nx)%N) (Ny0 : (0 < Ny)%N).
Notation n2 := (nh + nh)%N.

Definition pfun (t0 t1 a b : 'M[C]_(Nx, Ny)) : 'M[C]_(Nx, Ny) :=
  \matrix_(i, j) (a i j * conj (b i j) / nt2 (t0 i j) (t1 i j)).

Lemma of_option_ok (A : Type) e (o : option A) (x : A) : of_option e o = Ok x -> o = Some x.
Proof. by case: o => [y [->]|]. Qed.

Lemma proj_blocksE (t0 t1 : 'M[C]_(Nx, Ny)) Pi : proj_blocks h t0 t1 = Ok Pi ->
  exists Pxx Pyy Pxy Pyx,
    [/\ toeplitz h (pfun t0 t1 t0 t0) = Some Pxx, toeplitz h (pfun t0 t1 t1 t1) = Some Pyy,
        toeplitz h (pfun t0 t1 t0 t1) = Some Pxy & toeplitz h (pfun t0 t1 t1 t0) = Some Pyx] /\
    Pi = block_mx Pyy Pyx Pxy Pxx.
Proof.
rewrite /proj_blocks /get_toeplitz -!/(pfun _ _ _ _).
case E1: (toeplitz _ _) => [a|] //=; case E2: (toeplitz _ _) => [b|] //=.
case E3: (toeplitz _ _) => [c|] //=; case E4: (toeplitz _ _) => [d|] //= -[<-].
by exists a, b, c, d.
Qed.

Definition top (x : 'cV[C]_n2) (i : 'I_nh) : C := x (lshift nh i) ord0.
Definition bot (x : 'cV[C]_n2) (i : 'I_nh) : C := x (rshift nh i) ord0.
Definition herm m n (A : 'M[C]_(m, n)) : 'M[C]_(n, m) := (map_mx conj A)^T.

Lemma form_mx m (A : 'M[C]_m) (x y : 'cV[C]_m) :
  (herm x *m A *m y) ord0 ord0 = \sum_i \sum_j conj (x i ord0) * (A i j * y j ord0).
Proof.
rewrite -mulmxA mxE; apply: eq_bigr => i _; rewrite !mxE mulr_sumr; exact: eq_bigr.
Qed.

Lemma form_block (A B D E : 'M[C]_nh) (x y : 'cV[C]_n2) :
  (herm x *m block_mx A B D E *m y) ord0 ord0 =
  (\sum_i \sum_j conj (top x i) * (A i j * top y j) + \sum_i \sum_j conj (top x i) * (B i j * bot y j)) +
  (\sum_i \sum_j conj (bot x i) * (D i j * top y j) + \sum_i \sum_j conj (bot x i) * (E i j * bot y j)).
Proof.
rewrite form_mx big_split_ord /=; congr (_ + _).
- rewrite -big_split /=; apply: eq_bigr => i _; rewrite big_split_ord /=; congr (_ + _).
  + by apply: eq_bigr => j _; rewrite block_mxEul.
  + by apply: eq_bigr => j _; rewrite block_mxEur.
- rewrite -big_split /=; apply: eq_bigr => i _; rewrite big_split_ord /=; congr (_ + _).
  + by apply: eq_bigr => j _; rewrite block_mxEdl.
  + by apply: eq_bigr => j _; rewrite block_mxEdr.
Qed.

(** The component of the field along (t1, t0) at a grid point. *)
Definition along (t0 t1 : 'M[C]_(Nx, Ny)) (x : 'cV[C]_n2) r s : C :=
  conj (t1 r s) * @synth Nx Ny nh h (top x) r s + conj (t0 r s) * synth h (bot x) r s.

Lemma proj_form (t0 t1 : 'M[C]_(Nx, Ny)) Pi (x y : 'cV[C]_n2) : proj_blocks h t0 t1 = Ok Pi ->
  (herm x *m Pi *m y) ord0 ord0 =
  (\sum_r \sum_s (conj (along t0 t1 x r s) * along t0 t1 y r s / nt2 (t0 r s) (t1 r s))) / (Nx * Ny)%:R.
Proof.
move=> /proj_blocksE [Pxx [Pyy [Pxy [Pyx [[h1 h2 h3 h4] ->]]]]].
rewrite form_block (quadT Nx0 Ny0 (top x) (top y) h2) (quadT Nx0 Ny0 (top x) (bot y) h4).
rewrite (quadT Nx0 Ny0 (bot x) (top y) h3) (quadT Nx0 Ny0 (bot x) (bot y) h1).
rewrite -!mulrDl; congr (_ / _).
rewrite -!big_split /=; apply: eq_bigr => r _; rewrite -!big_split /=; apply: eq_bigr => s _.
rewrite !mxE /along conjD !conjM.
have cc (z : C) : conj (conj z) = z by exact: conjcK.
rewrite !cc; set k := (nt2 _ _)^-1; cring.
Qed.

Lemma proj_hermitian (t0 t1 : 'M[C]_(Nx, Ny)) Pi : proj_blocks h t0 t1 = Ok Pi -> herm Pi = Pi.
Proof.
move=> hP.
have key (x y : 'cV[C]_n2) : conj ((herm x *m Pi *m y) ord0 ord0) = (herm y *m Pi *m x) ord0 ord0.
  rewrite !(proj_form _ _ hP) conjM conjV conj_nat conj_sum; congr (_ / _); apply: eq_bigr => r _.
  rewrite conj_sum; apply: eq_bigr => s _.
  by rewrite !conjM nt2_inv rc_conj [conj (conj _)]conjcK; cring.
apply/matrixP => i j; rewrite !mxE.
have E (a b : 'I_n2) : (herm (delta_mx a ord0 : 'cV[C]_n2) *m Pi *m (delta_mx b ord0 : 'cV[C]_n2)) ord0 ord0 = Pi a b.
  rewrite form_mx (bigD1 a) //= [X in _ + X]big1 ?addr0 => [|i' /negbTE ne].
    rewrite (bigD1 b) //= [X in _ + X]big1 ?addr0 => [|j' /negbTE ne]; first by rewrite !mxE !conj_nat !eqxx mulr1 mul1r.
    by rewrite !mxE ne /= !mulr0.
  by rewrite big1 // => j' _; rewrite mxE conj_nat ne mul0r.
by rewrite -(E j i) key E.
Qed.

(** Positive, and bounded by the identity. *)
Lemma proj_bounds (t0 t1 : 'M[C]_(Nx, Ny)) Pi (x : 'cV[C]_n2) : proj_blocks h t0 t1 = Ok Pi ->
  exists q : R, (herm x *m Pi *m x) ord0 ord0 = rc q /\ (0 <= q)%Re /\
    (separated Nx Ny h -> q <= \sum_i sqn (x i ord0))%Re.
Proof.
move=> hP; rewrite (proj_form _ _ hP).
pose f r s : R := (sqn (along t0 t1 x r s) * / (norm2 (t0 r s) (t1 r s) * norm2 (t0 r s) (t1 r s)))%Re.
pose NN : R := (Nx * Ny)%:R.
have NN0 : (0 < NN)%Re by apply/RltP; rewrite ltr0n muln_gt0 Nx0.
exists ((\sum_r \sum_s f r s) / NN)%Re; split.
  rewrite (_ : (Nx * Ny)%:R = rc NN); last by rewrite /NN rmorph_nat.
  rewrite rcV; last lra.
  rewrite [RHS]rmorphM; congr (_ * _); rewrite rmorph_sum; apply: eq_bigr => r _.
  rewrite rmorph_sum; apply: eq_bigr => s _.
  by rewrite [conj _ * _]mulrC sqn_conj nt2_inv -rmorphM.
have pos r s : (0 <= f r s)%Re.
  apply: Rmult_le_pos; first exact: sqn_ge0.
  by apply: Rlt_le; apply: Rinv_0_lt_compat; have := norm2_pos (t0 r s) (t1 r s); nra.
have sum0 (I : finType) (g : I -> R) : (forall i, (0 <= g i)%Re) -> (0 <= \sum_i g i)%Re.
  by move=> g0; apply/RleP; apply: sumr_ge0 => i _; apply/RleP.
split.
  apply: Rmult_le_pos; last by apply: Rlt_le; exact: Rinv_0_lt_compat.
  by apply: (sum0) => r; apply: (sum0) => s.
move=> sep.
have hi : forall i j, indexable Nx Ny (odiff (h i) (h j)).
  have [a [b [c [d [[h1 _ _ _] _]]]]] := proj_blocksE hP.
  by case: (toeplitzP Nx0 Ny0 h (pfun t0 t1 t0 t0)) => [[]//|[_]]; rewrite h1.
have bound : (\sum_r \sum_s f r s <= \sum_r \sum_s (sqn (@synth Nx Ny nh h (top x) r s) + sqn (synth h (bot x) r s)))%Re.
  apply/RleP; apply: ler_sum => r _; apply: ler_sum => s _; apply/RleP.
  rewrite /f /along.
  have cs := cauchy2 (t1 r s) (t0 r s) (synth h (top x) r s) (synth h (bot x) r s).
  have hn := norm2_sq (t0 r s) (t1 r s); have hp := norm2_pos (t0 r s) (t1 r s).
  set w := (sqn (synth h (top x) r s) + sqn (synth h (bot x) r s))%Re.
  have w0 : (0 <= w)%Re by rewrite /w; have := sqn_ge0 (synth h (top x) r s); have := sqn_ge0 (synth h (bot x) r s); lra.
  move: hn hp; set n := norm2 _ _ => hn hp.
  apply: (Rmult_le_reg_r (n * n)); first nra.
  rewrite Rmult_assoc Rinv_l ?Rmult_1_r; last nra.
  apply: (Rle_trans _ _ _ cs); rewrite -/w Rmult_comm; apply: Rmult_le_compat_l => //; lra.
have par : ((\sum_r \sum_s (sqn (@synth Nx Ny nh h (top x) r s) + sqn (synth h (bot x) r s))) / NN)%Re =
  \sum_i sqn (x i ord0).
  have p1 := parseval Nx0 Ny0 (top x) sep hi; have p2 := parseval Nx0 Ny0 (bot x) sep hi.
  have inj (a b : R) : rc a = rc b -> a = b by case.
  have rd (A : R) : rc (A / NN)%Re = rc A / rc NN by rewrite rcV; [exact: rmorphM|lra].
  apply: inj; rewrite rd.
  rewrite (_ : rc NN = (Nx * Ny)%:R); last by rewrite /NN rmorph_nat.
  rewrite big_split_ord /= [RHS]rmorphD /= !rmorph_sum /= -p1 -p2 -mulrDl; congr (_ / _).
  rewrite -big_split /=; apply: eq_bigr => r _; rewrite -big_split rmorph_sum /=; apply: eq_bigr => s _.
  by rewrite rmorphD.
by rewrite -par; apply: Rmult_le_compat_r => //; apply: Rlt_le; exact: Rinv_0_lt_compat.
Qed.
End Proj.

(** ** Moduli *)
Lemma sqn_rc (x : R) : sqn (rc x) = (x * x)%Re.
Proof. by rewrite /sqn /=; rfold; ring. Qed.

Lemma jones_modulus arctan2 t0 t1 :
  (sqn (jones arctan2 t0 t1).1 + sqn (jones arctan2 t0 t1).2)%Re =
  ((t0 * t0 + t1 * t1) / (norm2 (rc t0) (rc t1) * norm2 (rc t0) (rc t1)))%Re.
Proof.
rewrite /jones /=; set th := arctan2 _ _; set ph := (_ / 8 * _)%Re.
have n0 := norm2_pos (rc t0) (rc t1); move: n0; set n := norm2 _ _ => n0.
have e1 : sqn (cexp (- 'i * rc th)) = 1%Re.
  rewrite mulNr -mulrN -rmorphN cexp_i2pi /sqn /=; have := sin2_cos2 (- th)%Re; rewrite /Rsqr; rfold; lra.
have e2 : sqn ((rc n)^-1) = (/ (n * n))%Re by rewrite rcV; [rewrite sqn_rc; field; lra|lra].
have e3 (t m : R) : sqn (rc t * rc (cos ph) - 'i * rc m * rc (sin ph)) =
   (t * t * (cos ph * cos ph) + m * m * (sin ph * sin ph))%Re.
  by rewrite /sqn /=; rfold; ring.
rewrite !sqnM e1 e2 !e3.
have := sin2_cos2 ph; rewrite /Rsqr => sc.
have -> : (cos ph * cos ph)%Re = (1 - sin ph * sin ph)%Re by lra.
by field; lra.
Qed.

Lemma normalize_vec_modulus t0 t1 :
  let v := normalize_vec t0 t1 in (v.1 * v.1 + v.2 * v.2 <= 1)%Re.
Proof.
rewrite /normalize_vec; case: Rle_dec => _ /=; first lra.
have := norm2_sq (rc t0) (rc t1); have := norm2_pos (rc t0) (rc t1); rewrite !sqn_rc.
set n := norm2 _ _ => n0 hn.
have -> : (t0 / n * (t0 / n) + t1 / n * (t1 / n) = (t0 * t0 + t1 * t1) * / (n * n))%Re by field; lra.
apply: (Rmult_le_reg_r (n * n)); first nra.
by rewrite Rmult_assoc Rinv_l; nra.
Qed.

Lemma bigRmax_ge n (f : 'I_n -> R) i : (f i <= \big[Rmax/0%Re]_(k < n) f k)%Re.
Proof.
elim: n f i => [f [] //|n IH] f i; rewrite big_ord_recl.
case: (unliftP ord0 i) => [j ->|->]; last exact: Rmax_l.
exact: Rle_trans (IH (fun k => f (lift ord0 k)) j) (Rmax_r _ _).
Qed.

Lemma max_norm_ge Nx Ny (t0 t1 : 'M[R]_(Nx, Ny)) i j :
  (norm2 (rc (t0 i j)) (rc (t1 i j)) <= max_norm t0 t1)%Re.
Proof.
apply: Rle_trans (bigRmax_ge (fun i => \big[Rmax/0%Re]_(j < Ny) norm2 (rc (t0 i j)) (rc (t1 i j))) i).
exact: (bigRmax_ge (fun j => norm2 (rc (t0 i j)) (rc (t1 i j)))).
Qed.

Lemma tangent_modulus Nx Ny normalize (u : 'M[C]_(Nx, Ny)) t :
  tangent_field_fft normalize u = Ok t -> forall i j, (t.1 i j * t.1 i j + t.2 i j * t.2 i j <= 1)%Re.
Proof.
rewrite /tangent_field_fft; case: (raw_field u) => [[a b]|//] /=.
case: normalize => -[<-] i j /=; rewrite !mxE.
  by have := normalize_vec_modulus (a i j) (b i j).
have hm := max_norm_ge a b i j; have := norm2_sq (rc (a i j)) (rc (b i j)).
have := norm2_pos (rc (a i j)) (rc (b i j)); rewrite !sqn_rc; move: hm.
set n := norm2 _ _; set M := max_norm a b => hm n0 hn.
set x := a i j in hn *; set y := b i j in hn *.
have -> : (x / M * (x / M) + y / M * (y / M) = (x * x + y * y) * / (M * M))%Re by field; lra.
apply: (Rmult_le_reg_r (M * M)); first nra.
by rewrite Rmult_assoc Rinv_l; nra.
Qed.

(** ** Patterns invariant in one direction *)
Lemma ft0 Nx Ny : fourier_transform (0 : 'M[C]_(Nx, Ny)) = 0.
Proof.
apply/matrixP => i j.
have Nx0 : (0 < Nx)%N := leq_ltn_trans (leq0n i) (ltn_ord i).
have Ny0 : (0 < Ny)%N := leq_ltn_trans (leq0n j) (ltn_ord j).
rewrite fourier_transformE // big1 ?mul0r ?mxE // => r _.
by rewrite big1 // => s _; rewrite mxE mul0r.
Qed.
Lemma ift0 Nx Ny : inverse_fourier_transform (0 : 'M[C]_(Nx, Ny)) = 0.
Proof.
apply/matrixP => i j.
have Nx0 : (0 < Nx)%N := leq_ltn_trans (leq0n i) (ltn_ord i).
have Ny0 : (0 < Ny)%N := leq_ltn_trans (leq0n j) (ltn_ord j).
rewrite inverse_fourier_transformE // big1 ?mxE // => r _.
by rewrite big1 // => s _; rewrite mxE mul0r.
Qed.
Lemma spread0 Nx Ny : @spread Nx Ny 0 = 0.
Proof.
rewrite /spread ft0 (_ : (\matrix_(i, j) _) = 0) ?ift0 //.
by apply/matrixP => i j; rewrite !mxE mul0r.
Qed.

Lemma entryE M N (u : 'M[C]_(M, N)) (i : 'I_M) (j : 'I_N) : entry u i j = u i j.
Proof. by rewrite /entry !insubT // => hi hj; congr (u _ _); apply: val_inj. Qed.

Lemma grad1_const M N (u : 'M[C]_(M, N)) : (1 < N)%N ->
  (forall i j j', u i j = u i j') -> grad1 u = 0.
Proof.
move=> N1 hu; apply/matrixP => i j; rewrite !mxE /diff1.
have c k k' : (k < N)%N -> (k' < N)%N -> entry u i k - entry u i k' = 0.
  move=> hk hk'; have -> := entryE u i (Ordinal hk); have -> := entryE u i (Ordinal hk').
  by rewrite (hu i (Ordinal hk) (Ordinal hk')) subrr.
have N0 := ltnW N1; have hj := ltn_ord j.
case: eqP => [_|j0]; first by rewrite c.
have p1 : (N.-1 < N)%N by rewrite prednK.
have p2 : (N.-2 < N)%N := leq_ltn_trans (leq_pred _) p1.
case: eqP => [_|jN]; first by rewrite c.
rewrite c ?mul0r //; last by rewrite (leq_ltn_trans (leq_pred _)).
by rewrite ltn_neqAle hj andbT; apply/eqP => e; apply: jN; apply: succn_inj; rewrite prednK.
Qed.
Lemma grad0_const M N (u : 'M[C]_(M, N)) : (1 < M)%N ->
  (forall i i' j, u i j = u i' j) -> grad0 u = 0.
Proof.
move=> N1 hu; apply/matrixP => i j; rewrite !mxE /diff1.
have c k k' : (k < M)%N -> (k' < M)%N -> entry u k j - entry u k' j = 0.
  move=> hk hk'; have -> := entryE u (Ordinal hk) j; have -> := entryE u (Ordinal hk') j.
  by rewrite (hu (Ordinal hk) (Ordinal hk')) subrr.
have N0 := ltnW N1; have hj := ltn_ord i.
case: eqP => [_|j0]; first by rewrite c.
have p1 : (M.-1 < M)%N by rewrite prednK.
have p2 : (M.-2 < M)%N := leq_ltn_trans (leq_pred _) p1.
case: eqP => [_|jN]; first by rewrite c.
rewrite c ?mul0r //; last by rewrite (leq_ltn_trans (leq_pred _)).
by rewrite ltn_neqAle hj andbT; apply/eqP => e; apply: jN; apply: succn_inj; rewrite prednK.
Qed.

Lemma tile_y Nx Ny (u : 'M[C]_(Nx, Ny)) : (0 < Nx)%N -> (0 < Ny)%N ->
  (forall i j j', u i j = u i j') -> forall i j j', tile u i j = tile u i j'.
Proof.
move=> Nx0 Ny0 hu i j j'; rewrite !mxE.
case: (zord Nx0 (Z.of_nat i)) => a ha; case: (zord Ny0 (Z.of_nat j)) => b hb.
case: (zord Ny0 (Z.of_nat j')) => b' hb'.
by rewrite (per_at _ ha hb) (per_at _ ha hb').
Qed.
Lemma tile_x Nx Ny (u : 'M[C]_(Nx, Ny)) : (0 < Nx)%N -> (0 < Ny)%N ->
  (forall i i' j, u i j = u i' j) -> forall i i' j, tile u i j = tile u i' j.
Proof.
move=> Nx0 Ny0 hu i i' j; rewrite !mxE.
case: (zord Nx0 (Z.of_nat i)) => a ha; case: (zord Ny0 (Z.of_nat j)) => b hb.
case: (zord Nx0 (Z.of_nat i')) => a' ha'.
by rewrite (per_at _ ha hb) (per_at _ ha' hb).
Qed.

Lemma central0 Nx Ny : @central Nx Ny 0 = 0.
Proof.
apply/matrixP => i j; rewrite !mxE /entry.
by case: (insub (Nx + i)%N) => // x; case: (insub (Ny + j)%N) => // y; rewrite mxE.
Qed.
Lemma three N : (0 < N)%N -> (1 < 3 * N)%N.
Proof. by case: N => // N _; rewrite mulnS. Qed.

Lemma normalize00 n : normalize0 0 n = 0.
Proof. by rewrite /normalize0; case: (Rle_dec n 0) => ? //; rewrite mul0r. Qed.

Lemma raw_y Nx Ny (u : 'M[C]_(Nx, Ny)) t : (0 < Nx)%N -> (0 < Ny)%N ->
  (forall i j j', u i j = u i j') -> raw_field u = Ok t -> t.1 = 0.
Proof.
move=> Nx0 Ny0 hu; rewrite /raw_field; case: (apply_filter _ _ _ _) => [xf|//] /= [<-] {t} /=.
rewrite (grad1_const (three Ny0) (tile_y Nx0 Ny0 hu)) (_ : (\matrix_(i, j) _) = 0); last first.
  by apply/matrixP => i j; rewrite !mxE mul0r normalize00.
by rewrite spread0 central0; apply/matrixP => i j; rewrite !mxE.
Qed.
Lemma raw_x Nx Ny (u : 'M[C]_(Nx, Ny)) t : (0 < Nx)%N -> (0 < Ny)%N ->
  (forall i i' j, u i j = u i' j) -> raw_field u = Ok t -> t.2 = 0.
Proof.
move=> Nx0 Ny0 hu; rewrite /raw_field; case: (apply_filter _ _ _ _) => [xf|//] /= [<-] {t} /=.
rewrite (grad0_const (three Nx0) (tile_x Nx0 Ny0 hu)) (_ : (\matrix_(i, j) _) = 0); last first.
  by apply/matrixP => i j; rewrite !mxE mul0r normalize00.
by rewrite spread0 central0; apply/matrixP => i j; rewrite !mxE; exact: Ropp_0.
Qed.

(** The field always exists. *)
Lemma tangent_total Nx Ny normalize (u : 'M[C]_(Nx, Ny)) : (0 < Nx)%N -> (0 < Ny)%N ->
  exists t, tangent_field_fft normalize u = Ok t.
Proof.
move=> Nx0 Ny0; rewrite /tangent_field_fft /raw_field.
have h4 : (4%Re : R) != 0 by apply/eqP; rfold; lra.
rewrite filterE ?three //=; try by apply: ltnW; exact: three.
by case: normalize; eexists.
Qed.

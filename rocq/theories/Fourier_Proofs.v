(** Proofs about the discrete Fourier transform and convolution matrices. *)
From Coq Require Import Reals ZArith Lra Lia.
From mathcomp Require Import all_ssreflect all_algebra.
From mathcomp Require Import complex.
From Verif Require Import RStruct Cplx Base Fourier_Model Fourier_Spec Sim_Model.

Set Implicit Arguments.
Unset Strict Implicit.
Unset Printing Implicit Defensive.

Import Order.TTheory GRing.Theory Num.Theory.
Local Open Scope ring_scope.
Local Open Scope complex_scope.

Lemma small_mult (a b n q : Z) : (0 <= a < n)%Zc -> (0 <= b < n)%Zc -> (a - b = n * q)%Zc -> a = b.
Proof.
move=> ha hb e; have : (q = 0 \/ q <= -1 \/ 1 <= q)%Zc by lia.
case=> [q0|[q0|q0]]; [rewrite q0 in e; lia|nia|nia].
Qed.

(** ** Conjugation *)
Lemma conjM (a b : C) : conj (a * b) = conj a * conj b. Proof. exact: rmorphM. Qed.
Lemma conjD (a b : C) : conj (a + b) = conj a + conj b. Proof. exact: rmorphD. Qed.
Lemma conjN (a : C) : conj (- a) = - conj a. Proof. exact: rmorphN. Qed.
Lemma conjV (a : C) : conj (a^-1) = (conj a)^-1. Proof. exact: fmorphV. Qed.
Lemma conj_nat n : conj n%:R = n%:R. Proof. exact: rmorph_nat. Qed.
Lemma conj_sum (I : Type) (r : seq I) (P : pred I) (F : I -> C) :
  conj (\sum_(i <- r | P i) F i) = \sum_(i <- r | P i) conj (F i).
Proof. exact: rmorph_sum. Qed.

(** ** Roots of unity *)
Lemma rootD N m m' : root N (m + m') = root N m * root N m'.
Proof.
rewrite /root -cexpD -mulrDr -rmorphD; congr (cexp (_ * rc _)).
rewrite plus_IZR; change ((2 * PI * (IZR m + IZR m') / INR N)%Re =
  (2 * PI * IZR m / INR N + 2 * PI * IZR m' / INR N)%Re).
by rewrite /Rdiv; ring.
Qed.

Lemma root0 N : root N 0 = 1.
Proof.
rewrite /root; set x := (_ / _)%Re; have -> : x = 0%Re by rewrite /x /Rdiv; ring.
by rewrite [X in 'i * X]rmorph0 mulr0 cexp0.
Qed.

Lemma rootN N m : root N (- m) = (root N m)^-1.
Proof.
have h : root N m * root N (- m) = 1 by rewrite -rootD Z.add_opp_diag_r root0.
have n0 : root N m != 0 by apply/eqP=> e; move: h; rewrite e mul0r => /eqP; rewrite eq_sym oner_eq0.
by apply: (mulfI n0); rewrite h divff.
Qed.

Lemma root_conj N m : conj (root N m) = root N (- m).
Proof.
rewrite /root -cexp_conj; congr cexp; rewrite opp_IZR.
apply/eqP; rewrite eq_complex /=; apply/andP; split; apply/eqP; rfold; rewrite /Rdiv; ring.
Qed.

Lemma cexp_i2pi (x : R) : cexp ('i * rc x) = (cos x) +i* (sin x).
Proof.
rewrite /cexp /=; apply/eqP; rewrite eq_complex /=; apply/andP; split; apply/eqP; rfold.
all: have -> : (0 * x + - (1 * 0) = 0)%Re by ring.
all: have -> : (0 * 0 + 1 * x = x)%Re by ring.
all: by rewrite exp_0; ring.
Qed.

Lemma cos_1_2pi x : cos x = 1%Re -> exists k : Z, x = (2 * PI * IZR k)%Re.
Proof.
move=> h; have : sin (x / 2) = 0%Re.
  have e : x = (2 * (x / 2))%Re by field.
  have := cos_2a_sin (x / 2); rewrite -e h => H.
  have : (sin (x / 2) * sin (x / 2) = 0)%Re by lra.
  by move=> /Rmult_integral [].
move=> /sin_eq_0_0 [k hk]; exists k.
have -> : x = (2 * (x / 2))%Re by field. rewrite hk; ring.
Qed.

Lemma root_eq1 N m : (0 < N)%N -> root N m = 1 -> exists k, m = (Z.of_nat N * k)%Zc.
Proof.
move=> N0; rewrite /root cexp_i2pi => /eqP; rewrite eq_complex /= => /andP [/eqP h _].
have [k hk] := cos_1_2pi h; exists k; apply: eq_IZR.
have n0 : INR N <> 0%Re by apply: not_0_INR; case: (N) N0.
have p0 : PI <> 0%Re by apply: PI_neq0.
rewrite mult_IZR -INR_IZR_INZ.
have : (2 * PI * IZR m = 2 * PI * (INR N * IZR k))%Re.
  have -> : (2 * PI * (INR N * IZR k) = INR N * (2 * PI * IZR k))%Re by ring.
  rewrite -hk; field; exact: n0.
move=> e; apply: (Rmult_eq_reg_l (2 * PI)) => //.
by apply: Rmult_integral_contrapositive; split=> //; lra.
Qed.

Lemma root_period N k : (0 < N)%N -> root N (Z.of_nat N * k) = 1.
Proof.
move=> N0; rewrite /root cexp_i2pi.
have n0 : INR N <> 0%Re by apply: not_0_INR; case: (N) N0.
have -> : (2 * PI * IZR (Z.of_nat N * k) / INR N = 2 * IZR k * PI)%Re.
  by rewrite mult_IZR -INR_IZR_INZ; field.
have s0 : sin (IZR k * PI) = 0%Re by apply: sin_eq_0_1; exists k.
have -> : (2 * IZR k * PI = 2 * (IZR k * PI))%Re by ring.
rewrite cos_2a_sin sin_2a s0; apply/eqP; rewrite eq_complex /=.
by apply/andP; split; apply/eqP; rfold; ring.
Qed.

Lemma root_exp N m (x : nat) : root N (m * Z.of_nat x) = root N m ^+ x.
Proof.
elim: x => [|x IH]; first by rewrite Z.mul_0_r root0 expr0.
by rewrite exprS -IH -rootD; congr root; rewrite Nat2Z.inj_succ; lia.
Qed.

(** Orthogonality of the characters of Z/N. *)
Lemma root_sum N m : (0 < N)%N ->
  \sum_(x < N) root N (m * Z.of_nat x) =
  if (m mod Z.of_nat N =? 0)%Zc then N%:R else 0.
Proof.
move=> N0; have E : \sum_(x < N) root N (m * Z.of_nat x) = \sum_(x < N) root N m ^+ x.
  by apply: eq_bigr => x _; rewrite root_exp.
rewrite E; case: Z.eqb_spec => h.
- have [k hk] : exists k, m = (Z.of_nat N * k)%Zc.
    exists (m / Z.of_nat N)%Zc; have := Z_div_mod_eq_full m (Z.of_nat N); lia.
  have -> : root N m = 1 by rewrite hk root_period.
  by rewrite (eq_bigr (fun _ => 1)) ?sumr_const ?card_ord // => i _; rewrite expr1n.
- have w1 : root N m != 1.
    apply/eqP => /(root_eq1 N0) [k hk]; apply: h; rewrite hk Z.mul_comm Z_mod_mult //.
  have wN : root N m ^+ N = 1 by rewrite -root_exp Z.mul_comm root_period.
  have := subrX1 (root N m) N; rewrite wN subrr => /esym/eqP.
  by rewrite mulf_eq0 subr_eq0 (negPf w1) /= => /eqP.
Qed.

Lemma root_sum_ord N (a b : 'I_N) :
  \sum_(k < N) root N (Z.of_nat k * (Z.of_nat a - Z.of_nat b)) = (a == b)%:R *+ N.
Proof.
have N0 : (0 < N)%N by case: (N) a => // [[]].
rewrite (eq_bigr (fun k : 'I_N => root N ((Z.of_nat a - Z.of_nat b) * Z.of_nat k))); last first.
  by move=> k _; rewrite Z.mul_comm.
rewrite root_sum //.
have hlt (i : 'I_N) : (Z.of_nat i < Z.of_nat N)%Zc by case: i => i /= /ssrnat.ltP; lia.
have ha := hlt a.
have hb := hlt b.
case: Z.eqb_spec => h.
- have -> : a == b; last by rewrite mulr1n.
  apply/eqP/val_inj; have := Z_div_mod_eq_full (Z.of_nat a - Z.of_nat b) (Z.of_nat N).
  rewrite h Z.add_0_r => e.
  by apply: Nat2Z.inj; apply: small_mult e; split=> //; apply: Zle_0_nat.
- have -> : (a == b) = false by apply/eqP => e; apply: h; rewrite e Z.sub_diag Zmod_0_l.
  by rewrite mul0rn.
Qed.

Section DFT.
Variables (Nx Ny : nat).
Hypothesis (Nx0 : (0 < Nx)%N) (Ny0 : (0 < Ny)%N).

Lemma NxNy_neq0 : ((Nx * Ny)%:R : C) != 0.
Proof. by rewrite pnatr_eq0 -lt0n muln_gt0 Nx0. Qed.

(** [chi s k l x y] = exp(s 2 pi i (k x/Nx + l y/Ny)) *)
Lemma fourier_transformE (u : 'M[C]_(Nx, Ny)) k l :
  fourier_transform u k l =
  (\sum_(x < Nx) \sum_(y < Ny) u x y * (root Nx (- (Z.of_nat k * Z.of_nat x)) *
               root Ny (- (Z.of_nat l * Z.of_nat y)))) / (Nx * Ny)%:R.
Proof. by rewrite !mxE. Qed.

Lemma inverse_fourier_transformE (u : 'M[C]_(Nx, Ny)) x y :
  inverse_fourier_transform u x y =
  \sum_(k < Nx) \sum_(l < Ny) u k l * (root Nx (Z.of_nat k * Z.of_nat x) *
               root Ny (Z.of_nat l * Z.of_nat y)).
Proof. by rewrite !mxE divfK // NxNy_neq0. Qed.

Lemma sum_delta (a : 'I_Nx) (b : 'I_Ny) (f : 'I_Nx -> 'I_Ny -> C) :
  \sum_x \sum_y f x y * (((x == a)%:R *+ Nx) * ((y == b)%:R *+ Ny)) = f a b * (Nx * Ny)%:R.
Proof.
rewrite (bigD1 a) //= [X in _ + X]big1 ?addr0 => [|x xa]; last first.
  by rewrite big1 // => y _; rewrite (negPf xa) mul0rn mul0r mulr0.
rewrite (bigD1 b) //= [X in _ + X]big1 ?addr0 => [|y yb]; last first.
  by rewrite (negPf yb) mul0rn !mulr0.
by rewrite !eqxx natrM.
Qed.

Lemma ift_ft (u : 'M[C]_(Nx, Ny)) : inverse_fourier_transform (fourier_transform u) = u.
Proof.
apply/matrixP=> a b; rewrite inverse_fourier_transformE.
apply: (mulIf NxNy_neq0); rewrite -(sum_delta a b (fun x y => u x y)).
rewrite mulr_suml.
have E k : (\sum_(l < Ny) fourier_transform u k l * (root Nx (Z.of_nat k * Z.of_nat a) *
               root Ny (Z.of_nat l * Z.of_nat b))) * (Nx * Ny)%:R =
  \sum_(l < Ny) \sum_x \sum_y u x y * (root Nx (Z.of_nat k * (Z.of_nat a - Z.of_nat x)) *
    root Ny (Z.of_nat l * (Z.of_nat b - Z.of_nat y))).
  rewrite mulr_suml; apply: eq_bigr => l _; rewrite fourier_transformE.
  rewrite mulrAC divfK ?NxNy_neq0 // mulr_suml; apply: eq_bigr => x _; rewrite mulr_suml; apply: eq_bigr => y _.
  rewrite -mulrA; congr (_ * _).
  rewrite !Z.mul_sub_distr_l -!Z.add_opp_r !rootD; cring.
rewrite (eq_bigr _ (fun k _ => E k)) {E}.
rewrite (eq_bigr (fun k : 'I_Nx => \sum_x \sum_(l < Ny) \sum_y u x y *
   (root Nx (Z.of_nat k * (Z.of_nat a - Z.of_nat x)) *
    root Ny (Z.of_nat l * (Z.of_nat b - Z.of_nat y))))); last by move=> k _; rewrite exchange_big.
rewrite exchange_big; apply: eq_bigr => x _.
rewrite (eq_bigr (fun k : 'I_Nx => \sum_y \sum_(l < Ny) u x y *
   (root Nx (Z.of_nat k * (Z.of_nat a - Z.of_nat x)) *
    root Ny (Z.of_nat l * (Z.of_nat b - Z.of_nat y))))); last by move=> k _; rewrite exchange_big.
rewrite exchange_big; apply: eq_bigr => y _.
rewrite (eq_bigr (fun k : 'I_Nx => u x y * (root Nx (Z.of_nat k * (Z.of_nat a - Z.of_nat x)) *
   ((b == y)%:R *+ Ny)))); last first.
  by move=> k _; rewrite -mulr_sumr -mulr_sumr root_sum_ord.
by rewrite -mulr_sumr -mulr_suml root_sum_ord [a == x]eq_sym [b == y]eq_sym.
Qed.

Lemma ft_ift (u : 'M[C]_(Nx, Ny)) : fourier_transform (inverse_fourier_transform u) = u.
Proof.
apply/matrixP=> a b; rewrite fourier_transformE.
apply: (mulIf NxNy_neq0); rewrite -(sum_delta a b (fun x y => u x y)) divfK ?NxNy_neq0 //.
have E k : (\sum_(l < Ny) inverse_fourier_transform u k l * (root Nx (- (Z.of_nat a * Z.of_nat k)) *
               root Ny (- (Z.of_nat b * Z.of_nat l)))) =
  \sum_(l < Ny) \sum_x \sum_y u x y * (root Nx (Z.of_nat k * (Z.of_nat x - Z.of_nat a)) *
    root Ny (Z.of_nat l * (Z.of_nat y - Z.of_nat b))).
  apply: eq_bigr => l _; rewrite inverse_fourier_transformE.
  rewrite mulr_suml; apply: eq_bigr => x _; rewrite mulr_suml; apply: eq_bigr => y _.
  rewrite -mulrA; congr (_ * _).
  rewrite !Z.mul_sub_distr_l -!Z.add_opp_r !rootD ![(_ * Z.of_nat k)%Zc]Z.mul_comm ![(_ * Z.of_nat l)%Zc]Z.mul_comm; cring.
rewrite (eq_bigr _ (fun k _ => E k)) {E}.
rewrite (eq_bigr (fun k : 'I_Nx => \sum_x \sum_(l < Ny) \sum_y u x y *
   (root Nx (Z.of_nat k * (Z.of_nat x - Z.of_nat a)) *
    root Ny (Z.of_nat l * (Z.of_nat y - Z.of_nat b))))); last by move=> k _; rewrite exchange_big.
rewrite exchange_big; apply: eq_bigr => x _.
rewrite (eq_bigr (fun k : 'I_Nx => \sum_y \sum_(l < Ny) u x y *
   (root Nx (Z.of_nat k * (Z.of_nat x - Z.of_nat a)) *
    root Ny (Z.of_nat l * (Z.of_nat y - Z.of_nat b))))); last by move=> k _; rewrite exchange_big.
rewrite exchange_big; apply: eq_bigr => y _.
rewrite (eq_bigr (fun k : 'I_Nx => u x y * (root Nx (Z.of_nat k * (Z.of_nat x - Z.of_nat a)) *
   ((y == b)%:R *+ Ny)))); last first.
  by move=> k _; rewrite -mulr_sumr -mulr_sumr root_sum_ord.
by rewrite -mulr_sumr -mulr_suml root_sum_ord.
Qed.
End DFT.

Lemma waveE Nx Ny m n (x : 'I_Nx) (y : 'I_Ny) :
  wave m n x y = root Nx (m * Z.of_nat x) * root Ny (n * Z.of_nat y).
Proof.
rewrite /wave /root -cexpD -mulrDr -rmorphD; congr (cexp (_ * rc _)).
rewrite !mult_IZR -!INR_IZR_INZ; rfold; rewrite /Rdiv; ring.
Qed.

Lemma pyidxP N d : (index_ok N d /\ exists i : 'I_N, pyidx N d = Some i /\
    (exists k, Z.of_nat i = d + Z.of_nat N * k)%Zc) \/
  (~ index_ok N d /\ pyidx N d = None).
Proof.
rewrite /pyidx /index_ok.
case: (Z.leb_spec 0 d) => h1; case: (Z.ltb_spec d (Z.of_nat N)) => h2 /=.
- left; split; first lia.
  have hi : (Z.to_nat d < N)%N by apply/ssrnat.ltP; lia.
  exists (Ordinal hi); split; first by rewrite insubT.
  by exists 0%Zc; rewrite /=; lia.
- right; split; first lia.
  by case: (Z.leb_spec _ d) => h3 //=; case: (Z.ltb_spec d 0) => //; lia.
- case: (Z.leb_spec (- Z.of_nat N) d) => h3; case: (Z.ltb_spec d 0) => h4 //=; try lia.
  + left; split; first lia.
    have hi : (Z.to_nat (d + Z.of_nat N) < N)%N by apply/ssrnat.ltP; lia.
    exists (Ordinal hi); split; first by rewrite insubT.
    by exists 1%Zc; rewrite /=; lia.
  + by right; split=> //; lia.
- by case: (Z.leb_spec (- Z.of_nat N) d) => h3; case: (Z.ltb_spec d 0) => h4 /=; lia.
Qed.

Lemma root_shift N m k : (0 < N)%N -> root N (m + Z.of_nat N * k) = root N m.
Proof. by move=> N0; rewrite rootD root_period // mulr1. Qed.

Section Toeplitz.
Variables (Nx Ny : nat).
Hypothesis (Nx0 : (0 < Nx)%N) (Ny0 : (0 < Ny)%N).
Implicit Type u : 'M[C]_(Nx, Ny).

Lemma ft_coef u (k : 'I_Nx) (l : 'I_Ny) m n a b :
  (Z.of_nat k = m + Z.of_nat Nx * a)%Zc -> (Z.of_nat l = n + Z.of_nat Ny * b)%Zc ->
  fourier_transform u k l = coef u m n.
Proof.
move=> hk hl; rewrite fourier_transformE; congr (_ / _).
apply: eq_bigr => x _; apply: eq_bigr => y _; rewrite waveE; congr (_ * (_ * _)).
- rewrite hk; have -> : (- ((m + Z.of_nat Nx * a) * Z.of_nat x) =
    - m * Z.of_nat x + Z.of_nat Nx * (- a * Z.of_nat x))%Zc by ring.
  exact: root_shift.
- rewrite hl; have -> : (- ((n + Z.of_nat Ny * b) * Z.of_nat y) =
    - n * Z.of_nat y + Z.of_nat Ny * (- b * Z.of_nat y))%Zc by ring.
  exact: root_shift.
Qed.

Lemma pyget_coef u m n :
  (index_ok Nx m /\ index_ok Ny n /\ pyget (fourier_transform u) m n = Some (coef u m n)) \/
  (~ (index_ok Nx m /\ index_ok Ny n) /\ pyget (fourier_transform u) m n = None).
Proof.
rewrite /pyget; case: (pyidxP Nx m) => [[h1 [i [-> [a ha]]]]|[h1 ->]]; last by right; split=> // -[].
case: (pyidxP Ny n) => [[h2 [j [-> [b hb]]]]|[h2 ->]]; last by right; split=> // -[].
by left; rewrite (ft_coef u ha hb).
Qed.

Section H.
Variables (nh : nat) (h : 'I_nh -> order).
Definition indexable (o : order) : Prop := index_ok Nx o.1 /\ index_ok Ny o.2.
Definition odiff (o o' : order) : order := ((o.1 - o'.1)%Zc, (o.2 - o'.2)%Zc).

Lemma toeplitzP u :
  ((forall i j, indexable (odiff (h i) (h j))) /\
   toeplitz h u = Some (\matrix_(i, j) coef u ((h i).1 - (h j).1) ((h i).2 - (h j).2))) \/
  (~ (forall i j, indexable (odiff (h i) (h j))) /\ toeplitz h u = None).
Proof.
rewrite /toeplitz; case: ifP => [/forallP H|H].
- have H' i j : indexable (odiff (h i) (h j)) /\
    pyget (fourier_transform u) ((h i).1 - (h j).1)%Zc ((h i).2 - (h j).2)%Zc =
    Some (coef u ((h i).1 - (h j).1) ((h i).2 - (h j).2)).
    have /forallP/(_ j) := H i.
    by case: (pyget_coef u ((h i).1 - (h j).1) ((h i).2 - (h j).2)) => [[h1 [h2 ->]]|[_ ->]].
  left; split=> [i j|]; first by case: (H' i j).
  by congr Some; apply/matrixP=> i j; rewrite !mxE; case: (H' i j) => _ ->.
- right; split=> // H'; move: H => /negP; apply; apply/forallP => i; apply/forallP => j.
  have [h1 h2] := H' i j.
  by case: (pyget_coef u ((h i).1 - (h j).1) ((h i).2 - (h j).2)) => [[_ [_ ->]]|[[]]].
Qed.

Lemma coefD u v m n : coef (u + v) m n = coef u m n + coef v m n.
Proof.
rewrite /coef -mulrDl -big_split; congr (_ / _); apply: eq_bigr => x _.
by rewrite -big_split; apply: eq_bigr => y _ /=; rewrite mxE mulrDl.
Qed.

Lemma coefZ c u m n : coef (c *: u) m n = c * coef u m n.
Proof.
rewrite /coef mulrA mulr_sumr; congr (_ / _); apply: eq_bigr => x _.
by rewrite mulr_sumr; apply: eq_bigr => y _; rewrite mxE mulrA.
Qed.

Lemma coef_const c m n : coef (const_mx c : 'M[C]_(Nx, Ny)) m n =
  if (m mod Z.of_nat Nx =? 0)%Zc && (n mod Z.of_nat Ny =? 0)%Zc then c else 0.
Proof.
have Hopp a N : (0 < N)%N -> ((- a) mod Z.of_nat N =? 0)%Zc = (a mod Z.of_nat N =? 0)%Zc.
  move=> N0; have N0' : Z.of_nat N <> 0%Zc by move: N0 => /ssrnat.ltP; lia.
  case: Z.eqb_spec => h1; case: Z.eqb_spec => h2 //.
  - by move/Z.mod_opp_l_z: h1; rewrite Z.opp_involutive => h1; case: h2; apply: h1.
  - by move/Z.mod_opp_l_z: h2 => h2; case: h1; apply: h2.
rewrite /coef.
have -> : \sum_(x < Nx) \sum_(y < Ny) (const_mx c : 'M[C]_(Nx,Ny)) x y * wave (- m) (- n) x y =
  c * ((\sum_(x < Nx) root Nx (- m * Z.of_nat x)) * (\sum_(y < Ny) root Ny (- n * Z.of_nat y))).
  rewrite mulr_suml mulr_sumr; apply: eq_bigr => x _; rewrite mulr_sumr mulr_sumr.
  by apply: eq_bigr => y _; rewrite mxE waveE.
rewrite !root_sum // !Hopp //.
case: Z.eqb_spec => h1; case: Z.eqb_spec => h2 //=; rewrite ?mul0r ?mulr0 ?mul0r //.
by rewrite -natrM mulfK // NxNy_neq0.
Qed.

Lemma coef_conj u m n : (forall x y, conj (u x y) = u x y) -> conj (coef u m n) = coef u (- m) (- n).
Proof.
move=> hu; rewrite /coef; set w := (Nx * Ny)%:R.
rewrite conjM conjV conj_nat; congr (_ / _).
rewrite conj_sum; apply: eq_bigr => x _; rewrite conj_sum; apply: eq_bigr => y _.
rewrite conjM hu; congr (_ * _); rewrite !waveE conjM; congr (_ * _).
all: by rewrite root_conj; congr root; ring.
Qed.

Lemma coef_mean u : coef u 0 0 = mean u.
Proof.
rewrite /coef /mean; congr (_ / _); apply: eq_bigr => x _; apply: eq_bigr => y _.
by rewrite waveE !Z.mul_0_l !root0 !mulr1.
Qed.

(** Orders are told apart by the grid. *)
Definition separated : Prop := forall i j, i != j ->
  ~ ((((h i).1 - (h j).1) mod Z.of_nat Nx = 0)%Zc /\ (((h i).2 - (h j).2) mod Z.of_nat Ny = 0)%Zc).

Lemma toeplitz_const c M : separated -> toeplitz h (const_mx c : 'M[C]_(Nx, Ny)) = Some M -> M = c%:M.
Proof.
move=> hs; case: (toeplitzP (const_mx c)) => [[_ ->]|[_ ->]] // [<-].
apply/matrixP=> i j; rewrite !mxE coef_const.
case: (eqVneq i j) => [->|ij]; first by rewrite !Z.sub_diag !Zmod_0_l mulr1n.
rewrite mulr0n; case: ifP => // /andP [/Z.eqb_eq e1 /Z.eqb_eq e2].
by case: (hs _ _ ij).
Qed.

Lemma toeplitz_herm u M : (forall x y, conj (u x y) = u x y) -> toeplitz h u = Some M ->
  forall i j, M j i = conj (M i j).
Proof.
move=> hu; case: (toeplitzP u) => [[_ ->]|[_ ->]] // [<-] i j.
by rewrite !mxE [RHS]coef_conj //; congr coef; lia.
Qed.

Lemma toeplitzDZ c u v M M' : toeplitz h u = Some M -> toeplitz h v = Some M' ->
  toeplitz h (u + c *: v) = Some (M + c *: M').
Proof.
case: (toeplitzP u) => [[H ->]|[_ ->]] // [<-].
case: (toeplitzP v) => [[_ ->]|[_ ->]] // [<-].
case: (toeplitzP (u + c *: v)) => [[_ ->]|[]] //.
by congr Some; apply/matrixP=> i j; rewrite !mxE coefD coefZ.
Qed.
End H.

(** ** Synthesis *)
Lemma unit_atP (o : order) :
  (indexable o /\ exists i j, unit_at Nx Ny o = Some (delta_mx i j) /\
     (exists a, Z.of_nat (i : 'I_Nx) = o.1 + Z.of_nat Nx * a)%Zc /\
     (exists b, Z.of_nat (j : 'I_Ny) = o.2 + Z.of_nat Ny * b)%Zc) \/
  (~ indexable o /\ unit_at Nx Ny o = None).
Proof.
rewrite /unit_at /indexable.
case: (pyidxP Nx o.1) => [[h1 [i [-> [a ha]]]]|[h1 ->]]; last by right; split=> // -[].
case: (pyidxP Ny o.2) => [[h2 [j [-> [b hb]]]]|[h2 ->]]; last by right; split=> // -[].
by left; split=> //; exists i, j; split=> //; split; [exists a|exists b].
Qed.

Lemma ift_delta (i : 'I_Nx) (j : 'I_Ny) m n a b x y :
  (Z.of_nat i = m + Z.of_nat Nx * a)%Zc -> (Z.of_nat j = n + Z.of_nat Ny * b)%Zc ->
  inverse_fourier_transform (delta_mx i j) x y = wave m n x y.
Proof.
move=> hi hj; rewrite inverse_fourier_transformE //.
rewrite (bigD1 i) //= [X in _ + X]big1 ?addr0 => [|k ki]; last first.
  by rewrite big1 // => l _; rewrite mxE (negPf ki) mul0r.
rewrite (bigD1 j) //= [X in _ + X]big1 ?addr0 => [|l lj]; last first.
  by rewrite mxE (negPf lj) andbF mul0r.
rewrite mxE !eqxx mul1r waveE hi hj; congr (_ * _).
- have -> : ((m + Z.of_nat Nx * a) * Z.of_nat x = m * Z.of_nat x + Z.of_nat Nx * (a * Z.of_nat x))%Zc by ring.
  exact: root_shift.
- have -> : ((n + Z.of_nat Ny * b) * Z.of_nat y = n * Z.of_nat y + Z.of_nat Ny * (b * Z.of_nat y))%Zc by ring.
  exact: root_shift.
Qed.

Lemma ift_add u v : inverse_fourier_transform (u + v) =
  inverse_fourier_transform u + inverse_fourier_transform v.
Proof.
apply/matrixP=> x y; rewrite [RHS]mxE !inverse_fourier_transformE // -big_split.
apply: eq_bigr => k _; rewrite -big_split; apply: eq_bigr => l _ /=.
by rewrite mxE mulrDl.
Qed.

Lemma ift_scale c u : inverse_fourier_transform (c *: u) = c *: inverse_fourier_transform u.
Proof.
apply/matrixP=> x y; rewrite [RHS]mxE !inverse_fourier_transformE // mulr_sumr.
by apply: eq_bigr => k _; rewrite mulr_sumr; apply: eq_bigr => l _; rewrite mxE -mulrA.
Qed.

Definition series (hs : seq order) (us : seq C) : 'M[C]_(Nx, Ny) :=
  \matrix_(x, y) \sum_(p <- zip hs us) p.2 * wave p.1.1 p.1.2 x y.

Lemma accumP hs us s : size hs = size us ->
  ((forall o, List.In o hs -> indexable o) /\
   exists t, accum hs us s = Some t /\
     inverse_fourier_transform t = inverse_fourier_transform s + series hs us) \/
  (~ (forall o, List.In o hs -> indexable o) /\ accum hs us s = None).
Proof.
elim: hs us s => [|o hs IH] [|a us] s //= hsz.
  left; split=> //; exists s; split=> //.
  by rewrite (_ : series _ _ = 0) ?addr0 //; apply/matrixP=> x y; rewrite !mxE big_nil.
move: hsz => [hsz].
case: (unit_atP o) => [[ho [i [j [-> [[a' ha] [b hb]]]]]]|[ho ->]]; last first.
  by right; split=> // H; apply: ho; apply: H; left.
case: (IH us (s + a *: delta_mx i j) hsz) => [[H [t [h1 h2]]]|[H ->]].
- left; split=> [o' [<-|]|] //; first exact: H.
  exists t; split=> //; rewrite h2 ift_add ift_scale -addrA; congr (_ + _).
  by apply/matrixP=> x y; rewrite !mxE /= big_cons /= -(ift_delta x y ha hb) !mxE.
- by right; split=> // H'; apply: H => o' hin; apply: H'; right.
Qed.

Lemma get_ifftP hs us : size hs = size us ->
  ((forall o, List.In o hs -> indexable o) /\ get_ifft Nx Ny hs us = Some (series hs us)) \/
  (~ (forall o, List.In o hs -> indexable o) /\ get_ifft Nx Ny hs us = None).
Proof.
move=> hsz; rewrite /get_ifft; case: (accumP (0 : 'M[C]_(Nx, Ny)) hsz) => [[H [t [-> h2]]]|[H ->]].
- left; split=> //=; congr Some; rewrite h2 (_ : inverse_fourier_transform 0 = 0) ?add0r //.
  by rewrite -(scale0r (0 : 'M[C]_(Nx, Ny))) ift_scale !scale0r.
- by right.
Qed.

(** ** get_epsilon *)
Lemma get_epsilonP nh (h : 'I_nh -> order) (i0 : 'I_nh) u e : h i0 = (0, 0)%Zc ->
  get_epsilon h i0 u = Some e ->
  forall x y, e x y = \sum_(i < nh) coef u (h i).1 (h i).2 * wave (h i).1 (h i).2 x y.
Proof.
move=> h0; rewrite /get_epsilon.
case: (toeplitzP h u) => [[H ->]|[_ ->]] //.
have hsz : size [seq h i | i <- enum 'I_nh] =
  size [seq (\matrix_(i, j) coef u ((h i).1 - (h j).1) ((h i).2 - (h j).2)) i i0 | i <- enum 'I_nh].
  by rewrite !size_map.
case: (get_ifftP hsz) => [[_ ->]|[_ ->]] // [<-] x y.
rewrite mxE zip_map big_map big_enum /=; apply: eq_bigr => i _.
by rewrite mxE h0 !Z.sub_0_r.
Qed.

Lemma wave_mean m n :
  \sum_(x < Nx) \sum_(y < Ny) wave m n x y =
  if (m mod Z.of_nat Nx =? 0)%Zc && (n mod Z.of_nat Ny =? 0)%Zc then (Nx * Ny)%:R else 0.
Proof.
transitivity ((\sum_(x < Nx) root Nx (m * Z.of_nat x)) * (\sum_(y < Ny) root Ny (n * Z.of_nat y))).
  rewrite mulr_suml; apply: eq_bigr => x _; rewrite mulr_sumr.
  by apply: eq_bigr => y _; rewrite waveE.
rewrite !root_sum //; case: ifP => _ /=; rewrite ?mul0r //.
by case: ifP => _; rewrite ?mulr0 ?natrM.
Qed.

Lemma get_epsilon_mean nh (h : 'I_nh -> order) (i0 : 'I_nh) u e : h i0 = (0, 0)%Zc ->
  separated h -> get_epsilon h i0 u = Some e -> mean e = mean u.
Proof.
move=> h0 hs he; have hE := get_epsilonP h0 he.
rewrite -[RHS]coef_mean /mean.
have -> : \sum_(x < Nx) \sum_(y < Ny) e x y = \sum_(i < nh) coef u (h i).1 (h i).2 *
  \sum_(x < Nx) \sum_(y < Ny) wave (h i).1 (h i).2 x y.
  rewrite (eq_bigr (fun x => \sum_(i < nh) \sum_(y < Ny) coef u (h i).1 (h i).2 * wave (h i).1 (h i).2 x y)).
    by rewrite exchange_big; apply: eq_bigr => i _; rewrite mulr_sumr; apply: eq_bigr => x _; rewrite mulr_sumr.
  by move=> x _; rewrite exchange_big; apply: eq_bigr => y _; rewrite hE.
rewrite (bigD1 i0) //= [X in _ + X]big1 ?addr0 => [|i ii0].
  by rewrite h0 wave_mean !Zmod_0_l /= mulfK ?NxNy_neq0.
rewrite wave_mean; case: ifP => [/andP [/Z.eqb_eq e1 /Z.eqb_eq e2]|]; rewrite ?mulr0 //.
by case: (hs _ _ ii0); rewrite h0 !Z.sub_0_r.
Qed.
End Toeplitz.

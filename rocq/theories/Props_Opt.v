(** C92, C93: the tangent field of type "opt". *)
From Coq Require Import Reals ZArith Lra Lia ClassicalEpsilon.
From mathcomp Require Import all_ssreflect all_algebra fingroup perm.
From mathcomp Require Import complex.
From Verif Require Import RStruct Cplx Base Fourier_Model Fourier_Spec Sim_Model Filter_Model Tangent_Model Opt_Model Opt_Spec.
From Verif Require Import Grid_Spec Recip_Spec Opt_Proofs Opt_Proofs2 Opt_Proofs3 Opt_Proofs4.

Set Implicit Arguments.
Unset Strict Implicit.
Unset Printing Implicit Defensive.

Import Order.TTheory GRing.Theory Num.Theory.
Local Open Scope ring_scope.
Local Open Scope complex_scope.

(** ** C92: the grids on which the field can be computed *)
Theorem C92_accepts_partial Nx Ny nh (h : 'I_nh -> order)
    (minimize : (('rV[C]_nh * 'rV[C]_nh) -> R) -> 'rV[C]_nh * 'rV[C]_nh) normalize (u : 'M[C]_(Nx, Ny)) :
  (1 < Nx)%N -> (1 < Ny)%N ->
  indexed h (minn 64 Nx) (minn 64 Nx) -> indexed h (minn 64 Ny) (minn 64 Ny) ->
  (exists i j, u i j <> 0) ->
  (workable Nx Ny -> exists t, opt_field h minimize normalize u = Ok t) /\
  (~ workable Nx Ny -> opt_field h minimize normalize u = Err ValueError).
Proof.
move=> hx hy ix iy unz; split=> hw; first exact: opt_total.
exact: not_workable.
Qed.

Lemma not_100 : ~ workable 100 100.
Proof.
case=> [[_ h]|[k [l [e _]]]]; first by [].
have : (64 %| 100)%N by apply/dvdnP; exists k; rewrite mulnC.
by [].
Qed.
Lemma not_64_32 : ~ workable 64 32.
Proof.
case=> [[e _]|[k [l [_ e]]]]; first by [].
have : (64 %| 32)%N by apply/dvdnP; exists l; rewrite mulnC.
by [].
Qed.

(** Square grids of 100 points and rectangles of 64 by 32 points are refused, whatever the
    pattern and the solver. *)
Theorem C92_grid_refuted nh (h : 'I_nh -> order)
    (minimize : (('rV[C]_nh * 'rV[C]_nh) -> R) -> 'rV[C]_nh * 'rV[C]_nh) normalize :
  (indexed h 64 64 -> forall u : 'M[C]_(100, 100), opt_field h minimize normalize u = Err ValueError) /\
  (indexed h 32 32 -> forall u : 'M[C]_(64, 32), opt_field h minimize normalize u = Err ValueError).
Proof.
split=> hi u.
- by apply: not_workable => //; exact: not_100.
- apply: not_workable => //; last exact: not_64_32.
  move=> i; have [a b] := hi i; rewrite -[minn _ _]/64%N; split; rewrite /index_ok in a b *; lia.
Qed.

(** ** C93: its value *)
Theorem C93_modulus Nx Ny nh (h : 'I_nh -> order)
    (minimize : (('rV[C]_nh * 'rV[C]_nh) -> R) -> 'rV[C]_nh * 'rV[C]_nh) normalize (u : 'M[C]_(Nx, Ny)) t :
  opt_field h minimize normalize u = Ok t ->
  forall i j, (t.1 i j * t.1 i j + t.2 i j * t.2 i j <= 1)%Re.
Proof. exact: opt_modulus. Qed.

(** The mean square error has a minimum, and the amplitudes that reach it lie along the
    direction of steepest descent from the starting point 0. *)
Theorem C93_attained nh (h : 'I_nh -> order) n (gx gy : 'M[C]_n) scale :
  (0 < n)%N -> (0 < scale)%N -> resolved h n n -> indexed h n n -> opposite_closed h ->
  (forall x y, conj (gx x y) = gx x y) -> (forall x y, conj (gy x y) = gy x y) ->
  let f := objective h scale gx gy in
  exists c0, (forall c, (f c0 <= f c)%Re) /\
  exists K, (0 < K)%Re /\ forall b : 'rV[C]_nh * 'rV[C]_nh, exists q, forall s,
    f (rc s *: b.1, rc s *: b.2) =
      (f ((0, 0)%R) - 2 * s * (K * (rdot c0.1 b.1 + rdot c0.2 b.2)) + s * s * q)%Re.
Proof.
move=> n0 s0 hr hi ho rx ry f; have ok : amps_ok h n by apply/amps_okP.
exists (best h gx scale, best h gy scale); split; first by move=> c; exact: attained.
pose kappa := (INR scale / INR (n * n))%Re.
have kp : (0 < kappa)%Re by exact: kappa_pos.
have np := nn_pos n0; have n2 := n2_pos n0.
exists (kappa * kappa * INR (n * n) / INR (2 * (n * n)))%Re; split.
  by apply: Rdiv_lt_0_compat => //; apply: Rmult_lt_0_compat => //; apply: Rmult_lt_0_compat.
pose w (i : 'I_nh) (t : 'I_n * 'I_n) : C := wave (h i).1 (h i).2 t.1 t.2.
move=> b; pose S1 : R := \sum_t fit w kappa (b.1 ord0) t * fit w kappa (b.1 ord0) t.
pose S2 : R := \sum_t fit w kappa (b.2 ord0) t * fit w kappa (b.2 ord0) t.
exists ((S1 + S2) / INR (2 * (n * n)))%Re => s; rewrite /f /objective; cbn [fst snd].
rewrite (err_line n0 hr ok ho s0 rx) (err_line n0 hr ok ho s0 ry) -/kappa -/w -/S1 -/S2.
move: (sq_err _ _ 0 gx) (sq_err _ _ 0 gy) (rdot _ b.1) (rdot _ b.2) => e1 e2 r1 r2.
by field; lra.
Qed.

(** On square grids of at most 64 points: the field is the normal, turned by a right angle,
    given by the truncated Fourier series of the smoothed gradient. *)
Theorem C93_direction n nh (h : 'I_nh -> order)
    (minimize : (('rV[C]_nh * 'rV[C]_nh) -> R) -> 'rV[C]_nh * 'rV[C]_nh) normalize (u : 'M[C]_n) :
  (1 < n)%N -> (n <= 64)%N -> indexed h n n -> resolved h n n -> opposite_closed h ->
  (exists i j, u i j <> 0) -> minimises minimize ->
  exists sx sy k m t, [/\ edges0 u = Ok sx, edges1 u = Ok sy, (0 < k)%Re /\ (0 < m)%Re,
    opt_field h minimize normalize u = Ok t & forall i j,
    let a := (k * complex.Re (band h sy i j))%Re in
    let b := (- (k * complex.Re (band h sx i j)))%Re in
    let r := R_sqrt.sqrt (machine_eps + a * a + b * b)%Re in
    (normalize = false -> t.1 i j = (a / m)%Re /\ t.2 i j = (b / m)%Re) /\
    (normalize = true -> ((r <= / 10 ^ 6)%Re -> t.1 i j = 1%Re /\ t.2 i j = 0%Re) /\
      ((/ 10 ^ 6 < r)%Re -> t.1 i j = (a / r)%Re /\ t.2 i j = (b / r)%Re))].
Proof.
move=> n1 n64 hi hr ho unz hm.
have [k [sx [sy [k0 ex ey [m [t [m0 et ht]]]]]]] := square_field n1 n64 hi unz hm hr ho normalize.
exists sx, sy, k, m, t; split=> // i j a b r; have := ht i j; cbv zeta; rewrite -/a -/b /finish.
case: normalize et ht => et ht; last by move=> [-> ->].
cbn [fst snd]; rewrite -/(onorm a b) in r *.
split=> // _; move: H; case: Rle_dec => hr' [-> ->]; split=> //; rewrite /r /onorm /threshold in hr' *; lra.
Qed.

(** Gratings: on every grid that is accepted the field runs along the lines, except that
    normalised fields are (1,0) where they would vanish. *)
Theorem C93_lines Nx Ny nh (h : 'I_nh -> order)
    (minimize : (('rV[C]_nh * 'rV[C]_nh) -> R) -> 'rV[C]_nh * 'rV[C]_nh) normalize (u : 'M[C]_(Nx, Ny)) :
  (1 < Nx)%N -> (1 < Ny)%N -> workable Nx Ny ->
  indexed h (minn 64 Nx) (minn 64 Nx) -> resolved h (minn 64 Nx) (minn 64 Nx) ->
  indexed h (minn 64 Ny) (minn 64 Ny) -> opposite_closed h ->
  (exists i j, u i j <> 0) -> minimises minimize ->
  exists t, opt_field h minimize normalize u = Ok t /\
    ((forall i i' j, u i j = u i' j) -> forall i j, t.2 i j = 0%Re) /\
    ((forall i j j', u i j = u i j') -> forall i j, t.1 i j = 0%Re \/
      (normalize = true /\ t.1 i j = 1%Re /\ t.2 i j = 0%Re)).
Proof.
move=> hx hy hw ix hr iy ho unz hm.
have [t et] : exists t, opt_field h minimize normalize u = Ok t by exact: opt_total.
exists t; split=> //; split=> hu i j.
- have [t' [et' ht]] : exists t, opt_field h minimize normalize u = Ok t /\ forall i j, t.2 i j = 0%Re.
    by apply: lines_x.
  by move: et'; rewrite et => -[->].
- have [t' [et' ht]] : exists t, opt_field h minimize normalize u = Ok t /\ forall i j, t.1 i j = 0%Re \/
      (normalize = true /\ t.1 i j = 1%Re /\ t.2 i j = 0%Re) by apply: lines_y.
  by move: et'; rewrite et => -[->].
Qed.

(** ** Cases *)
Definition h3 (i : 'I_3) : order := nth (0, 0)%Zc [:: (0, 0); (1, 0); (-1, 0)]%Zc i.
Definition stripes : 'M[C]_4 := \matrix_(i, j) (if (i < 2)%N then 1 else 4%:R).

Lemma h3_indexed n : (1 < n)%N -> indexed h3 n n.
Proof.
move=> /ssrnat.ltP n1 i; rewrite /index_ok.
by case: i => -[|[|[|//]]] /= _; lia.
Qed.
Lemma h3_resolved : resolved h3 4 4.
Proof. by move=> [[|[|[|//]]] hi] [[|[|[|//]]] hj] //= _ []. Qed.
Lemma h3_opposite : opposite_closed h3.
Proof.
move=> [[|[|[|//]]] hi]; [exists (@Ordinal 3 0 isT)|exists (@Ordinal 3 2 isT)|exists (@Ordinal 3 1 isT)];
  by rewrite /h3 /=.
Qed.

Example minimises_inhabited (X : Type) (x0 : X) : exists m : (X -> R) -> X, minimises m.
Proof.
exists (fun f => match excluded_middle_informative (exists x, forall y, (f x <= f y)%Re) with
  | left e => proj1_sig (constructive_indefinite_description _ e) | right _ => x0 end).
move=> f e x; case: excluded_middle_informative => [e'|ne]; last by case: ne.
by case: (constructive_indefinite_description _ e') => y /= hy.
Qed.

Lemma stripes_nz : exists i j, stripes i j <> 0.
Proof. by exists ord0, ord0; rewrite mxE /= => /eqP; rewrite oner_eq0. Qed.

Example C92_case normalize minimize : exists t, opt_field h3 minimize normalize stripes = Ok t.
Proof.
have [H _] := @C92_accepts_partial 4 4 3 h3 minimize normalize stripes isT isT (@h3_indexed 4 isT) (@h3_indexed 4 isT) stripes_nz.
by apply: H; left.
Qed.

Example C93_case normalize : exists minimize, exists t, opt_field h3 minimize normalize stripes = Ok t /\
  forall i j, t.1 i j = 0%Re \/ (normalize = true /\ t.1 i j = 1%Re /\ t.2 i j = 0%Re).
Proof.
have [m hm] := minimises_inhabited ((0, 0) : 'rV[C]_3 * 'rV[C]_3); exists m.
have [t [et [_ ht]]] := @C93_lines 4 4 3 h3 m normalize stripes isT isT (or_introl (Logic.conj erefl isT))
  (@h3_indexed 4 isT) h3_resolved (@h3_indexed 4 isT) h3_opposite stripes_nz hm.
by exists t; split=> //; apply: ht => i j j'; rewrite !mxE.
Qed.

Print Assumptions C92_accepts_partial.
Print Assumptions C92_grid_refuted.
Print Assumptions C93_modulus.
Print Assumptions C93_attained.
Print Assumptions C93_direction.
Print Assumptions C93_lines.

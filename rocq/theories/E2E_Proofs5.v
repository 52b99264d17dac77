(** Whole simulations: which orders can carry power. *)
From Coq Require Import Reals ZArith String Lra.
From Verif Require Lattice_Model Lattice_Spec Lattice_Proofs Lattice_Proofs3 Props_Lattice Init_Model Init_Proofs Init_Proofs2.
From mathcomp Require Import all_ssreflect all_algebra.
From mathcomp Require Import complex.
From Verif Require Import RStruct Cplx Base Fourier_Model Sim_Model Setup_Model E2E_Model Energy_Spec Optics_Spec E2E_Spec Grating_Spec.
From Verif Require Import Energy_Proofs Energy_Proofs2 Props_Energy E2E_Proofs E2E_Proofs2.

Set Implicit Arguments.
Unset Strict Implicit.
Unset Printing Implicit Defensive.

Import Order.TTheory GRing.Theory Num.Theory.
Local Open Scope ring_scope.
Local Open Scope complex_scope.

Lemma dual_unique (a b c d p q r s x y u v : R) :
  (p * a + r * b = 2 * PI)%Re -> (q * c + s * d = 2 * PI)%Re -> (p * c + r * d = 0)%Re -> (q * a + s * b = 0)%Re ->
  (x * a + y * b = 2 * PI * u)%Re -> (x * c + y * d = 2 * PI * v)%Re ->
  x = (p * u + q * v)%Re /\ y = (r * u + s * v)%Re.
Proof.
move=> h1 h2 h3 h4 h5 h6; have pi := PI_RGT_0.
have e1 : ((x - (p * u + q * v)) * a + (y - (r * u + s * v)) * b = 0)%Re.
  transitivity ((x * a + y * b) - u * (p * a + r * b) - v * (q * a + s * b))%Re; [ring|rewrite h5 h1 h4; ring].
have e2 : ((x - (p * u + q * v)) * c + (y - (r * u + s * v)) * d = 0)%Re.
  transitivity ((x * c + y * d) - u * (p * c + r * d) - v * (q * c + s * d))%Re; [ring|rewrite h6 h3 h2; ring].
set X := (x - (p * u + q * v))%Re in e1 e2; set Y := (y - (r * u + s * v))%Re in e1 e2.
have D : ((a * d - b * c) * (p * s - q * r) = 2 * PI * (2 * PI))%Re.
  transitivity ((p * a + r * b) * (q * c + s * d) - (p * c + r * d) * (q * a + s * b))%Re; [ring|].
  by rewrite h1 h2 h3 h4; ring.
have D0 : (a * d - b * c <> 0)%Re by move=> z; rewrite z Rmult_0_l in D; nra.
have X0 : (X * (a * d - b * c) = 0)%Re.
  transitivity ((X * a + Y * b) * d - (X * c + Y * d) * b)%Re; [ring|rewrite e1 e2; ring].
have Y0 : (Y * (a * d - b * c) = 0)%Re.
  transitivity ((X * c + Y * d) * a - (X * a + Y * b) * c)%Re; [ring|rewrite e1 e2; ring].
have {}X0 : X = 0%Re by case: (Rmult_integral _ _ X0).
have {}Y0 : Y = 0%Re by case: (Rmult_integral _ _ Y0).
by split; move: X0 Y0; rewrite /X /Y; lra.
Qed.

Lemma sqrtE (e : R) : (0 < e)%Re -> Num.sqrt e = sqrt e :> R.
Proof.
move=> p; have h1 : (Num.sqrt e * Num.sqrt e)%Re = e.
  by have := sqr_sqrtr (ltW (introT (RltP _ _) p)); rewrite expr2.
by rewrite -[in RHS]h1 sqrt_square //; apply: Rlt_le; exact: Nsqrt_gt0.
Qed.

Section Sim.
Variables (Nx Ny : nat).
Hypotheses (Nx0 : (0 < Nx)%N) (Ny0 : (0 < Ny)%N).
Variable eig : forall m, 'M[C]_m -> 'rV[C]_m * 'M[C]_m.
Variable argsort : seq R -> seq nat.
Hypothesis hsort : Lattice_Model.argsort_ok argsort.
Variable tan : string -> 'M[C]_(Nx, Ny) -> res ('M[C]_(Nx, Ny) * 'M[C]_(Nx, Ny)).
Variable lattices : nat -> Lattice_Model.lattice.
Variables (l0 : user_layer Nx Ny) (rest : seq (user_layer Nx Ny)) (nh : Z) (form : string).
Notation lat := (lattices (ul_lat l0)).
Hypothesis hgen : Lattice_Proofs3.generates lat.
Hypothesis hnh : enough l0 rest nh.
Notation simulate pw := (simulate eig argsort tan lattices (l0 :: rest) pw nh form).
Variable pw : planewave.
Hypothesis lam : (0 < pw_lambda pw)%Re.
Hypothesis cth : (0 < cos (pw_theta pw))%Re.
Variables e0 eN : R.
Hypothesis e0p : (0 < e0)%Re.
Hypothesis he0 : li_eps (ul_body l0) = EpsUniform Nx Ny (rc e0).
Hypothesis heN : li_eps (ul_body (last l0 rest)) = EpsUniform Nx Ny (rc eN).

Lemma sim_grating out o x kx ky : simulate pw = Ok out -> List.In (o, x) out ->
  let L := Lattice_Model.lt_basis lat in
  grating_equation (pw_lambda pw) (pw_theta pw) (pw_phi pw) e0
    (Lattice_Model.m00 L) (Lattice_Model.m01 L) (Lattice_Model.m10 L) (Lattice_Model.m11 L) o kx ky ->
  [/\ (0 <= x.1)%Re, (0 <= x.2)%Re, evanescent (pw_lambda pw) e0 kx ky -> x.1 = 0%Re &
      evanescent (pw_lambda pw) eN kx ky -> x.2 = 0%Re].
Proof.
move=> hs hin L [g1 g2].
have [s [n [i0 [r [[hi _] sz [w1 w2 w3 w4] hr eo]]]]] := simulate_run hsort hgen hnh hs; subst out.
have el : Init_Model.sim_lattice s = lat by apply: (layers_lattice hi); left.
have hg' : Lattice_Proofs3.generates (Init_Model.sim_lattice s) by rewrite el.
have [_ [_ [_ [_ [_ [_ hrec]]]]]] := Init_Proofs2.init_facts hsort _ _ _ hi hg' (enoughP hnh).
rewrite el in hrec.
have [d1 [d2 [d3 d4]]] := @Props_Lattice.C01_duality _ _ hrec.
have [i [ho e1 e2]] := in_listing hin.
have heN' : li_eps (last (ul_body l0) (List.map (@ul_body Nx Ny) rest)) = EpsUniform Nx Ny (rc eN) by rewrite map_last.
have [p1 [p2 [p3 p4]]] := C29_nonneg lam cth w4 e0p he0 heN' hr i.
have [u1 u2] := dual_unique d1 d2 d3 d4 g1 g2.
have [b1 b2] : kx = bloch_x pw (recip_mx (Init_Model.sim_recip s)) e0 o /\ ky = bloch_y pw (recip_mx (Init_Model.sim_recip s)) e0 o.
  have sq : Num.sqrt (e0 : R_rcfType) = sqrt e0 by exact: sqrtE.
  rewrite /bloch_x /bloch_y !mxE /= sq; split.
  - by move: u1; move: (sqrt e0) => t; rfold => u1; lra.
  - by move: u2; move: (sqrt e0) => t; rfold => u2; lra.
rewrite ho in p3 p4; rewrite e1 e2; split=> //.
- move=> ev; apply: p3; rewrite /order_propagates -b1 -b2; move: ev; rewrite /evanescent; lra.
- move=> ev; apply: p4; rewrite /order_propagates -b1 -b2; move: ev; rewrite /evanescent; lra.
Qed.
End Sim.

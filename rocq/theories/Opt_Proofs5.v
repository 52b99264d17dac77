(** Whole simulations on grids the default tangent field refuses. *)
From Coq Require Import Reals ZArith String Classical.
From mathcomp Require Import all_ssreflect all_algebra.
From mathcomp Require Import complex.
From Verif Require Import RStruct Cplx Base Fourier_Model Fourier_Spec Sim_Model Tangent_Model Opt_Model Opt_Spec Opt_Proofs3.
From Verif Require Fourier_Proofs Tangent_Proofs.

Set Implicit Arguments.
Unset Strict Implicit.
Unset Printing Implicit Defensive.

Import Order.TTheory GRing.Theory Num.Theory.
Local Open Scope ring_scope.

Lemma opt_workable Nx Ny nh (h : 'I_nh -> order)
    (minimize : (('rV[C]_nh * 'rV[C]_nh) -> R) -> 'rV[C]_nh * 'rV[C]_nh) normalize (u : 'M[C]_(Nx, Ny)) t :
  opt_field h minimize normalize u = Ok t -> (1 < Nx)%N /\ (1 < Ny)%N /\ workable Nx Ny.
Proof.
move=> ho.
have hx : (1 < Nx)%N by case: (leqP Nx 1) => // l; move: ho; rewrite /opt_field l.
have hy : (1 < Ny)%N by case: (leqP Ny 1) => // l; move: ho; rewrite /opt_field l orbT.
split=> //; split=> //; apply: NNPP => nw.
case ok : (amps_ok h (minn (2 ^ 6) Nx) && amps_ok h (minn (2 ^ 6) Ny)); last first.
  by move: ho; rewrite /opt_field ok; case: ifP.
move/andP: ok => [okx oky].
have nx0 : (0 < minn (2 ^ 6) Nx)%N by rewrite leq_min /= ltnW.
have ny0 : (0 < minn (2 ^ 6) Ny)%N by rewrite leq_min /= ltnW.
move/(amps_okP _ nx0): okx => okx; move/(amps_okP _ ny0): oky => oky.
by have := not_workable minimize normalize u hx hy okx oky nw; rewrite ho.
Qed.

Section Build.
Variables (Nx Ny nh : nat) (h : 'I_nh -> order) (omega : R) (kx ky : 'rV[C]_nh).
Hypotheses (Nx0 : (0 < Nx)%N) (Ny0 : (0 < Ny)%N).

Lemma toeplitz_all (u v : 'M[C]_(Nx, Ny)) E : get_toeplitz h u = Ok E -> exists F, get_toeplitz h v = Ok F.
Proof.
rewrite /get_toeplitz.
case: (Fourier_Proofs.toeplitzP Nx0 Ny0 h u) => [[H _]|[_ ->]] // _.
by case: (Fourier_Proofs.toeplitzP Nx0 Ny0 h v) => [[_ ->]|[]] //; eexists.
Qed.

(** Given the tangent field, the operator of a vector formulation can be built. *)
Lemma vector_build tan (u : 'M[C]_(Nx, Ny)) t b N :
  build_matrix omega kx ky h (Original Nx Ny) 1 (EpsGrid u) = Ok b -> nu_hat_inv_iso h u = Ok N ->
  tan u = Ok t -> exists b', build_matrix omega kx ky h (TangentLike tan) 1 (EpsGrid u) = Ok b'.
Proof.
move=> hb hN ht; rewrite /build_matrix in hb *; ubind hb E hE; ubind hb Ei hEi.
rewrite hE; cbn [bind]; rewrite hEi; cbn [bind]; rewrite ht; cbn [bind]; rewrite hN; cbn [bind].
have [M1 e1] := toeplitz_all (Tangent_Proofs.pfun t.1 t.2 t.1 t.1) hE.
have [M2 e2] := toeplitz_all (Tangent_Proofs.pfun t.1 t.2 t.2 t.2) hE.
have [M3 e3] := toeplitz_all (Tangent_Proofs.pfun t.1 t.2 t.1 t.2) hE.
have [M4 e4] := toeplitz_all (Tangent_Proofs.pfun t.1 t.2 t.2 t.1) hE.
rewrite /get_Peps /proj_blocks; cbv zeta; rewrite /Tangent_Proofs.pfun in e1 e2 e3 e4.
by rewrite e1 e2 e3 e4; cbn [bind]; rewrite /assemble oner_eq0; eexists.
Qed.
End Build.

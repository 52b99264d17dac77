(** Reciprocity (properties C81 and C82). *)
From Coq Require Import Reals ZArith Lra Lia.
From mathcomp Require Import all_ssreflect all_algebra.
From mathcomp Require Import complex.
From Verif Require Import RStruct Cplx Base Fourier_Model Fourier_Spec Sim_Model Setup_Model Energy_Spec Recip_Spec.
From Verif Require Import Fourier_Proofs Aniso_Proofs Demo_Proofs Demo3_Proofs Recip_Proofs2 Recip_Proofs7 Recip_Proofs8 Props_Symm.

Set Implicit Arguments.
Unset Strict Implicit.
Unset Printing Implicit Defensive.

Import Order.TTheory GRing.Theory Num.Theory.
Local Open Scope ring_scope.
Local Open Scope complex_scope.

Section Recip.
Variables (Nx Ny nh : nat).
Hypotheses (Nx0 : (0 < Nx)%N) (Ny0 : (0 < Ny)%N).
Variable eig : forall m, 'M[C]_m -> 'rV[C]_m * 'M[C]_m.
Hypothesis eig_ok : forall m (A : 'M[C]_m), A *m (eig A).2 = (eig A).2 *m diag_mx (eig A).1.
(** harmonics: distinct, closed under negation, the incident wave is the order (0, 0) *)
Variables (rec : 'M[R]_2) (h : 'I_nh -> order) (form : formulation_t Nx Ny) (i0 : 'I_nh).
Hypothesis hform : plain_form form.
Hypothesis hinj : injective h.
Hypothesis hopp : opposite_closed h.
Hypothesis hi0 : h i0 = (0%Zc, 0%Zc).
(** any reciprocal layers, absorbing or not, on a lossless superstrate *)
Variables (l0 : layer_in Nx Ny) (rest : seq (layer_in Nx Ny)) (e0 : R).
Hypothesis e0p : (0 < e0)%Re.
Hypothesis he0 : li_eps l0 = EpsUniform Nx Ny (rc e0).
Hypothesis hrec : forall l, List.In l (l0 :: rest) -> reciprocal (li_eps l).
Variables pa pb pc pd : planewave.
Hypothesis lam : (0 < pw_lambda pa)%Re.
Hypothesis cth : (0 < cos (pw_theta pa))%Re.
Hypotheses (hab : crossed pb pa) (hcd : crossed pd pc).

(** ** C81: specular reflection is the same when light retraces its path *)
Theorem C81_reflection (eN : C) ra rb rc' rd :
  li_eps (last l0 rest) = EpsUniform Nx Ny eN -> reversed pc pa ->
  run_efficiencies eig pa rec h form (l0 :: rest) i0 = Ok ra ->
  run_efficiencies eig pb rec h form (l0 :: rest) i0 = Ok rb ->
  run_efficiencies eig pc rec h form (l0 :: rest) i0 = Ok rc' ->
  run_efficiencies eig pd rec h form (l0 :: rest) i0 = Ok rd ->
  (ra.1 i0 ord0 + rb.1 i0 ord0 = rc'.1 i0 ord0 + rd.1 i0 ord0)%Re.
Proof. by move=> heN hac; exact: (recip_reflection Nx0 Ny0 eig_ok hform hinj hopp hi0 e0p he0 heN hrec lam cth hab hac hcd). Qed.

(** ** C82: the zeroth order is transmitted equally from above and, upside down, from below *)
Theorem C82_transmission (eN : R) ra rb rc' rd :
  (0 < eN)%Re -> li_eps (last l0 rest) = EpsUniform Nx Ny (rc eN) ->
  (0 < cos (pw_theta pc))%Re -> reversed_below e0 eN pc pa ->
  run_efficiencies eig pa rec h form (l0 :: rest) i0 = Ok ra ->
  run_efficiencies eig pb rec h form (l0 :: rest) i0 = Ok rb ->
  run_efficiencies eig pc rec h form (rev (l0 :: rest)) i0 = Ok rc' ->
  run_efficiencies eig pd rec h form (rev (l0 :: rest)) i0 = Ok rd ->
  (ra.2 i0 ord0 + rb.2 i0 ord0 = rc'.2 i0 ord0 + rd.2 i0 ord0)%Re.
Proof. by move=> eNp heN ccp hac; exact: (recip_transmission Nx0 Ny0 eig_ok hform hinj hopp hi0 e0p eNp he0 heN hrec lam cth ccp hab hac hcd). Qed.
End Recip.
Print Assumptions C81_reflection.
Print Assumptions C82_transmission.

(** ** Cases: three orders, a patterned layer between permittivities 1 and 9 *)
Lemma trio_opp : opposite_closed trio.
Proof. by move=> i; exists (rev_ord i); rewrite trio_rev -trio_neg; cbn [fst snd]; congr pair; rewrite /trio; cbn [snd]; lia. Qed.

Example C81_case a : exists ra rb rc' rd,
  [/\ run3 (light 0 1) lattice trio (striped (stripes a)) = Ok ra,
      run3 (light 0 (1 + PI / 2)) lattice trio (striped (stripes a)) = Ok rb,
      run3 (light (0 + PI) 2) lattice trio (striped (stripes a)) = Ok rc' &
      run3 (light (0 + PI) (2 + PI / 2)) lattice trio (striped (stripes a)) = Ok rd] /\
  [/\ crossed (light 0 (1 + PI / 2)) (light 0 1), reversed (light (0 + PI) 2) (light 0 1) &
      crossed (light (0 + PI) (2 + PI / 2)) (light (0 + PI) 2)] /\
  (ra.1 mid ord0 + rb.1 mid ord0 = rc'.1 mid ord0 + rd.1 mid ord0)%Re.
Proof.
have [[ra ea] _] := light_runs 0 1 mid a (or_introl erefl).
have [[rb eb] _] := light_runs 0 (1 + PI / 2) mid a (or_introl erefl).
have [[rc' ec] _] := light_runs (0 + PI) 2 mid a (or_introl erefl).
have [[rd ed] _] := light_runs (0 + PI) (2 + PI / 2) mid a (or_introl erefl).
exists ra, rb, rc', rd; split=> //; split=> //.
have pos : (0 < 1 * 1)%Re by lra.
have lam : (0 < pw_lambda (light 0 1))%Re by rewrite /=; lra.
have cth : (0 < cos (pw_theta (light 0 1)))%Re by rewrite /= cos_0; lra.
apply: (@C81_reflection 6 1 3 isT isT demo_eig demo_eig_ok lattice trio (Original 6 1) mid I trio_inj trio_opp trio_mid
  (LayerIn (Some 1%Re) (EpsUniform 6 1 (rc (1 * 1)%Re)))
  [:: LayerIn (Some (1/5)%Re) (EpsGrid (stripes a)); LayerIn (Some 1%Re) (EpsUniform 6 1 (rc (3 * 3)%Re))]
  (1 * 1)%Re pos erefl _ (light 0 1) (light 0 (1 + PI / 2)) (light (0 + PI) 2) (light (0 + PI) (2 + PI / 2)) lam cth
  erefl erefl (rc (3 * 3)%Re) ra rb rc' rd erefl _ ea eb ec ed) => //.
by move=> l /= [<-|[<-|[<-|[]]]].
Qed.

Example C82_case a : exists ra rb rc' rd,
  [/\ run3 (light 0 1) lattice trio (striped (stripes a)) = Ok ra,
      run3 (light 0 (1 + PI / 2)) lattice trio (striped (stripes a)) = Ok rb,
      run3 (light (0 + PI) 2) lattice trio (rev (striped (stripes a))) = Ok rc' &
      run3 (light (0 + PI) (2 + PI / 2)) lattice trio (rev (striped (stripes a))) = Ok rd] /\
  reversed_below (1 * 1) (3 * 3) (light (0 + PI) 2) (light 0 1) /\
  (ra.2 mid ord0 + rb.2 mid ord0 = rc'.2 mid ord0 + rd.2 mid ord0)%Re.
Proof.
have [[ra ea] _] := light_runs 0 1 mid a (or_introl erefl).
have [[rb eb] _] := light_runs 0 (1 + PI / 2) mid a (or_introl erefl).
have lamb phi psi : (0 < pw_lambda (light phi psi))%Re by rewrite /=; lra.
have hx : forall i, (trio i).2 = 0%Zc /\ (-1 <= (trio i).1 <= 1)%Zc.
  by move=> i; rewrite /trio; cbn [fst snd]; have := @ord3_lt i; lia.
have hu := stripes_toep a trio_inj hx.
have up phi psi := @demo3_rev_eff 3 6 1 _ _ _ mid (lamb phi psi) erefl hx (proj2 lat01) (light_ok phi psi) 1 (1/5) 1 _ hu.
have [rc' ec] := up (0 + PI)%Re 2%Re; have [rd ed] := up (0 + PI)%Re (2 + PI / 2)%Re.
have rb' : reversed_below (1 * 1) (3 * 3) (light (0 + PI) 2) (light 0 1).
  by split=> //; split=> //; rewrite /= sin_0; ring.
exists ra, rb, rc', rd; split=> //; split=> //.
have pos : (0 < 1 * 1)%Re by lra.
have pos3 : (0 < 3 * 3)%Re by lra.
have cth phi psi : (0 < cos (pw_theta (light phi psi)))%Re by rewrite /= cos_0; lra.
apply: (@C82_transmission 6 1 3 isT isT demo_eig demo_eig_ok lattice trio (Original 6 1) mid I trio_inj trio_opp trio_mid
  (LayerIn (Some 1%Re) (EpsUniform 6 1 (rc (1 * 1)%Re)))
  [:: LayerIn (Some (1/5)%Re) (EpsGrid (stripes a)); LayerIn (Some 1%Re) (EpsUniform 6 1 (rc (3 * 3)%Re))]
  (1 * 1)%Re pos erefl _ (light 0 1) (light 0 (1 + PI / 2)) (light (0 + PI) 2) (light (0 + PI) (2 + PI / 2)) (lamb _ _) (cth _ _)
  erefl erefl (3 * 3)%Re ra rb rc' rd pos3 erefl _ rb' ea eb ec ed) => //.
by move=> l /= [<-|[<-|[<-|[]]]].
Qed.

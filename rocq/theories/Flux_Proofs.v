(** Power flow of the computed fields: its relation to the efficiencies and its
    conservation through lossless stacks. *)
From Coq Require Import Reals ZArith Lra Lia.
From mathcomp Require Import all_ssreflect all_algebra.
From mathcomp Require Import complex.
From Verif Require Import RStruct Cplx Cderiv Base Fourier_Model Fourier_Spec Sim_Model Sim_Spec Setup_Model.
From Verif Require Import SMat_Proofs SMat_Proofs2 SMat_Proofs3 Maxwell_Spec Modes_Proofs Maxwell_Proofs.
From Verif Require Import Fourier_Proofs Energy_Spec Energy_Proofs Energy_Proofs2 Energy_Proofs3 Basis_Proofs.
From Verif Require Import Run_Proofs Run_Proofs2 Orders_Proofs.

Set Implicit Arguments.
Unset Strict Implicit.
Unset Printing Implicit Defensive.

Import Order.TTheory GRing.Theory Num.Theory.
Local Open Scope ring_scope.
Local Open Scope complex_scope.

Section Flux.
Variables (Nx Ny nh : nat).
Hypotheses (Nx0 : (0 < Nx)%N) (Ny0 : (0 < Ny)%N).
Variable eig : forall m, 'M[C]_m -> 'rV[C]_m * 'M[C]_m.
Hypothesis eig_ok : forall m (A : 'M[C]_m), A *m (eig A).2 = (eig A).2 *m diag_mx (eig A).1.
Variable pw : planewave.
Hypothesis lam : (0 < pw_lambda pw)%Re.
Variable rec : 'M[R]_2.
Variable h : 'I_nh -> order.
Variable form : formulation_t Nx Ny.
Variable i0 : 'I_nh.
Notation w := (sim_omega pw).
Notation run_field := (run_field eig pw rec h form).

Lemma in_q (st : seq (slayer nh)) Sm l : smatrix st = Ok Sm -> List.In l st -> q_ok l.
Proof. by case: st => [|a s] // hS [<-|hin]; apply: (smatrix_q hS); [left|right]. Qed.

Lemma amps_q (st : seq (slayer nh)) k a0 p l : get_amplitudes st k a0 0 = Ok p -> List.In l st -> q_ok l.
Proof.
rewrite /get_amplitudes; case: ifP => [_ H|_]; first by ubind H Sm hS; exact: in_q hS.
case: ifP => [_ H|_ H]; first by ubind H Sm hS; exact: in_q hS.
ubind H Sm hS; ubind H P hP.
rewrite -(cat_take_drop k.+1 st) => hin0; have [hin|hin] := List.in_app_or _ _ _ hin0; first exact: in_q hS hin.
apply: in_q hP _; case: (ltnP k (size st)) => hk; last by rewrite drop_oversize // leqW in hin.
by have e := drop_nth l hk; rewrite e; right.
Qed.

Lemma gff_flux (omega : R) kx ky (st : seq (slayer nh)) k a0 z F : rc omega != 0 ->
  get_field_fourier omega kx ky st k a0 0 z = Ok F ->
  exists l ps, List.nth_error st k = Some l /\ solves omega st a0 0 ps /\ (forall l', List.In l' st -> q_ok l') /\
    (forall ps', solves omega st a0 0 ps' -> ps' = ps) /\
    total_flux F = lflux omega l (nth ((0, 0) : amp nh) ps k) z.
Proof.
move=> w0; rewrite /get_field_fourier; case hl: (List.nth_error st k) => [l|] // H; ubind H p hp; ubind H p' hp'.
have [hk [ps [hps [uniq ep]]]] := get_amplitudes_global w0 hp.
exists l, ps; split=> //; split=> //; split; first by move=> l'; exact: amps_q hp.
split=> //.
have nt : sl_thick l != None by move: hp'; rewrite /translate; case: (sl_thick l).
have [H1 E1] := field_modes nt hp' H.
by rewrite -tflux_fields H1 E1 ep.
Qed.

Variables (l0 : layer_in Nx Ny) (rest : seq (layer_in Nx Ny)) (e0 : R).
Hypothesis e0p : (0 < e0)%Re.
Hypothesis he0 : li_eps l0 = EpsUniform Nx Ny (rc e0).

Lemma field_st k z F : run_field (l0 :: rest) i0 k z = Ok F ->
  exists a st, pw_a0 pw = Ok a /\ solve_stack eig pw rec h form (rc e0) (l0 :: rest) = Ok st /\
  get_field_fourier w (sim_kx pw rec h (rc e0)) (sim_ky pw rec h (rc e0)) st k (sim_a0 i0 a) 0 z = Ok F.
Proof.
move=> hF; have [e0' [a [st [h1 [h2 [h3 h4]]]]]] := run_fieldP hF.
have e : e0' = rc e0 by move: h1; rewrite /first_eps he0 => -[].
by subst e0'; exists a, st.
Qed.

(** In a lossless stack the flux is the same at every height of every layer. *)
Lemma run_flux k k' z z' F F' : plain_form form ->
  (forall l, List.In l (l0 :: rest) -> lossless (li_eps l)) ->
  run_field (l0 :: rest) i0 k z = Ok F -> run_field (l0 :: rest) i0 k' z' = Ok F' ->
  total_flux F = total_flux F'.
Proof.
move=> hf hloss hF hF'; have w0 := w_neq0 lam.
have [a [st [h2 [h3 h4]]]] := field_st hF.
have [a' [st' [h2' [h3' h4']]]] := field_st hF'.
have ea : a' = a by move: h2'; rewrite h2 => -[].
subst a'; have es : st' = st by move: h3'; rewrite h3 => -[].
subst st'.
have [l [ps [hl [hps [hq [uniq ->]]]]]] := gff_flux w0 h4.
have [l' [ps' [hl' [hps' [_ [_ ->]]]]]] := gff_flux w0 h4'.
have e := uniq _ hps'; subst ps'.
have hok li sl : List.In li (l0 :: rest) -> solve_layer eig w (sim_kx pw rec h (rc e0)) (sim_ky pw rec h (rc e0))
     h form (li_thick li) 1 (li_eps li) = Ok sl -> lossless_modes sl.
  move=> hin; have [ekx eky] := sim_kE pw rec h e0p; rewrite ekx eky => hs.
  have rr (x : 'rV[R]_nh) i : conj (map_mx (real_complex R_rcfType) x ord0 i) = map_mx (real_complex R_rcfType) x ord0 i.
    by rewrite mxE; apply: rc_conj.
  exact: (lossless_layer w0 (rr _) (rr _) eig_ok Nx0 Ny0 hf (hloss _ hin) hs).
have hst sl : List.In sl st -> q_ok sl /\ lossless_modes sl.
  by move=> hin; split; [exact: hq|have [li [hli hs]] := mapr_in h3 hin; exact: hok hli hs].
case: hps => sol _.
have key j x : List.nth_error st j = Some x -> forall zz, lflux w x (nth ((0, 0) : amp nh) ps j) zz =
   lflux w (last x st) (last (0, 0) ps) 0.
  have gen : forall (sx : seq (slayer nh)) px y q, (forall sl, y = sl \/ List.In sl sx -> q_ok sl /\ lossless_modes sl) ->
     chain w y q sx px -> List.nth_error (y :: sx) j = Some x -> forall zz,
     lflux w x (nth ((0, 0) : amp nh) (q :: px) j) zz = lflux w (last y sx) (last q px) 0.
    elim: j => [|j IH] sx px y q hs hc.
      by move=> [<-] zz; apply: (chain_flux w0) hc _ _ => l1 [->|hin]; apply: hs; [left|right].
    case: sx px hs hc => [|c sx] [|b px] //= hs; first by case: (j).
    move=> [m hc] hj zz.
    by apply: (IH _ _ c b) => // sl [<-|hin]; apply: hs; right; [left|right].
  move: sol hst; case: (st) => [|y sx]; first by case: (j).
  case: (ps) => [|q px] // hc hst hj zz.
  exact: gen hj zz.
rewrite (key _ _ hl) (key _ _ hl').
by case: (st) hl => [|y sx] //=; case: (k).
Qed.

(** Power entering and leaving the stack, for any stack between lossless media. *)
Hypothesis cth : (0 < cos (pw_theta pw))%Re.
Hypothesis hi0 : h i0 = (0%Zc, 0%Zc).
Variables (eN : R) (r : effs nh).
Hypothesis heN : li_eps (last l0 rest) = EpsUniform Nx Ny (rc eN).
Hypothesis hr : run_efficiencies eig pw rec h form (l0 :: rest) i0 = Ok r.

Lemma run_flux_ends k z F : run_field (l0 :: rest) i0 k z = Ok F ->
  (k = 0%N -> total_flux F = (incident_flux pw (rc e0) * (1 - (total r).1))%Re) /\
  (k = size rest -> total_flux F = (incident_flux pw (rc e0) * (total r).2)%Re).
Proof.
move=> hF; have w0 := w_neq0 lam.
have [a [s0 [ss [ha [hst [he [h0 [hN hi]]]]]]]] := run_data lam cth hi0 e0p he0 heN hr.
have [a' [st [h2 [h3 h4]]]] := field_st hF.
have ea : a' = a by move: h2; rewrite ha => -[].
subst a'; have es : st = s0 :: ss by move: h3; rewrite hst => -[].
subst st.
have [Sm [hS [q0 [qN [f0 [hR hT]]]]]] := eff_data h0 hN hi he.
have [l [ps [hl [hps [hq [uniq ->]]]]]] := gff_flux w0 h4.
have [aN b0] := smatrix_sound w0 hS hps.
have hsz := is_solution_size hps.1; case: hps => sol [e1 e2].
have ninc : no_cross w (rkx pw rec h e0) (rky pw rec h e0) e0 (sim_a0 i0 a) (solve_ext Sm (sim_a0 i0 a) 0).2.
  by move=> i; case: (hi i); [left|right; left].
split=> hk; subst k.
- have el : s0 = l by move: hl => /= [].
  subst l; rewrite -head_nth [head _ _]surjective_pairing e1 b0 (lflux_uniform w0 h0) //.
  rewrite sumrB.
  have -> : \sum_i ff w (rkx pw rec h e0) (rky pw rec h e0) e0 (sim_a0 i0 a) i = incident_flux pw (rc e0).
    rewrite (bigD1 i0) //= big1 ?addr0 ?(i0_flux lam cth hi0 e0p ha h0) // => i ni.
    by apply: ff_zero; rewrite /up /dn /sim_a0 ?col_mxEu ?col_mxEd mxE (negPf ni).
  have -> : (total r).1 = \sum_i (ff w (rkx pw rec h e0) (rky pw rec h e0) e0 (solve_ext Sm (sim_a0 i0 a) 0).2 i / incident_flux pw (rc e0)).
    by apply: eq_bigr => i _; rewrite hR.
  rewrite -mulr_suml; move: (incident_flux pw (rc e0)) f0 => f f0 /=.
  move: (\sum_i _) => X; rewrite -R_invE //; rfold; field; exact: f0.
- have el : last s0 ss = l.
    have e : size ss = size rest by have := mapr_size hst => /= -[].
    by move: hl; rewrite -e nth_error_last => -[].
  have e : size rest = (size ps).-1 by have := mapr_size hst; rewrite hsz /= => -[].
  subst l; rewrite e nth_last [last (0, 0) ps]surjective_pairing aN e2 (lflux_uniform w0 hN) //; last first.
    by move=> i; right; right; rewrite /up /dn !mxE.
  rewrite sumrB [X in _ - X]big1 ?subr0; last by move=> i _; apply: ff_zero; rewrite /up /dn mxE.
  have -> : (total r).2 = \sum_i (ff w (rkx pw rec h e0) (rky pw rec h e0) eN (solve_ext Sm (sim_a0 i0 a) 0).1 i / incident_flux pw (rc e0)).
    by apply: eq_bigr => i _; rewrite hT.
  rewrite -mulr_suml; move: (incident_flux pw (rc e0)) f0 => f f0 /=.
  move: (\sum_i _ : R) => X; rewrite -R_invE //; change (@eq R X (Rmult f (Rmult X (Rinv f)))); field; exact: f0.
Qed.
End Flux.

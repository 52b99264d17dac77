(** Absorbed power: runs. *)
From Coq Require Import Reals ZArith Lra Ranalysis FunctionalExtensionality.
From mathcomp Require Import all_ssreflect all_algebra.
From mathcomp Require Import complex.
From Verif Require Import RStruct Cplx Cderiv Base Fourier_Model Fourier_Spec Sim_Model Sim_Spec Setup_Model.
From Verif Require Import SMat_Proofs SMat_Proofs2 SMat_Proofs3 Maxwell_Spec Modes_Proofs Maxwell_Proofs.
From Verif Require Import Fourier_Proofs Energy_Spec Energy_Proofs Energy_Proofs2 Energy_Proofs3 Run_Proofs Flux_Proofs.
From Verif Require Import Grid_Model Grid_Spec Grid_Proofs Stress_Proofs Passive_Spec Passive_Proofs Absorb_Spec Absorb_Proofs.

Set Implicit Arguments.
Unset Strict Implicit.
Unset Printing Implicit Defensive.

Import Order.TTheory GRing.Theory Num.Theory.
Local Open Scope ring_scope.
Local Open Scope complex_scope.

Section Runs.
Variables (Nx Ny nh : nat).
Hypotheses (Nx0 : (0 < Nx)%N) (Ny0 : (0 < Ny)%N).
Variable eig : forall m, 'M[C]_m -> 'rV[C]_m * 'M[C]_m.
Hypothesis eig_ok : forall m (A : 'M[C]_m), A *m (eig A).2 = (eig A).2 *m diag_mx (eig A).1.
Variable pw : planewave.
Hypothesis lam : (0 < pw_lambda pw)%Re.
Variables (rec : 'M[R]_2) (h : 'I_nh -> order) (i0 : 'I_nh).
Hypothesis hres : resolved h Nx Ny.
Notation form := (Original Nx Ny).
Notation w := (sim_omega pw).
Notation run_field := (run_field eig pw rec h form).
Variables (l0 : layer_in Nx Ny) (rest : seq (layer_in Nx Ny)) (e0 : R).
Hypothesis e0p : (0 < e0)%Re.
Hypothesis he0 : li_eps l0 = EpsUniform Nx Ny (rc e0).
Notation kx := (sim_kx pw rec h (rc e0)).
Notation ky := (sim_ky pw rec h (rc e0)).

(** The matrix of the layer and its fields at all heights *)
Lemma layer_data k li z F0 : List.nth_error (l0 :: rest) k = Some li -> isotropic (li_eps li) ->
  run_field (l0 :: rest) i0 k z = Ok F0 ->
  exists M F, M \in unitmx /\
    (forall e, li_eps li = EpsUniform Nx Ny e -> M = e%:M) /\
    (forall u, li_eps li = EpsGrid u -> get_toeplitz h u = Ok M) /\
    (forall z, maxwell_at w kx ky F (M *m f_ex (F z)) (M *m f_ey (F z)) (M *m f_ez (F z)) z) /\
    (forall z, run_field (l0 :: rest) i0 k z = Ok (F z)).
Proof.
move=> hk hiso hF0; have w0 := w_neq0 lam.
have [a [st [h2 [h3 h4]]]] := field_st he0 hF0.
have [l [hl hs]] := mapr_nth h3 hk.
have H := h4; rewrite /get_field_fourier hl in H; ubind H p hp; ubind H p' hp'.
have [F hFF] := field_all_z hp' H.
have hs' := hs; rewrite /solve_layer in hs'; ubind hs' b hb.
have hm z1 := maxwell_layer w0 eig_ok z1 hb hs hFF.
have [uM _] := Qeps_layer w0 eig_ok hb hs.
have hne u : li_eps li = EpsGrid u -> get_toeplitz h u = Ok (layer_epsz (li_eps li) b) /\
    layer_Peps (li_eps li) b = block_mx (layer_epsz (li_eps li) b) 0 0 (layer_epsz (li_eps li) b).
  move=> e; rewrite e in hb *.
  rewrite /build_matrix in hb; ubind hb eh he; ubind hb ehi hi; ubind hb P hP.
  have [hQ [h1 [h2' h3']]] := assembleP w0 hb.
  by rewrite /layer_epsz /layer_Peps h1 h2' /=; case: hP => <-.
have hP (v : 'cV[C]_(nh + nh)) : layer_Peps (li_eps li) b *m v =
   col_mx (layer_epsz (li_eps li) b *m usubmx v) (layer_epsz (li_eps li) b *m dsubmx v).
  move: hiso hne {hs' hs hb hm uM}; case: (li_eps li) => [e|u|u|e] // _ hne.
  - by rewrite /= !mul_scalar_mx -scale_col_mx vsubmxK.
  - by have [_ ->] := hne u erefl; rewrite -[v in LHS]vsubmxK mul_block_col !mul0mx addr0 add0r.
have hz1 z1 : get_field_fourier w kx ky st k (sim_a0 i0 a) 0 z1 = Ok (F z1).
  by rewrite /get_field_fourier hl hp /=; apply: hFF.
have hmx z1 : maxwell_at w kx ky F (layer_epsz (li_eps li) b *m f_ex (F z1))
    (layer_epsz (li_eps li) b *m f_ey (F z1)) (layer_epsz (li_eps li) b *m f_ez (F z1)) z1.
  move: (hm z1); cbv zeta; rewrite hP !col_mxKu !col_mxKd.
  by rewrite mulmxN opprK.
exists (layer_epsz (li_eps li) b), F; split=> //; split; first by move=> e ->.
split; first by move=> u /hne [].
split=> // z1.
by rewrite /Setup_Model.run_field he0 /= h2 /= h3 /= hz1.
Qed.

Lemma Im_sum (I : Type) (r : seq I) (f : I -> C) : complex.Im (\sum_(i <- r) f i) = \sum_(i <- r) complex.Im (f i).
Proof. by elim: r => [|i r IH]; rewrite ?big_nil ?big_cons //= -IH Im_add. Qed.
Lemma Im_divn (a : C) n : complex.Im (a / n%:R) = complex.Im a / n%:R.
Proof.
case: n => [|n]; first by rewrite !invr0 !mulr0.
have -> : (n.+1%:R : C) = rc (n.+1%:R) by rewrite rmorph_nat.
have hn : (n.+1%:R <> 0 :> R)%Re by apply: Rgt_not_eq; apply/RltP; rewrite ltr0n.
move: (n.+1%:R : R) hn => x hx; rewrite rcV // mulrC Im_rcM mulrC; case: a => a1 a2 /=; rfold.
congr Rmult; rewrite -[x^-1]/(Rinvx x) /Rinvx ifT //; exact/eqP.
Qed.

Lemma work_loss (eps : eps_t Nx Ny) M F z : isotropic eps ->
  (forall e, eps = EpsUniform Nx Ny e -> M = e%:M) ->
  (forall u, eps = EpsGrid u -> get_toeplitz h u = Ok M) ->
  complex.Im (work M F z) = loss h (eps_im eps) (F z).
Proof.
have key (u : 'M[C]_(Nx, Ny)) (G : fields nh) (N : 'M[C]_nh) :
  (forall v, dot (N *m v) v = (\sum_x \sum_y u x y * cell_value h v x y * conj (cell_value h v x y)) / (Nx * Ny)%:R) ->
  complex.Im (dot (N *m f_ex G) (f_ex G) + dot (N *m f_ey G) (f_ey G) + dot (N *m f_ez G) (f_ez G)) =
  loss h (fun x y => complex.Im (u x y)) G.
  move=> hN; rewrite !hN -!mulrDl Im_divn -!big_split /loss; congr (_ / _).
  rewrite Im_sum; apply: eq_bigr => x _; rewrite -!big_split Im_sum; apply: eq_bigr => y _ /=.
  have e : mod2 = sqn by [].
  rewrite !Im_add !Im_sqn /intensity e.
  by move: (complex.Im _ : R) (sqn _) (sqn _) (sqn _) => i a b c; rfold; ring.
case: eps => [e|u|u|e] // _ hu hg; rewrite /work.
- rewrite (hu e erefl) (key (const_mx e)).
    by congr (_ / _); apply: eq_bigr => x _; apply: eq_bigr => y _; rewrite mxE.
  move=> v; rewrite mul_scalar_mx dotZl.
  have := parseval Nx0 Ny0 hres v v; rewrite /mean => e1.
  rewrite -[dot v v]/(\sum_i v i ord0 * conj (v i ord0)) -e1 mulrA; congr (_ / _).
  rewrite mulr_sumr; apply: eq_bigr => x _; rewrite mulr_sumr; apply: eq_bigr => y _.
  by rewrite !mxE mulrA.
- by rewrite (key u) // => v; exact: toeplitz_form (hg u erefl).
Qed.

Lemma layer_absorbs k li z F0 : List.nth_error (l0 :: rest) k = Some li -> isotropic (li_eps li) ->
  run_field (l0 :: rest) i0 k z = Ok F0 ->
  exists F, (forall z, run_field (l0 :: rest) i0 k z = Ok (F z)) /\
  forall a b, (a <= b)%Re ->
    integral (fun z => w * loss h (eps_im (li_eps li)) (F z))%Re a b (total_flux (F a) - total_flux (F b)).
Proof.
move=> hk hiso hF; have w0 := w_neq0 lam.
have [M [F [uM [hu [hg [hm hr]]]]]] := layer_data hk hiso hF.
exists F; split=> // a b ab.
have [ekx eky] := sim_kE pw rec h e0p.
have rr (v : 'rV[R]_nh) i : conj (map_mx (real_complex R_rcfType) v ord0 i) = map_mx (real_complex R_rcfType) v ord0 i.
  by rewrite mxE; apply: rc_conj.
have hx i : conj (kx ord0 i) = kx ord0 i by rewrite ekx.
have hy i : conj (ky ord0 i) = ky ord0 i by rewrite eky.
have := poynting_theorem w0 hx hy uM hm ab.
by have -> : (fun z => w * complex.Im (work M F z))%Re = (fun z => w * loss h (eps_im (li_eps li)) (F z))%Re
  by apply: functional_extensionality=> t; rewrite (work_loss F t hiso hu hg).
Qed.

(** The whole stack *)
Hypothesis cth : (0 < cos (pw_theta pw))%Re.
Hypothesis hi0 : h i0 = (0%Zc, 0%Zc).
Variables (eN : R) (r : effs nh).
Hypothesis heN : li_eps (last l0 rest) = EpsUniform Nx Ny (rc eN).
Hypothesis hr : run_efficiencies eig pw rec h form (l0 :: rest) i0 = Ok r.
Hypothesis hiso : forall l, List.In l (l0 :: rest) -> isotropic (li_eps l).
Variable t : nat -> R.
Hypothesis ht : forall k l, List.nth_error (l0 :: rest) k = Some l -> li_thick l = Some (t k) /\ (0 <= t k)%Re.
Variable F : nat -> R -> fields nh.
Hypothesis hF : forall k z, (k <= size rest)%N -> run_field (l0 :: rest) i0 k z = Ok (F k z).
Variable A : nat -> R.
Hypothesis hA : forall k l, (0 < k < size rest)%N -> List.nth_error (l0 :: rest) k = Some l ->
  integral (fun z => w * loss h (eps_im (li_eps l)) (F k z))%Re 0 (t k) (A k).

Lemma stack_absorbs : (0 < size rest)%N ->
  (incident_flux pw (rc e0) * (1 - (total r).1 - (total r).2) = \sum_(1 <= k < size rest) A k)%Re.
Proof.
move=> s0.
have nth k : (k <= size rest)%N -> exists l, List.nth_error (l0 :: rest) k = Some l.
  move=> hk; case e : (List.nth_error (l0 :: rest) k) => [l|]; first by exists l.
  by move/List.nth_error_None: e => /=; move/ssrnat.leP; rewrite ltnNge -[length rest]/(size rest) hk.
have cont k : (k < size rest)%N -> total_flux (F k (t k)) = total_flux (F k.+1 0%Re).
  move=> hk; have [l hl] := nth _ (ltnW hk).
  have [c1 c2 c3 c4] := run_continuous eig_ok hl (ht hl).1 (hF _ (ltnW hk)) (hF _ hk).
  by rewrite /total_flux /order_flux c1 c2 c3 c4.
have hAk k : (0 < k < size rest)%N -> A k = (total_flux (F k 0) - total_flux (F k.+1 0))%Re.
  move=> hk; have [/andP [k0 k1]] := Logic.conj hk hk => _.
  have [l hl] := nth _ (ltnW k1).
  have [F' [hF' hint]] := layer_absorbs hl (hiso (List.nth_error_In _ _ hl)) (hF 0%Re (ltnW k1)).
  have eF z : F' z = F k z by move: (hF' z); rewrite (hF z (ltnW k1)) => -[].
  have eF' : F' = F k by apply: functional_extensionality.
  subst F'; rewrite -cont //.
  by apply: (integral_unique (hA hk hl)); apply: hint; exact: (ht hl).2.
have tel n : (n < size rest)%N -> \sum_(1 <= k < n.+1) A k = (total_flux (F 1%N 0) - total_flux (F n.+1 0))%Re.
  elim: n => [|n IH] hn; first by rewrite big_nil; rfold; ring.
  by rewrite big_nat_recr //= IH ?(ltnW hn) // hAk ?hn //; rfold; ring.
have e1 : (total_flux (F 1%N 0) = incident_flux pw (rc e0) * (1 - (total r).1))%Re.
  rewrite -cont //; have [h1 _] := run_flux_ends lam e0p he0 cth hi0 heN hr (hF (t 0%N) (leq0n _)).
  exact: h1.
have e2 : (total_flux (F (size rest) 0) = incident_flux pw (rc e0) * (total r).2)%Re.
  by have [_ h1] := run_flux_ends lam e0p he0 cth hi0 heN hr (hF 0%Re (leqnn _)); exact: h1.
case es : (size rest) s0 => [//|n] _.
rewrite tel ?es // e1 -es e2; ring.
Qed.
End Runs.

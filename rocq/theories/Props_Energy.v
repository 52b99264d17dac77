(** Power: Poynting flux, energy conservation, efficiencies, the incident wave,
    complex order amplitudes (properties C27 to C31, C55, C56). *)
From Coq Require Import Reals ZArith Lra Lia String.
From mathcomp Require Import all_ssreflect all_algebra.
From mathcomp Require Import complex.
From Verif Require Import RStruct Cplx Cderiv Base Fourier_Model Fourier_Spec Sim_Model Sim_Spec Setup_Model.
From Verif Require Import Energy_Spec Optics_Spec Orders_Model.
From Verif Require Import SMat_Proofs SMat_Proofs2 SMat_Proofs3 Fourier_Proofs Energy_Proofs Energy_Proofs2 Energy_Proofs3.
From Verif Require Import Run_Proofs Run_Proofs2 Orders_Proofs Diag_Proofs Aniso_Proofs Demo_Proofs Flux_Proofs.

Set Implicit Arguments.
Unset Strict Implicit.
Unset Printing Implicit Defensive.

Import Order.TTheory GRing.Theory Num.Theory.
Local Open Scope ring_scope.
Local Open Scope complex_scope.

(** ** C27 *)
(** The two parts returned by get_z_poynting_flux add up to the flux of the field. *)
Theorem C27_poynting_parts (nh : nat) (omega : R) (kx ky : 'rV[C]_nh) (l : slayer nh) a b F i :
  field_of omega kx ky l (a, b) = Ok F ->
  (poynting omega l a b).1 i ord0 + (poynting omega l a b).2 i ord0 = order_flux F i.
Proof. by move=> hF; exact: (poynting_field i hF). Qed.
Print Assumptions C27_poynting_parts.

Section Runs.
Variables (Nx Ny nh : nat).
Hypotheses (Nx0 : (0 < Nx)%N) (Ny0 : (0 < Ny)%N).
(** the eigensolver, with its contract *)
Variable eig : forall m, 'M[C]_m -> 'rV[C]_m * 'M[C]_m.
Hypothesis eig_ok : forall m (A : 'M[C]_m), A *m (eig A).2 = (eig A).2 *m diag_mx (eig A).1.
Variable pw : planewave.
Hypothesis lam : (0 < pw_lambda pw)%Re.
Hypothesis cth : (0 < cos (pw_theta pw))%Re.
Variables (rec : 'M[R]_2) (h : 'I_nh -> order) (form : formulation_t Nx Ny) (i0 : 'I_nh).
Hypothesis hi0 : h i0 = (0%Zc, 0%Zc).
Notation run_eff := (run_efficiencies eig pw rec h form).
Notation run_field := (run_field eig pw rec h form).

(** outer media: uniform and lossless *)
Variables (l0 : layer_in Nx Ny) (rest : seq (layer_in Nx Ny)) (e0 eN : R).
Hypothesis e0p : (0 < e0)%Re.
Hypothesis he0 : li_eps l0 = EpsUniform Nx Ny (rc e0).
Hypothesis heN : li_eps (last l0 rest) = EpsUniform Nx Ny (rc eN).

Lemma bloch_rkx i : rkx pw rec h e0 ord0 i = bloch_x pw rec e0 (h i) /\
  rky pw rec h e0 ord0 i = bloch_y pw rec e0 (h i).
Proof. by rewrite !mxE /bloch_x /bloch_y /pw_kx /pw_ky /pw_k0; split; rfold; field; lra. Qed.

(** In a lossless stack the flux is the same at all heights of all layers. *)
Theorem C27_flux_conserved k k' z z' F F' : plain_form form ->
  (forall l, List.In l (l0 :: rest) -> lossless (li_eps l)) ->
  run_field (l0 :: rest) i0 k z = Ok F -> run_field (l0 :: rest) i0 k' z' = Ok F' ->
  total_flux F = total_flux F'.
Proof. by move=> hf hl; exact: (run_flux Nx0 Ny0 eig_ok lam e0p he0 hf hl). Qed.

Variable r : effs nh.
Hypothesis hr : run_eff (l0 :: rest) i0 = Ok r.

(** ** C28 *)
Theorem C28_energy : plain_form form ->
  (forall l, List.In l (l0 :: rest) -> lossless (li_eps l)) ->
  \sum_i r.1 i ord0 + \sum_i r.2 i ord0 = 1.
Proof. by move=> hf hl; exact: (run_sum Nx0 Ny0 eig_ok lam cth hi0 e0p he0 heN hr hf hl). Qed.

(** ** C29 *)
Theorem C29_nonneg i :
  (0 <= r.1 i ord0)%Re /\ (0 <= r.2 i ord0)%Re /\
  (~ order_propagates pw rec e0 e0 (h i) -> r.1 i ord0 = 0) /\
  (~ order_propagates pw rec e0 eN (h i) -> r.2 i ord0 = 0).
Proof.
have [p1 [p2 [p3 p4]]] := run_ge0 lam cth hi0 e0p he0 heN hr i.
have [ex ey] := bloch_rkx i.
have E e : propagating e (sim_omega pw) (rkx pw rec h e0 ord0 i) (rky pw rec h e0 ord0 i) ->
   order_propagates pw rec e0 e (h i).
  rewrite /propagating /order_propagates ex ey /sim_omega /pw_k0.
  have -> : (2 * PI * (1 / pw_lambda pw) = 2 * PI / pw_lambda pw)%Re by field; lra.
  lra.
by split=> //; split=> //; split=> hp; [apply: p3|apply: p4] => /E.
Qed.

Theorem C29_at_most_one i : plain_form form ->
  (forall l, List.In l (l0 :: rest) -> lossless (li_eps l)) ->
  (r.1 i ord0 <= 1)%Re /\ (r.2 i ord0 <= 1)%Re /\
  (0 <= \sum_i r.1 i ord0 <= 1)%Re /\ (0 <= \sum_i r.2 i ord0 <= 1)%Re.
Proof.
move=> hf hl; have [h1 h2] := run_le1 Nx0 Ny0 eig_ok lam cth hi0 e0p he0 heN hr i hf hl.
have hs := C28_energy hf hl.
have g1 : (0 <= \sum_i r.1 i ord0)%Re.
  by apply/RleP/sumr_ge0 => j _; apply/RleP; have [] := C29_nonneg j.
have g2 : (0 <= \sum_i r.2 i ord0)%Re.
  by apply/RleP/sumr_ge0 => j _; apply/RleP; have [_ []] := C29_nonneg j.
by split=> //; split=> //; move: hs g1 g2; move: (\sum_i _ : R) (\sum_i _ : R) => x y; rfold => *; lra.
Qed.

(** ** C56 *)
(** The flux of the computed fields above and below the structure gives R and T;
    their difference is the power lost inside, whatever is between. *)
Theorem C56_field_flux k z F : run_field (l0 :: rest) i0 k z = Ok F ->
  let inc := (cos (pw_theta pw) / Num.sqrt e0)%Re in
  (k = 0%N -> total_flux F = (inc * (1 - \sum_i r.1 i ord0))%Re) /\
  (k = size rest -> total_flux F = (inc * \sum_i r.2 i ord0)%Re).
Proof.
move=> hF inc; have := run_flux_ends lam e0p he0 cth hi0 heN hr hF.
by rewrite flux_E.
Qed.
End Runs.
Print Assumptions C27_flux_conserved.
Print Assumptions C28_energy.
Print Assumptions C29_nonneg.
Print Assumptions C29_at_most_one.
Print Assumptions C56_field_flux.

(** ** C30 *)
Theorem C30_planewave (wavelength theta_deg phi_deg psi_deg : R) :
  let pw := mk_planewave wavelength theta_deg phi_deg psi_deg in
  let theta := (theta_deg * (PI / 180))%Re in
  (0 < wavelength)%Re -> (0 < cos theta)%Re ->
  (* wavevector: direction (theta, phi), length 2 pi / wavelength *)
  (pw_kx pw * pw_kx pw + pw_ky pw * pw_ky pw + pw_kz pw * pw_kz pw =
     (2 * PI / wavelength) * (2 * PI / wavelength))%Re /\
  (* unit amplitude, orthogonal to the wavevector *)
  (pw_cx pw * pw_cx pw + pw_cy pw * pw_cy pw + pw_cz pw * pw_cz pw = 1)%Re /\
  (pw_kx pw * pw_cx pw + pw_ky pw * pw_cy pw + pw_kz pw * pw_cz pw = 0)%Re /\
  (* the amplitudes are the tangential magnetic field (k x E)/k0, of flux cos theta *)
  exists a, pw_a0 pw = Ok a /\
    a.1 = ((pw_ky pw * pw_cz pw - pw_kz pw * pw_cy pw) / (2 * PI / wavelength))%Re /\
    a.2 = ((pw_kz pw * pw_cx pw - pw_kx pw * pw_cz pw) / (2 * PI / wavelength))%Re /\
    (pw_cx pw * a.2 - pw_cy pw * a.1 = cos theta)%Re.
Proof.
move=> pw theta lam cth.
have hk0 : pw_k0 pw = (2 * PI / wavelength)%Re by rewrite /pw_k0 /=; field; lra.
have k0p : (0 < pw_k0 pw)%Re by apply: k0_pos.
have hkz : pw_kz pw = (pw_k0 pw * cos theta)%Re by [].
split; first exact: (pw_knorm pw).
split; first exact: pw_unit.
split; first exact: pw_orth.
have [a ha] : exists a, pw_a0 pw = Ok a by apply: pw_a0_ok.
exists a; split=> //; have [e1 e2] : _ /\ _ := pw_a0_H (lam : (0 < pw_lambda pw)%Re) (cth : (0 < cos (pw_theta pw))%Re) ha.
rewrite -hk0; split=> //; split=> //.
have hu := pw_unit pw; have ho := pw_orth pw; rewrite e1 e2.
have -> : cos theta = (pw_kz pw / pw_k0 pw)%Re by rewrite hkz; field; lra.
move: hu ho k0p {e1 e2 hkz hk0}; move: (pw_cx pw) (pw_cy pw) (pw_cz pw) (pw_kx pw) (pw_ky pw) (pw_kz pw) (pw_k0 pw).
move=> cx cy cz kx ky kz k hu ho hk.
have e : (kz = kz * (cx * cx + cy * cy + cz * cz) - cz * (kx * cx + ky * cy + kz * cz))%Re by rewrite hu ho; ring.
rewrite [in RHS]e; field; lra.
Qed.
Print Assumptions C30_planewave.

Example C30_case : let theta := (60 * (PI / 180))%Re in (0 < 1)%Re /\ (0 < cos theta)%Re.
Proof.
split; first lra.
have -> : (60 * (PI / 180) = PI / 3)%Re by field.
by rewrite cos_PI3; lra.
Qed.

(** ** C31 *)
Section Complex.
Variables (Nx Ny nh : nat).
Variable eig : forall m, 'M[C]_m -> 'rV[C]_m * 'M[C]_m.
Variable pw : planewave.
Hypothesis lam : (0 < pw_lambda pw)%Re.
Hypothesis cth : (0 < cos (pw_theta pw))%Re.
Variables (rec : 'M[R]_2) (h : 'I_nh -> order) (form : formulation_t Nx Ny) (i0 : 'I_nh).
Hypothesis hi0 : h i0 = (0%Zc, 0%Zc).
Variables (l0 : layer_in Nx Ny) (rest : seq (layer_in Nx Ny)) (e0 eN : R).
Hypothesis e0p : (0 < e0)%Re.
Hypothesis he0 : li_eps l0 = EpsUniform Nx Ny (rc e0).
Hypothesis heN : li_eps (last l0 rest) = EpsUniform Nx Ny (rc eN).

Theorem C31_complex_orders names rv tv :
  name_index "Superstrate" names = Ok 0%N -> name_index "Substrate" names = Ok (size rest) ->
  run_complex eig pw rec h form names (l0 :: rest) i0 = Ok (rv, tv) ->
  exists r, run_efficiencies eig pw rec h form (l0 :: rest) i0 = Ok r /\
  forall i, r.1 i ord0 = (sqmod (v_x rv i ord0) + sqmod (v_y rv i ord0) + sqmod (v_z rv i ord0))%Re /\
            r.2 i ord0 = (sqmod (v_x tv i ord0) + sqmod (v_y tv i ord0) + sqmod (v_z tv i ord0))%Re.
Proof.
move=> h1 h2 h3; have [r [hr H]] := run_complex_eff lam cth hi0 e0p he0 heN h1 h2 h3.
by exists r; split=> // i; have [<- <-] := H i.
Qed.

(** The amplitudes are available whenever the fields of the outer layers are. *)
Theorem C31_available names Fr Ft :
  name_index "Superstrate" names = Ok 0%N -> name_index "Substrate" names = Ok (size rest) ->
  run_field eig pw rec h form (l0 :: rest) i0 0 0 = Ok Fr ->
  run_field eig pw rec h form (l0 :: rest) i0 (size rest) 0 = Ok Ft ->
  exists rv tv, run_complex eig pw rec h form names (l0 :: rest) i0 = Ok (rv, tv).
Proof.
move=> h1 h2 h3 h4; rewrite /run_complex he0 heN !bindE.
have [s ->] := norma_ok lam cth rec hi0 e0p eN; have [s' ->] := norma_ok lam cth rec hi0 e0p e0.
by rewrite !bindE h2 bindE h4 bindE h1 bindE h3 bindE; do 2!eexists.
Qed.

(** ** C55 *)
(** Any other names make the same query fail. *)
Theorem C55_names_refuted names : ~ List.In "Substrate"%string names ->
  exists e, run_complex eig pw rec h form names (l0 :: rest) i0 = Err e.
Proof.
move=> hn.
have hi : exists e, name_index "Substrate" names = Err e.
  elim: names hn => [|n ns IH] hn; first by exists ValueError.
  rewrite /=; case: String.eqb_spec => e; first by case: hn; left.
  by have [x ->] : exists e, name_index "Substrate" ns = Err e; [apply: IH => H; apply: hn; right|exists x].
have [x hx] := hi; rewrite /run_complex he0 heN /=.
case: (norma _ _ _ _ _) => [a|e] /=; last by exists e.
case: (norma _ _ _ _ _) => [b|e] /=; last by exists e.
by rewrite hx; exists x.
Qed.
End Complex.
Print Assumptions C31_complex_orders.
Print Assumptions C31_available.
Print Assumptions C55_names_refuted.

(** ** Concrete cases: vacuum, a patterned layer with permittivities 2 and 6, a
    substrate of permittivity 9 *)
Notation demo_run_field k z :=
  (run_field demo_eig demo_pw demo_rec demo_h (Original 2 2) (demo_layers demo_grid) ord0 k z).

Lemma demo_lossless l : List.In l (demo_layers demo_grid) -> lossless (li_eps l).
Proof.
have rr (x : R) : conj (rc x) = rc x by apply/eqP; rewrite eq_complex /= oppr0 !eqxx.
move=> [<-|[<-|[<-|[]]]] /=; try exact: rr.
by move=> x y; rewrite mxE; case: ifP => _; exact: rr.
Qed.

Example C28_case : exists r F,
  run_efficiencies demo_eig demo_pw demo_rec demo_h (Original 2 2) (demo_layers demo_grid) ord0 = Ok r /\
  demo_run_field 2%N 0%Re = Ok F /\
  (forall l, List.In l (demo_layers demo_grid) -> lossless (li_eps l)) /\
  plain_form (Original 2 2) /\ (0 < pw_lambda demo_pw)%Re /\ (0 < cos (pw_theta demo_pw))%Re /\
  demo_h ord0 = (0%Zc, 0%Zc).
Proof.
have [r hr] := demo_eff (isT : (0 < 2)%N) (isT : (0 < 2)%N) demo_mean.
have [F hF] := demo_field (isT : (0 < 2)%N) (isT : (0 < 2)%N) 0%Re demo_mean (isT : (2 < 3)%N).
exists r, F; split=> //; split=> //; split; first exact: demo_lossless.
split=> //; split; first by rewrite /=; lra.
by split=> //; rewrite /= cos_0; lra.
Qed.

(** The energy balance on it. *)
Example C28_case_sum : exists r,
  run_efficiencies demo_eig demo_pw demo_rec demo_h (Original 2 2) (demo_layers demo_grid) ord0 = Ok r /\
  r.1 ord0 ord0 + r.2 ord0 ord0 = 1.
Proof.
have [r [F [hr [hF [hl [hf [h1 [h2 h3]]]]]]]] := C28_case; exists r; split=> //.
have e0p : (0 < 1 * 1)%Re by lra.
rewrite /demo_layers in hr hl.
set x := LayerIn _ _ in hr hl; set xs := [:: _; _] in hr hl.
have E1 : li_eps x = EpsUniform 2 2 (rc (1 * 1)%Re) by [].
have E2 : li_eps (last x xs) = EpsUniform 2 2 (rc (3 * 3)%Re) by [].
have := C28_energy (isT : (0 < 2)%N) (isT : (0 < 2)%N) demo_eig_ok h1 h2 h3 e0p E1 E2 hr hf hl.
by rewrite !big_ord1.
Qed.

(** C55: the demo structure has efficiencies, but not complex amplitudes unless
    its layers have the two expected names. *)
Example C55_case :
  (exists r, run_efficiencies demo_eig demo_pw demo_rec demo_h (Original 2 2) (demo_layers demo_grid) ord0 = Ok r) /\
  exists e, run_complex demo_eig demo_pw demo_rec demo_h (Original 2 2) [:: "air"; "grating"; "glass"]%string
     (demo_layers demo_grid) ord0 = Err e.
Proof.
split; first exact: (demo_eff (isT : (0 < 2)%N) (isT : (0 < 2)%N) demo_mean).
apply: (@C55_names_refuted 2 2 1 demo_eig demo_pw demo_rec demo_h _ ord0 _ _ (1 * 1)%Re (3 * 3)%Re) => //.
by move=> [|[|[]]].
Qed.

(** C31: with these names it succeeds. *)
Example C31_case : exists rv tv,
  run_complex demo_eig demo_pw demo_rec demo_h (Original 2 2) [:: "Superstrate"; "grating"; "Substrate"]%string
     (demo_layers demo_grid) ord0 = Ok (rv, tv).
Proof.
have [Ft hFt] := demo_field (isT : (0 < 2)%N) (isT : (0 < 2)%N) 0%Re demo_mean (isT : (2 < 3)%N).
have [Fr hFr] := demo_field (isT : (0 < 2)%N) (isT : (0 < 2)%N) 0%Re demo_mean (isT : (0 < 3)%N).
have [h1 [h2 h3]] : (0 < pw_lambda demo_pw)%Re /\ (0 < cos (pw_theta demo_pw))%Re /\ demo_h ord0 = (0%Zc, 0%Zc).
  by split; [rewrite /=; lra|split=> //; rewrite /= cos_0; lra].
by apply: (@C31_available 2 2 1 demo_eig demo_pw h1 h2 demo_rec demo_h _ ord0 h3 _ _ (1 * 1)%Re (3 * 3)%Re _ _ _ _ Fr Ft) => //; lra.
Qed.

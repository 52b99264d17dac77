(** C97: the efficiencies as functions of the polarization. *)
From Coq Require Import Reals ZArith String Lra.
From Verif Require Lattice_Model Init_Model Argsort.
From mathcomp Require Import all_ssreflect all_algebra.
From mathcomp Require Import complex.
From Verif Require Import RStruct Cplx Base Fourier_Model Sim_Model Setup_Model E2E_Model Polar_Spec Polar_Proofs Polar_Proofs2.
From Verif Require Import Energy_Spec Aniso_Proofs Demo_Proofs Demo3_Proofs Props_Energy Props_Symm Props_E2E Props_E2E2 Props_E2E3.

Set Implicit Arguments.
Unset Strict Implicit.
Unset Printing Implicit Defensive.

Import Order.TTheory GRing.Theory Num.Theory.
Local Open Scope ring_scope.
Local Open Scope complex_scope.

Section Polar.
Variables (Nx Ny nh : nat).
Variable eig : forall m, 'M[C]_m -> 'rV[C]_m * 'M[C]_m.
Variables (pw : planewave) (rec : 'M[R]_2) (h : 'I_nh -> order) (form : formulation_t Nx Ny).
Variables (layers : seq (layer_in Nx Ny)) (i0 : 'I_nh).
Notation run psi := (run_efficiencies eig (polarized pw psi) rec h form layers i0).
Notation field psi := (run_field eig (polarized pw psi) rec h form layers i0).

(** A structure that can be computed for one polarization can be computed for
    all, and every efficiency is a quadratic form in (cos psi, sin psi): the
    values for psi = 0, for psi = pi/2 and one cross term give all the others. *)
Theorem C97_quadratic psi0 r0 : run psi0 = Ok r0 ->
  exists ra rb, [/\ run 0%Re = Ok ra, run (PI / 2)%Re = Ok rb &
  exists X : 'I_nh -> R * R, forall psi, exists2 r, run psi = Ok r &
    forall i, r.1 i ord0 = (cos psi * cos psi * ra.1 i ord0 + sin psi * sin psi * rb.1 i ord0 +
                            cos psi * sin psi * (X i).1)%Re /\
              r.2 i ord0 = (cos psi * cos psi * ra.2 i ord0 + sin psi * sin psi * rb.2 i ord0 +
                            cos psi * sin psi * (X i).2)%Re].
Proof. exact: run_polar. Qed.

(** Natural light: the sum over two perpendicular polarizations does not depend
    on which two, in any order, reflected or transmitted. *)
Theorem C97_natural psi psi' r1 r2 r1' r2' :
  run psi = Ok r1 -> run (psi + PI / 2)%Re = Ok r2 ->
  run psi' = Ok r1' -> run (psi' + PI / 2)%Re = Ok r2' ->
  forall i, r1.1 i ord0 + r2.1 i ord0 = r1'.1 i ord0 + r2'.1 i ord0 /\
            r1.2 i ord0 + r2.2 i ord0 = r1'.2 i ord0 + r2'.2 i ord0.
Proof.
move=> h1 h2 h1' h2' i; have [ra [rb [_ _ [X HX]]]] := C97_quadratic h1.
have get x r : run x = Ok r -> r.1 i ord0 = (cos x * cos x * ra.1 i ord0 + sin x * sin x * rb.1 i ord0 +
                            cos x * sin x * (X i).1)%Re /\
              r.2 i ord0 = (cos x * cos x * ra.2 i ord0 + sin x * sin x * rb.2 i ord0 +
                            cos x * sin x * (X i).2)%Re.
  move=> e; have [r' er H] := HX x; rewrite e in er.
  by have -> : r = r' by case: er.
have cs x : cos (x + PI / 2)%Re = (- sin x)%Re /\ sin (x + PI / 2)%Re = cos x.
  by rewrite cos_plus sin_plus cos_PI2 sin_PI2; split; ring.
have [a1 b1] := get _ _ h1; have [a2 b2] := get _ _ h2.
have [a1' b1'] := get _ _ h1'; have [a2' b2'] := get _ _ h2'.
rewrite a1 a2 a1' a2' b1 b2 b1' b2'.
have [-> ->] := cs psi; have [-> ->] := cs psi'.
have p1 := sin2_cos2 psi; have p2 := sin2_cos2 psi'; rewrite /Rsqr in p1 p2.
move: (ra.1 i ord0) (rb.1 i ord0) (ra.2 i ord0) (rb.2 i ord0) (X i).1 (X i).2 => u v u' v' w w'.
split; rfold.
- transitivity ((sin psi * sin psi + cos psi * cos psi) * (u + v))%Re; first by ring.
  by rewrite p1 -p2; ring.
- transitivity ((sin psi * sin psi + cos psi * cos psi) * (u' + v'))%Re; first by ring.
  by rewrite p1 -p2; ring.
Qed.

(** Half a turn of the polarization changes no efficiency. *)
Theorem C97_half_turn psi r r' : run psi = Ok r -> run (psi + PI)%Re = Ok r' ->
  forall i, r'.1 i ord0 = r.1 i ord0 /\ r'.2 i ord0 = r.2 i ord0.
Proof.
move=> h1 h2 i; have [ra [rb [_ _ [X HX]]]] := C97_quadratic h1.
have [s e1 H1] := HX psi; have [s' e2 H2] := HX (psi + PI)%Re.
rewrite h1 in e1; rewrite h2 in e2; have -> : r = s by case: e1.
have -> : r' = s' by case: e2.
have [-> ->] := H1 i; have [-> ->] := H2 i; rewrite neg_cos neg_sin.
by split; ring.
Qed.

(** The fields are superposed, in every layer and at every height. *)
Theorem C97_fields k z Fa Fb : field 0%Re k z = Ok Fa -> field (PI / 2)%Re k z = Ok Fb ->
  forall psi, exists2 F, field psi k z = Ok F & superposed (cos psi) (sin psi) Fa Fb F.
Proof. exact: field_run_polar. Qed.
End Polar.
Print Assumptions C97_quadratic.
Print Assumptions C97_natural.
Print Assumptions C97_half_turn.
Print Assumptions C97_fields.

(** Whole simulations: natural light. *)
Theorem C97_simulation Nx Ny (eig : forall m, 'M[C]_m -> 'rV[C]_m * 'M[C]_m) argsort
  (tan : string -> 'M[C]_(Nx, Ny) -> res ('M[C]_(Nx, Ny) * 'M[C]_(Nx, Ny))) lattices layers pw nh form psi0 out0 :
  simulate eig argsort tan lattices layers (polarized pw psi0) nh form = Ok out0 ->
  exists U V : seq R, forall psi, exists out1 out2,
    [/\ simulate eig argsort tan lattices layers (polarized pw psi) nh form = Ok out1,
        simulate eig argsort tan lattices layers (polarized pw (psi + PI / 2)%Re) nh form = Ok out2,
        map fst out1 = map fst out0 /\ map fst out2 = map fst out0,
        [seq (x.1.2.1 + x.2.2.1)%Re | x <- zip out1 out2] = U &
        [seq (x.1.2.2 + x.2.2.2)%Re | x <- zip out1 out2] = V].
Proof.
rewrite /simulate; case: (Init_Model.sim_init _ _ _ _ _) => [s|]; last by []. cbn [bind].
rewrite /compute; case: (_ != _); first by [].
case: (insub _) => [i0|]; last by [].
set form' := choose_form _ _ _; set bodies := List.map _ _; set rec := recip_mx _; set h := harm _.
case h0: (run_efficiencies eig (polarized pw psi0) rec h form' bodies i0) => [r0|]; last by [].
cbn [bind] => e0; have {e0} <- : listing (Init_Model.sim_harmonics s) r0 = out0 by case: e0.
have [ra [rb [_ _ [X HX]]]] := C97_quadratic h0.
have [r1 e1 _] := HX 0%Re; have [r2 e2 _] := HX (0 + PI / 2)%Re.
exists [seq (r1.1 i ord0 + r2.1 i ord0)%Re | i <- enum 'I_(Z.to_nat (Init_Model.sim_nh s))],
       [seq (r1.2 i ord0 + r2.2 i ord0)%Re | i <- enum 'I_(Z.to_nat (Init_Model.sim_nh s))] => psi.
have [q1 f1 _] := HX psi; have [q2 f2 _] := HX (psi + PI / 2)%Re.
have H := C97_natural f1 f2 e1 e2.
rewrite f1 f2; cbn [bind].
exists (listing (Init_Model.sim_harmonics s) q1), (listing (Init_Model.sim_harmonics s) q2).
have zm (A : Type) (f g : A -> order * (R * R)) l : zip (map f l) (map g l) = [seq (f x, g x) | x <- l].
  by elim: l => //= a l ->.
split=> //; rewrite /listing ?zm -?map_comp; first by split; apply: eq_map => i.
- by apply: eq_map => i /=; exact: (proj1 (H i)).
- by apply: eq_map => i /=; exact: (proj2 (H i)).
Qed.
Print Assumptions C97_simulation.

(** The demo grating (permittivities 2 and 6 between vacuum and 9): computed for
    every polarization, with the same sum for every perpendicular pair. *)
Example C97_case : exists S : 'I_1 -> R * R, forall psi, exists r1 r2,
  [/\ run_efficiencies demo_eig (polarized demo_pw psi) demo_rec demo_h (Original 2 2) (demo_layers demo_grid) ord0 = Ok r1,
      run_efficiencies demo_eig (polarized demo_pw (psi + PI / 2)%Re) demo_rec demo_h (Original 2 2)
        (demo_layers demo_grid) ord0 = Ok r2 &
      forall i, r1.1 i ord0 + r2.1 i ord0 = (S i).1 /\ r1.2 i ord0 + r2.2 i ord0 = (S i).2].
Proof.
have [r0 h0] := demo_eff (isT : (0 < 2)%N) (isT : (0 < 2)%N) demo_mean.
have [ra [rb [_ _ [X HX]]]] := @C97_quadratic 2 2 1 demo_eig demo_pw demo_rec demo_h _ _ ord0 (pw_psi demo_pw) r0 h0.
have [s1 e1 _] := HX 0%Re; have [s2 e2 _] := HX (0 + PI / 2)%Re.
exists (fun i => (s1.1 i ord0 + s2.1 i ord0, s1.2 i ord0 + s2.2 i ord0)) => psi.
have [q1 f1 _] := HX psi; have [q2 f2 _] := HX (psi + PI / 2)%Re.
by exists q1, q2; split=> // i; exact: (C97_natural f1 f2 e1 e2).
Qed.

(** A grating with three orders as a whole simulation. *)
Example C97_simulation_case a : exists U V : seq R, forall psi, exists out1 out2,
  [/\ simulate demo_eig Argsort.isort no_tan lats [:: sup; grating a; sub] (light 0 psi) 3 "original" = Ok out1,
      simulate demo_eig Argsort.isort no_tan lats [:: sup; grating a; sub] (light 0 (psi + PI / 2)) 3 "original" = Ok out2,
      map fst out1 = map fst out2,
      [seq (x.1.2.1 + x.2.2.1)%Re | x <- zip out1 out2] = U &
      [seq (x.1.2.2 + x.2.2.2)%Re | x <- zip out1 out2] = V].
Proof.
have [out0 [h0 _]] := C90_patterned_case a.
have [U [V H]] := @C97_simulation _ _ demo_eig Argsort.isort no_tan lats [:: sup; grating a; sub] (light 0 1) 3 "original" 1 out0 h0.
exists U, V => psi; have [o1 [o2 [e1 e2 [m1 m2] hU hV]]] := H psi.
by exists o1, o2; split=> //; rewrite m1 m2.
Qed.

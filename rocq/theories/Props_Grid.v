(** Fields on a grid (C70, C71, C72). *)
From Coq Require Import Reals ZArith Lra Lia String.
From mathcomp Require Import all_ssreflect all_algebra.
From mathcomp Require Import complex.
From Verif Require Import RStruct Cplx Base Fourier_Model Fourier_Spec Fourier_Proofs Sim_Model Setup_Model.
From Verif Require Import Grid_Model Grid_Spec Grid_Proofs Energy_Spec Energy_Proofs Energy_Proofs3 Run_Proofs.
From Verif Require Import Aniso_Proofs Demo_Proofs.

Set Implicit Arguments.
Unset Strict Implicit.
Unset Printing Implicit Defensive.

Import Order.TTheory GRing.Theory Num.Theory.
Local Open Scope ring_scope.
Local Open Scope complex_scope.

Section Runs.
Variables (Nx Ny nh : nat).
Variable eig : forall m, 'M[C]_m -> 'rV[C]_m * 'M[C]_m.
Variable pw : planewave.
Variable rec : 'M[R]_2.
Variable h : 'I_nh -> order.
Variable form : formulation_t Nx Ny.
Variables (layers : seq (layer_in Nx Ny)) (i0 : 'I_nh) (k : nat) (z : R) (zs : seq R).
Notation run_grid := (run_grid eig pw rec h form layers i0 k z zs).
Notation run_E_grid := (run_E_grid eig pw rec h form layers i0 k z zs).
Notation run_H_grid := (run_H_grid eig pw rec h form layers i0 k z zs).
Notation run_field := (run_field eig pw rec h form layers i0 k).

(** ** C70 *)
(** Argument checks come first. *)
Theorem C70_arguments shape field component :
  (~ List.In field [:: "all"; "E"; "H"]%string \/ ~ List.In component [:: "all"; "x"; "y"; "z"]%string ->
   run_grid shape field component = Err ValueError) /\
  (List.In field [:: "all"; "E"; "H"]%string -> List.In component [:: "all"; "x"; "y"; "z"]%string ->
   (size layers <= k)%N -> run_grid shape field component = Err IndexError).
Proof.
split=> [H|hf hc hk]; rewrite /Grid_Model.run_grid.
- case: (boolP (is_in field _)) => [/is_inP hf|_] //; case: (boolP (is_in component _)) => [/is_inP hc|_] //.
  by case: H.
- have -> : is_in field [:: "all"; "E"; "H"]%string by case: hf => [<-|[<-|[<-|]]].
  have -> : is_in component [:: "all"; "x"; "y"; "z"]%string by case: hc => [<-|[<-|[<-|[<-|]]]].
  have hk2 : (List.length layers <= k)%coq_nat := elimT ssrnat.leP hk.
  by have -> := proj2 (List.nth_error_None layers k) hk2.
Qed.

(** The layer, and its Fourier fields at the heights asked for *)
Variables (l : layer_in Nx Ny) (F : R -> fields nh).
Hypothesis hk : List.nth_error layers k = Some l.
Hypothesis hF : forall z', List.In z' (z :: zs) -> run_field z' = Ok (F z').

(** A grid shape: given, or that of the pattern of an isotropic layer *)
Variables (shape : option (seq nat)) (n0 n1 : nat).
Hypotheses (p0 : (0 < n0)%N) (p1 : (0 < n1)%N).
Definition grid_shape (l : layer_in Nx Ny) (shape : option (seq nat)) (n0 n1 : nat) : Prop :=
  shape = Some [:: n0; n1] \/
  (shape = None \/ shape = Some [::]) /\ (exists u, li_eps l = EpsGrid u) /\ n0 = Nx /\ n1 = Ny.

Lemma shapeE : grid_shape l shape n0 n1 ->
  (if shape is Some (n :: s) then n :: s else eps_shape (li_eps l)) = [:: n0; n1].
Proof. by case=> [->|[[->|->] [[u ->] [-> ->]]]]. Qed.

Theorem C70_components c fe fh : grid_shape l shape n0 n1 -> indexed h n0 n1 ->
  List.In (c, fe, fh) [:: ("x"%string, @f_ex nh, @f_hx nh); ("y"%string, @f_ey nh, @f_hy nh); ("z"%string, @f_ez nh, @f_hz nh)] ->
  exists E H, run_grid shape "all" c = Ok (Both E H) /\
    run_E_grid shape c = Ok (One E) /\ run_H_grid shape c = Ok (One H) /\
    sampled h n0 n1 (z :: zs) (fun z' => fe (F z')) E /\
    sampled h n0 n1 (z :: zs) (fun z' => fh (F z')) H.
Proof.
move=> hs hi hc; have hc' : List.In c [:: "all"; "x"; "y"; "z"]%string.
  by case: hc => [[<- _ _]|[[<- _ _]|[[<- _ _]|]]] //=; tauto.
have [gE _] := get_fieldP h F fe (z :: zs) p0 p1; have [gH _] := get_fieldP h F fh (z :: zs) p0 p1.
have [E [eE sE]] := gE hi; have [H [eH sH]] := gH hi.
exists E, H; rewrite /Grid_Model.run_E_grid /Grid_Model.run_H_grid.
rewrite !(run_gridE _ _ hc' hk hF) /=; try tauto.
rewrite shapeE //.
move: eE eH => /= eE eH.
by case: hc => [[ec ee eh]|[[ec ee eh]|[[ec ee eh]|]]] //; subst c fe fh; rewrite /select /= eE eH.
Qed.

Theorem C70_vectors : grid_shape l shape n0 n1 -> indexed h n0 n1 ->
  exists E H, run_grid shape "all" "all" = Ok (Both E H) /\
    run_E_grid shape "all" = Ok (One E) /\ run_H_grid shape "all" = Ok (One H) /\
    sampled3 h n0 n1 (z :: zs) (fun z' => f_ex (F z')) (fun z' => f_ey (F z')) (fun z' => f_ez (F z')) E /\
    sampled3 h n0 n1 (z :: zs) (fun z' => f_hx (F z')) (fun z' => f_hy (F z')) (fun z' => f_hz (F z')) H.
Proof.
move=> hs hi.
have [gE _] := get_fields3P h F (@f_ex nh) (@f_ey nh) (@f_ez nh) (z :: zs) p0 p1.
have [gH _] := get_fields3P h F (@f_hx nh) (@f_hy nh) (@f_hz nh) (z :: zs) p0 p1.
have [E [eE sE]] := gE hi; have [H [eH sH]] := gH hi.
exists E, H; rewrite /Grid_Model.run_E_grid /Grid_Model.run_H_grid.
rewrite !(run_gridE _ _ _ hk hF) /=; try tauto.
by rewrite shapeE // /select /= eE eH.
Qed.

(** A grid too small for the harmonics is refused. *)
Theorem C70_too_small field component : grid_shape l shape n0 n1 -> ~ indexed h n0 n1 ->
  List.In field [:: "all"; "E"; "H"]%string -> List.In component [:: "all"; "x"; "y"; "z"]%string ->
  run_grid shape field component = Err IndexError.
Proof.
move=> hs hi hf hc; rewrite (run_gridE _ hf hc hk hF) shapeE // => {hc} /=.
have g f : get_field h f (map F (z :: zs)) [:: n0; n1] = Err IndexError.
  by have [_ ->] := get_fieldP h F f (z :: zs) p0 p1.
by do 3?case: ifP => _; apply: select_err; rewrite // /get_fields3 g.
Qed.

(** Without a shape the method fails in every homogeneous layer, *)
Theorem C70_homogeneous_refuted field component e : li_eps l = EpsUniform Nx Ny e ->
  List.In field [:: "all"; "E"; "H"]%string -> List.In component [:: "all"; "x"; "y"; "z"]%string ->
  run_grid None field component = Err IndexError.
Proof.
move=> he hf hc; rewrite (run_gridE _ hf hc hk hF) he => {hc} /=.
have g f : get_field h f (map F (z :: zs)) [::] = Err IndexError by exact: ifft_amplitudes_nil.
by do 3?case: ifP => _; apply: select_err; rewrite // /get_fields3 g.
Qed.

(** and in a layer with a tensor pattern it samples a 3 x 3 grid, repeated along the
    axes of the pattern (or fails). *)
Theorem C70_tensor_refuted u : li_eps l = EpsTensorGrid u ->
  (indexed h 3 3 -> exists E, run_grid None "E" "x" = Ok (One E) /\
     nd_shape E = [:: 3; 3; Nx; Ny; size (z :: zs)]%N /\
     forall (x y : 'I_3) (a : 'I_Nx) (b : 'I_Ny) (j : 'I_(size (z :: zs))),
       nd_get E [:: val x; val y; val a; val b; val j] =
       Some (cell_value h (f_ex (F (nth 0%Re (z :: zs) j))) x y)) /\
  (~ indexed h 3 3 -> run_grid None "E" "x" = Err IndexError).
Proof.
move=> he; rewrite (run_gridE _ _ _ hk hF) /= ?he; try tauto.
case: (ifft_amplitudesP h (comp_rows (@f_ex nh) (map F (z :: zs))) [:: Nx; Ny] (isT : (0 < 3)%N) (isT : (0 < 3)%N)) => [[hi [E [eE [sE vE]]]]|[hi eE]].
- split=> // _; exists E; rewrite /select /=; split; first by rewrite /get_field eE.
  split=> [|x y a b j]; first by rewrite sE /= size_map.
  have hj : (j < size (map F (z :: zs)))%N by rewrite size_map.
  have := vE x y [:: val a; val b] (Ordinal hj); rewrite /in_shape /= !ltn_ord => /(_ isT) ->; congr Some.
  by apply: eq_bigr => i _; rewrite !mxE (tnth_nth (F 0%Re)) /= -[_ :: map F zs]/(map F (z :: zs)) (nth_map 0%Re).
- by split=> // _; rewrite /select /= /get_field eE.
Qed.

(** ** C71 *)
(** The average over the grid of the z component of Re(E x conj H) is the flux of the
    diffraction orders, and the averages of |E|^2 and |H|^2 the sums over the orders. *)
Theorem C71_power_average : grid_shape l shape n0 n1 -> indexed h n0 n1 -> resolved h n0 n1 ->
  exists E H, run_grid shape "all" "all" = Ok (Both E H) /\
  forall (j : 'I_(size (z :: zs))) (g : nat -> nat -> 'M[C]_(n0, n1)),
    (forall c x y, (c < 3)%N -> nd_get E [:: c; val x; val y; val j] = Some (g 0%N c x y) /\
                                nd_get H [:: c; val x; val y; val j] = Some (g 1%N c x y)) ->
  let G := F (nth 0%Re (z :: zs) j) in
  complex.Re (mean (\matrix_(x, y) (g 0%N 0%N x y * conj (g 1%N 1%N x y) - g 0%N 1%N x y * conj (g 1%N 0%N x y))))
    = total_flux G /\
  (forall c v, List.In (c, v) [:: (0%N, f_ex G); (1%N, f_ey G); (2%N, f_ez G)] ->
     mean (\matrix_(x, y) (g 0%N c x y * conj (g 0%N c x y))) = \sum_i v i ord0 * conj (v i ord0)) /\
  (forall c v, List.In (c, v) [:: (0%N, f_hx G); (1%N, f_hy G); (2%N, f_hz G)] ->
     mean (\matrix_(x, y) (g 1%N c x y * conj (g 1%N c x y))) = \sum_i v i ord0 * conj (v i ord0)).
Proof.
move=> hs hi hr; have [E [H [e [_ [_ [[_ vE] [_ vH]]]]]]] := C70_vectors hs hi.
exists E, H; split=> // j g hg G.
have q c x y (hc : (c < 3)%N) := hg c x y hc.
have e0 x y : g 0%N 0%N x y = cell_value h (f_ex G) x y /\ g 1%N 0%N x y = cell_value h (f_hx G) x y.
  by have [] := q 0%N x y isT; have [-> _] := vE x y j; have [-> _] := vH x y j => -[->] -[->].
have e1 x y : g 0%N 1%N x y = cell_value h (f_ey G) x y /\ g 1%N 1%N x y = cell_value h (f_hy G) x y.
  by have [] := q 1%N x y isT; have [_ [-> _]] := vE x y j; have [_ [-> _]] := vH x y j => -[->] -[->].
have e2 x y : g 0%N 2%N x y = cell_value h (f_ez G) x y /\ g 1%N 2%N x y = cell_value h (f_hz G) x y.
  by have [] := q 2%N x y isT; have [_ [_ ->]] := vE x y j; have [_ [_ ->]] := vH x y j => -[->] -[->].
split; last first.
  split=> c v [[<- <-]|[[<- <-]|[[<- <-]|]]] //; rewrite -(parseval p0 p1 hr); congr (mean _);
  by apply/matrixP=> x y; rewrite !mxE; have [a0 b0] := e0 x y; have [a1 b1] := e1 x y; have [a2 b2] := e2 x y; rewrite ?a0 ?a1 ?a2 ?b0 ?b1 ?b2.
have -> : mean (\matrix_(x, y) (g 0%N 0%N x y * conj (g 1%N 1%N x y) - g 0%N 1%N x y * conj (g 1%N 0%N x y))) =
  \sum_i (f_ex G i ord0 * conj (f_hy G i ord0) - f_ey G i ord0 * conj (f_hx G i ord0)).
  rewrite sumrB -!(parseval p0 p1 hr) /mean -mulrBl -sumrB; congr (_ / _); apply: eq_bigr => x _.
  rewrite -sumrB; apply: eq_bigr => y _; rewrite !mxE.
  by have [-> ->] := e0 x y; have [-> ->] := e1 x y.
by rewrite raddf_sum.
Qed.
End Runs.
Print Assumptions C70_arguments.
Print Assumptions C70_components.
Print Assumptions C70_vectors.
Print Assumptions C70_too_small.
Print Assumptions C70_homogeneous_refuted.
Print Assumptions C70_tensor_refuted.
Print Assumptions C71_power_average.

(** ** C72 *)
(** Amplitudes given as one row per position are transformed row by row; a plain vector
    of amplitudes is refused as soon as there are two harmonics. *)
Theorem C72_rows_partial nh (h : 'I_nh -> order) nz (A : 'M[C]_(nz, nh)) n0 n1 : (0 < n0)%N -> (0 < n1)%N ->
  indexed h n0 n1 -> exists a, ifft_amplitudes h A [:: n0; n1] = Ok a /\
    nd_shape a = [:: n0; n1; nz] /\
    forall (x : 'I_n0) (y : 'I_n1) (j : 'I_nz),
      nd_get a [:: val x; val y; val j] = Some (cell_value h (\col_i A j i) x y).
Proof.
move=> p0 p1 hi; case: (ifft_amplitudesP h A [::] p0 p1) => [[_ [a [ea [sa va]]]]|[//]].
exists a; split=> //; split=> // x y j; rewrite (va x y [::] j isT); congr Some.
by apply: eq_bigr => i _; rewrite !mxE.
Qed.

Theorem C72_vector_refuted nh (h : 'I_nh -> order) (u : 'rV[C]_nh) shape : (1 < nh)%N ->
  ifft_amplitudes_1d h u shape = Err IndexError.
Proof. exact: ifft_amplitudes_1dP. Qed.
Print Assumptions C72_rows_partial.
Print Assumptions C72_vector_refuted.

(** Cases: the demonstration stack, on a 4 x 4 grid and on the default grid. *)
Example C70_case : exists F,
  (forall z', List.In z' [:: 0; 1]%Re ->
     run_field demo_eig demo_pw demo_rec demo_h (Original 2 2) (demo_layers demo_grid) ord0 1 z' = Ok (F z')) /\
  indexed demo_h 4 4 /\ resolved demo_h 4 4 /\
  grid_shape (List.nth 1 (demo_layers demo_grid) (LayerIn None (EpsUniform 2 2 0))) None 2 2.
Proof.
have g z := demo_field (isT : (0 < 2)%N) (isT : (0 < 2)%N) z demo_mean (isT : (1 < 3)%N).
have [F0 h0] := g 0%Re; have [F1 h1] := g 1%Re.
exists (fun z => if Req_EM_T z 0 then F0 else F1); split.
  by move=> z' [<-|[<-|//]]; case: Req_EM_T => // e; move: h0 h1; lra.
split; first by move=> i; rewrite /index_ok /demo_h /=; lia.
split; first by move=> i j; rewrite (ord1 i) (ord1 j).
by right; split; [left|split=> //; eexists].
Qed.
Example C71_case : let h (i : 'I_3) : order := (nth 0%Zc [:: 0; 1; -1]%Zc i, 0%Zc) in
  indexed h 4 4 /\ resolved h 4 4.
Proof.
move=> h; split; first by move=> [[|[|[|i]]] hi] //; rewrite /index_ok /=; lia.
by move=> [[|[|[|i]]] hi] // [[|[|[|j]]] hj] // _ [].
Qed.

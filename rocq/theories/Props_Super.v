(** C98: a supercell with the same wavevectors gives the same results. *)
From Coq Require Import Reals ZArith String Lra Lia.
From Verif Require Lattice_Model Init_Model Argsort.
From mathcomp Require Import all_ssreflect all_algebra.
From mathcomp Require Import complex.
From Verif Require Import RStruct Cplx Base Fourier_Model Sim_Model Setup_Model E2E_Model Super_Spec Super_Proofs.

Set Implicit Arguments.
Unset Strict Implicit.
Unset Printing Implicit Defensive.

Import Order.TTheory GRing.Theory Num.Theory.
Local Open Scope ring_scope.
Local Open Scope complex_scope.

(** the basis vectors p L1 and q L2 *)
Definition super_basis (p q : nat) (b b' : Lattice_Model.mat2) : Prop :=
  [/\ Lattice_Model.m00 b' = (INR p * Lattice_Model.m00 b)%Re,
      Lattice_Model.m01 b' = (INR p * Lattice_Model.m01 b)%Re,
      Lattice_Model.m10 b' = (INR q * Lattice_Model.m10 b)%Re &
      Lattice_Model.m11 b' = (INR q * Lattice_Model.m11 b)%Re].

Lemma INR_pos k : (0 < k)%N -> INR k <> 0%Re.
Proof. by move=> k0; apply: not_0_INR => e; rewrite e in k0. Qed.

(** The reciprocal vectors of the supercell are those of the cell divided by p
    and q; it has them exactly when the cell has. *)
Lemma super_reciprocal p q l l' : (0 < p)%N -> (0 < q)%N ->
  super_basis p q (Lattice_Model.lt_basis l) (Lattice_Model.lt_basis l') ->
  match Lattice_Model.reciprocal l, Lattice_Model.reciprocal l' with
  | Ok m, Ok m' => forall a, recip_mx m' a ord0 = (recip_mx m a ord0 / INR p)%Re /\
                             recip_mx m' a ord_max = (recip_mx m a ord_max / INR q)%Re
  | Err e, Err e' => e' = e
  | _, _ => False
  end.
Proof.
move=> /INR_pos p0 /INR_pos q0; case: l l' => ? [a b c d] ? ? ? [? [a' b' c' d'] ? ? ?].
move=> []; cbn => -> -> -> ->.
rewrite /Lattice_Model.reciprocal /Lattice_Model.inv2 /Lattice_Model.matrix /Lattice_Model.det2; cbn.
case: Req_EM_T => h; case: Req_EM_T => h'; cbn.
- by [].
- case: h'; transitivity (INR p * INR q * (a * d - c * b))%Re; first ring.
  by rewrite h; ring.
- case: h; apply: (Rmult_eq_reg_l (INR p * INR q)); last by apply: Rmult_integral_contrapositive_currified.
  by rewrite Rmult_0_r -h'; ring.
- move=> i; rewrite !mxE /=; case: (i == ord0); split; field; do !split => //; move=> e.
  all: try (by apply: h; rewrite -e; ring).
  all: by apply: h'; rewrite -e; ring.
Qed.

Section Super.
Variables (Nx Ny p q nh : nat).
Hypotheses (Nx0 : (0 < Nx)%N) (Ny0 : (0 < Ny)%N) (p0 : (0 < p)%N) (q0 : (0 < q)%N).
Variable eig : forall m, 'M[C]_m -> 'rV[C]_m * 'M[C]_m.
Variables (pw : planewave) (l l' : Lattice_Model.lattice) (m : Lattice_Model.mat2).
Variables (h h' : 'I_nh -> order).
Variables (f : formulation_t Nx Ny) (f' : formulation_t (p * Nx) (q * Ny)).

(** Take p x q copies of the unit cell as one cell, sampled at the same density,
    and the orders (p m, q n) for the orders (m, n): every order has the same
    efficiencies, and the amplitudes of the fields in every layer are the same.
    Where one of the computations fails, so does the other, in the same way. *)
Theorem C98_supercell layers layers' i0 :
  super_basis p q (Lattice_Model.lt_basis l) (Lattice_Model.lt_basis l') ->
  Lattice_Model.reciprocal l = Ok m ->
  (forall i, h' i = ((Z.of_nat p * (h i).1)%Zc, (Z.of_nat q * (h i).2)%Zc)) ->
  form_tiled f f' -> List.Forall2 (layer_tiled f) layers layers' ->
  exists2 m', Lattice_Model.reciprocal l' = Ok m' &
    run_efficiencies eig pw (recip_mx m') h' f' layers' i0 = run_efficiencies eig pw (recip_mx m) h f layers i0 /\
    forall k z, run_field eig pw (recip_mx m') h' f' layers' i0 k z = run_field eig pw (recip_mx m) h f layers i0 k z.
Proof.
move=> hb hm hh hf hl; have := super_reciprocal p0 q0 hb; rewrite hm.
case: (Lattice_Model.reciprocal l') => [m'|]; last by []. move=> hr.
exists m'; first by []. split=> [|k z]; first exact: run_tiled.
exact: run_field_tiled.
Qed.
End Super.

(** The Fourier matrices themselves, whatever the orders (out of range: the same
    exception). *)
Theorem C98_toeplitz Nx Ny p q nh (h h' : 'I_nh -> order) (u : 'M[C]_(Nx, Ny)) (u' : 'M[C]_(p * Nx, q * Ny)) :
  (0 < Nx)%N -> (0 < Ny)%N -> (0 < p)%N -> (0 < q)%N -> tiled u u' ->
  (forall i, h' i = ((Z.of_nat p * (h i).1)%Zc, (Z.of_nat q * (h i).2)%Zc)) ->
  get_toeplitz h' u' = get_toeplitz h u.
Proof. by move=> ? ? ? ? ht hh; apply: get_toeplitz_tiled. Qed.

(** A case: a grating of two points per period, in cells of 3 x 2 periods. *)
Definition case_u : 'M[C]_(2, 1) := \matrix_(x, y) if x == ord0 then 1 else 2.
Definition case_u' : 'M[C]_(3 * 2, 2 * 1) := \matrix_(x, y) if odd x then 2 else 1.

Lemma case_tiled : tiled case_u case_u'.
Proof.
move=> x y x' y' hx _; rewrite !mxE.
have -> : odd x' = ((x' %% 2)%N == 1%N) by rewrite modn2; case: (odd x').
by rewrite hx; case: x {hx} => [[|[|//]] ?].
Qed.

Definition case_l n (c : R) (a : R) := Lattice_Model.lattice_2D (Lattice_Model.Mat2 a 0 0 c) true (n, n) None.
Definition case_h (i : 'I_3) : order := if i == ord0 then (0, 0)%Zc else if i == ord_max then (1, 0)%Zc else (-1, 0)%Zc.
Definition case_h' (i : 'I_3) : order := if i == ord0 then (0, 0)%Zc else if i == ord_max then (3, 0)%Zc else (-3, 0)%Zc.
Definition case_s Nx Ny (u : 'M[C]_(Nx, Ny)) : seq (layer_in Nx Ny) :=
  [:: LayerIn None (EpsUniform _ _ 1); LayerIn (Some 1%Re) (EpsGrid u); LayerIn None (EpsUniform _ _ 1)].

Example C98_case eig pw i0 m : Lattice_Model.reciprocal (case_l 2 1 1) = Ok m ->
  exists2 m', Lattice_Model.reciprocal (case_l 6 2 3) = Ok m' &
    run_efficiencies eig pw (recip_mx m') case_h' (Tangent1D _ _) (case_s case_u') i0 =
    run_efficiencies eig pw (recip_mx m) case_h (Tangent1D _ _) (case_s case_u) i0.
Proof.
move=> hm.
have [] := @C98_supercell 2 1 3 2 3 isT isT isT isT eig pw (case_l 2 1 1) (case_l 6 2 3) m case_h case_h'
  (Tangent1D _ _) (Tangent1D _ _) (case_s case_u) (case_s case_u') i0.
- by split; cbn; ring.
- exact: hm.
- by move=> i; rewrite /case_h /case_h'; case: (i == ord0); case: (i == ord_max).
- by [].
- by do !constructor; apply: case_tiled.
- by move=> m' e [H _]; exists m'.
Qed.

Example C98_case_recip : exists m, Lattice_Model.reciprocal (case_l 2 1 1) = Ok m.
Proof.
rewrite /Lattice_Model.reciprocal /Lattice_Model.inv2; case: Req_EM_T => h; last by eexists.
by move: h; rewrite /Lattice_Model.det2; cbn; lra.
Qed.

(** * From Simulation(...) to the efficiencies *)

(** the order (k m, k n) *)
Definition sc (k : nat) (o : order) : order := ((Z.of_nat k * o.1)%Zc, (Z.of_nat k * o.2)%Zc).

(** Lattice([k L1, k L2], discretization=(k Nx, k Ny), harmonics = k times those of
    the other) *)
Definition super_lattice (k : nat) (l l' : Lattice_Model.lattice) : Prop :=
  [/\ Lattice_Model.lt_is1D l = false /\ Lattice_Model.lt_is1D l' = false,
      super_basis k k (Lattice_Model.lt_basis l) (Lattice_Model.lt_basis l'),
      Lattice_Model.lt_disc l' = sc k (Lattice_Model.lt_disc l) &
      exists2 H, Lattice_Model.lt_harm l = Some H & Lattice_Model.lt_harm l' = Some (List.map (sc k) H)].

(** the order of a list of numbers does not change when they are multiplied by k *)
Definition scale_free (k : nat) (argsort : seq R -> seq nat) : Prop :=
  forall s, argsort (List.map (fun x => (INR k * x)%Re) s) = argsort s.

Section Init.
Variable k : nat.
Hypothesis k0 : (0 < k)%N.

Lemma kZ : (0 < Z.of_nat k)%Zc.
Proof. by case: k k0 => // n _; lia. Qed.

Lemma max_sc G : Init_Model.max_entry (List.map (sc k) G) =
  match Init_Model.max_entry G with Some m => Some (Z.of_nat k * m)%Zc | None => None end.
Proof.
have kp := kZ; case: G => [|o t] //=.
have mk a b : (Z.max (Z.of_nat k * a) (Z.of_nat k * b) = Z.of_nat k * Z.max a b)%Zc.
  by rewrite Z.mul_max_distr_nonneg_l; lia.
rewrite mk; move: (Z.max o.1 o.2) => m; congr Some.
by elim: t m => [|x t IH] m //=; rewrite !mk IH.
Qed.

Lemma zero_sc G : Init_Model.zeroth_index (List.map (sc k) G) = Init_Model.zeroth_index G.
Proof.
have kp := kZ; have z a : (Z.of_nat k * a =? 0)%Zc = (a =? 0)%Zc.
  by case: (Z.eqb_spec a 0) => [->|h]; [rewrite Z.mul_0_r | apply/Z.eqb_neq; nia].
elim: G => [|o [|x t] IH]; [by []|by []|].
transitivity (if (Z.of_nat k * o.1 =? 0)%Zc && (Z.of_nat k * o.2 =? 0)%Zc then 0%N
              else (Init_Model.zeroth_index (List.map (sc k) (x :: t))).+1); first by [].
by rewrite IH !z.
Qed.

Lemma nth_sc G j : List.nth j (List.map (sc k) G) (0%Zc, 0%Zc) = sc k (List.nth j G (0%Zc, 0%Zc)).
Proof.
have d : (0%Zc, 0%Zc) = sc k (0%Zc, 0%Zc) by rewrite /sc /= !Z.mul_0_r.
by rewrite {1}d List.map_nth.
Qed.

Lemma reorder_sc G js :
  Lattice_Model.reorder (List.map (sc k) G) js = List.map (sc k) (Lattice_Model.reorder G js).
Proof. by rewrite /Lattice_Model.reorder List.map_map; apply: List.map_ext => j; apply: nth_sc. Qed.

Variable argsort : seq R -> seq nat.
Hypothesis hs : scale_free k argsort.

Lemma harmonics_sc l l' nh : super_lattice k l l' ->
  exists2 G, Lattice_Model.get_harmonics argsort l nh true = Ok G &
    Lattice_Model.get_harmonics argsort l' nh true = Ok (List.map (sc k) G.1, G.2).
Proof.
move=> [_ _ _ [H h h']]; rewrite /Lattice_Model.get_harmonics /Lattice_Model.get_harmonics_unsorted h h'.
cbn [bind fst snd]; eexists; first by []. cbn [fst snd].
rewrite reorder_sc List.map_length; congr (Ok (List.map _ (Lattice_Model.reorder _ _), _)).
rewrite -[in RHS]hs !List.map_map; congr argsort; apply: List.map_ext => o.
by rewrite /sc /= mult_IZR -INR_IZR_INZ.
Qed.

Variables lattices lattices' : nat -> Lattice_Model.lattice.
Hypothesis hl : forall i, super_lattice k (lattices i) (lattices' i).

Lemma init_sc layers nh form :
  match Init_Model.sim_init argsort lattices layers nh form,
        Init_Model.sim_init argsort lattices' layers nh form with
  | Ok s, Ok s' =>
     [/\ Init_Model.sim_harmonics s' = List.map (sc k) (Init_Model.sim_harmonics s),
         Init_Model.sim_nh s' = Init_Model.sim_nh s,
         Init_Model.sim_index0 s' = Init_Model.sim_index0 s,
         (Init_Model.sim_form s = form /\ Init_Model.sim_form s' = form) /\
         (Lattice_Model.lt_is1D (Init_Model.sim_lattice s) = false /\
          Lattice_Model.lt_is1D (Init_Model.sim_lattice s') = false) &
         forall a, recip_mx (Init_Model.sim_recip s') a ord0 = (recip_mx (Init_Model.sim_recip s) a ord0 / INR k)%Re /\
                   recip_mx (Init_Model.sim_recip s') a ord_max = (recip_mx (Init_Model.sim_recip s) a ord_max / INR k)%Re]
  | Err e, Err e' => e' = e
  | _, _ => False
  end.
Proof.
rewrite /Init_Model.sim_init; case: (negb (Init_Model.unique _)); first by [].
case: layers => [|l0 t]; first by [].
set L := l0 :: t; move: (Init_Model.pl_lat l0) => i.
case: (negb (List.forallb _ _)); first by [].
case: (negb _); first by [].
have [[d1 d1'] hb hd _] := hl i; rewrite d1 d1'; cbn [andb].
have [G -> ->] := harmonics_sc (Init_Model.effective_nh (List.forallb Init_Model.pl_uniform L) nh) (hl i).
cbn [bind fst snd]; rewrite max_sc.
case: (Init_Model.max_entry G.1) => [mx|]; last by [].
rewrite hd /sc; cbn [fst snd].
have le a : (Z.of_nat k * a <=? 2 * (Z.of_nat k * mx))%Zc = (a <=? 2 * mx)%Zc.
  have kp := kZ; case: (Z.leb_spec a (2 * mx)) => H; [apply/Z.leb_le|apply/Z.leb_gt]; nia.
rewrite !le; case: (_ || _); first by [].
have := super_reciprocal k0 k0 hb.
case: (Lattice_Model.reciprocal (lattices i)) => [m|e]; case: (Lattice_Model.reciprocal (lattices' i)) => [m'|e'] //.
by move=> hr; cbn; split => //; rewrite zero_sc.
Qed.
End Init.

(** the same object names and lattice objects, the patterns repeated *)
Definition user_tiled Nx Ny Px Py (f : formulation_t Nx Ny) (l : user_layer Nx Ny) (l' : user_layer Px Py) : Prop :=
  [/\ ul_name l' = ul_name l, ul_lat l' = ul_lat l & layer_tiled f (ul_body l) (ul_body l')].

(** Simulation(...).diffraction_efficiencies(orders=True) of k x k cells: the list
    for one cell with each order (m, n) renamed (k m, k n), or the same exception. *)
Theorem C98_simulation Nx Ny k (eig : forall m, 'M[C]_m -> 'rV[C]_m * 'M[C]_m) argsort
  (tan : string -> 'M[C]_(Nx, Ny) -> res ('M[C]_(Nx, Ny) * 'M[C]_(Nx, Ny)))
  (tan' : string -> 'M[C]_(k * Nx, k * Ny) -> res ('M[C]_(k * Nx, k * Ny) * 'M[C]_(k * Nx, k * Ny)))
  lattices lattices' layers layers' pw nh form :
  (0 < Nx)%N -> (0 < Ny)%N -> (0 < k)%N -> scale_free k argsort ->
  (forall i, super_lattice k (lattices i) (lattices' i)) ->
  form_tiled (choose_form tan form false) (choose_form tan' form false) ->
  List.Forall2 (user_tiled (choose_form tan form false)) layers layers' ->
  simulate eig argsort tan' lattices' layers' pw nh form =
  match simulate eig argsort tan lattices layers pw nh form with
  | Ok out => Ok [seq (sc k x.1, x.2) | x <- out]
  | Err e => Err e
  end.
Proof.
move=> Nx0 Ny0 k0 hs hl hf hL; rewrite /simulate.
have -> : List.map (@to_py _ _) layers' = List.map (@to_py _ _) layers.
  elim: hL => [|l l' s s' [hn hi [_ he]] _ IH]; first by [].
  rewrite /= IH /to_py hn hi; congr (Init_Model.PyLayer _ _ _ :: _).
  by move: he; case: (li_eps (ul_body l)) (li_eps (ul_body l')) => [a|u|u|a] [a'|u'|u'|a'].
have hB : List.Forall2 (layer_tiled (choose_form tan form false)) (List.map (@ul_body Nx Ny) layers) (List.map (@ul_body _ _) layers').
  by elim: hL => [|l l' s s' [_ _ hb] _ IH] /=; constructor.
have := init_sc k0 hs hl (List.map (@to_py _ _) layers) nh form.
case: (Init_Model.sim_init argsort lattices _ _ _) => [s|e];
  case: (Init_Model.sim_init argsort lattices' _ _ _) => [s'|e'] //; last by move=> ->.
move=> [hG hn hi [[f1 f2] [g1 g2]] hr]; cbn [bind].
rewrite /compute hn hi hG f1 f2 g1 g2.
have lm G : List.map (sc k) G = map (sc k) G by elim: G => //= x G ->.
rewrite lm size_map; case: (_ != _); first by [].
case: (insub _) => [i0|]; last by [].
have hh (i : 'I_(Z.to_nat (Init_Model.sim_nh s))) : harm (map (sc k) (Init_Model.sim_harmonics s)) i =
    sc k (harm (Init_Model.sim_harmonics s) i).
  rewrite /harm; case: (ltnP i (size (Init_Model.sim_harmonics s))) => hz; first by rewrite (nth_map (0%Zc, 0%Zc)).
  by rewrite !nth_default ?size_map // /sc /= !Z.mul_0_r.
rewrite (run_tiled Nx0 Ny0 k0 k0 eig pw hh hr hf i0 hB).
case: (run_efficiencies _ _ _ _ _ _ _) => [r|]; last by []. cbn [bind].
congr Ok; rewrite /listing -map_comp; apply: eq_map => i /=.
by rewrite hh.
Qed.

(** Insertion sort is such an argsort. *)
Lemma isort_scale_free k : (0 < k)%N -> scale_free k Argsort.isort.
Proof.
move=> k0 s; have kp : (0 < INR k)%Re by apply: lt_0_INR; apply/ssrnat.ltP.
rewrite /Argsort.isort List.map_length.
have hn j : List.nth j (List.map (fun x => (INR k * x)%Re) s) 0%Re = (INR k * List.nth j s 0)%Re.
  by rewrite -{1}(Rmult_0_r (INR k)) (List.map_nth (fun x => (INR k * x)%Re)).
elim: (List.seq 0 (List.length s)) => [|i t IH]; first by [].
cbn [List.fold_right]; rewrite IH.
elim: (List.fold_right _ _ t) => [|j r IHr]; first by [].
cbn [Argsort.ins]; rewrite !hn IHr.
case: Rle_dec => h1; case: Rle_dec => h2 //.
- by case: h2; apply: (Rmult_le_reg_l (INR k)).
- by case: h1; apply: Rmult_le_compat_l; [apply: Rlt_le|].
Qed.

(** A case: 2 x 2 cells of a grating with the orders (0,0), (1,0), (-1,0). *)
Definition case_lat (a : R) (n z : Z) : Lattice_Model.lattice :=
  Lattice_Model.lattice_2D (Lattice_Model.Mat2 a 0 0 a) true (n, n)
    (Some [:: (0, 0)%Zc; (z, 0)%Zc; (- z, 0)%Zc]).
Definition case_v' : 'M[C]_(2 * 2, 2 * 1) := \matrix_(x, y) if odd x then 2 else 1.
Definition case_us Nx Ny (u : 'M[C]_(Nx, Ny)) : seq (user_layer Nx Ny) :=
  [:: UserLayer "sup" 0 (LayerIn None (EpsUniform _ _ 1));
      UserLayer "gr" 0 (LayerIn (Some 1%Re) (EpsGrid u));
      UserLayer "sub" 0 (LayerIn None (EpsUniform _ _ 1))].

Example C98_case_simulation eig tan tan' pw nh :
  simulate eig Argsort.isort tan' (fun _ => case_lat 2 16 2) (case_us case_v') pw nh "original" =
  match simulate eig Argsort.isort tan (fun _ => case_lat 1 8 1) (case_us case_u) pw nh "original" with
  | Ok out => Ok [seq (sc 2 x.1, x.2) | x <- out]
  | Err e => Err e
  end.
Proof.
apply: (@C98_simulation 2 1 2) => //; first exact: isort_scale_free.
- move=> i; split=> //; last by eexists.
  by split; cbn; ring.
- do !constructor => //=.
  move=> x y x' y' hx _; rewrite !mxE.
  have -> : odd x' = ((x' %% 2)%N == 1%N) by rewrite modn2; case: (odd x').
  by rewrite hx; case: x {hx} => [[|[|//]] ?].
Qed.

Print Assumptions C98_supercell.
Print Assumptions C98_toeplitz.
Print Assumptions C98_simulation.

(** Lemmas about fields on a grid. *)
From Coq Require Import Reals ZArith Lia String.
From mathcomp Require Import all_ssreflect all_algebra.
From mathcomp Require Import complex.
From Verif Require Import RStruct Cplx Base Fourier_Model Fourier_Spec Fourier_Proofs Sim_Model Setup_Model.
From Verif Require Import Grid_Model Grid_Spec.

Set Implicit Arguments.
Unset Strict Implicit.
Unset Printing Implicit Defensive.

Import GRing.Theory.
Local Open Scope ring_scope.
Local Open Scope complex_scope.

Section Amps.
Variables (nh : nat) (h : 'I_nh -> order).

Lemma in_harmonics (P : order -> Prop) :
  (forall o, List.In o [seq h i | i <- enum 'I_nh] -> P o) <-> forall i, P (h i).
Proof.
split=> [H i|H o /List.in_map_iff [i [<- _]] //].
apply: H; apply: List.in_map.
have : i \in enum 'I_nh by rewrite mem_enum.
by elim: (enum _) => //= j s IH; rewrite in_cons => /orP [/eqP ->|/IH ?]; [left|right].
Qed.

Lemma indexedP n0 n1 : (0 < n0)%N -> (0 < n1)%N ->
  (indexed h n0 n1 /\ [forall i, isSome (unit_at n0 n1 (h i))]) \/
  (~ indexed h n0 n1 /\ ~~ [forall i, isSome (unit_at n0 n1 (h i))]).
Proof.
move=> p0 p1; case: (boolP [forall i, _]) => H; [left|right]; split=> //.
- move=> i; have := forallP H i.
  by case: (unit_atP n0 n1 (h i)) => [[? _]|[_ ->]].
- move=> K; case/forallPn: H => i; case: (unit_atP n0 n1 (h i)) => [[_ [a [b [-> _]]]] //|[hn _] _].
  exact: hn (K i).
Qed.

Lemma nth_error_map (A B : Type) (f : A -> B) s k : List.nth_error (map f s) k = omap f (List.nth_error s k).
Proof. by elim: s k => [|a s IH] [|k] //=. Qed.

Lemma nth_error_enum n (i : 'I_n) : List.nth_error (enum 'I_n) i = Some i.
Proof.
have : forall (s : seq 'I_n) k, (k < size s)%N -> List.nth_error s k = Some (nth i s k).
  by elim=> [|a s IH] [|k] //= hk; apply: IH.
by move=> ->; rewrite ?nth_ord_enum // size_enum_ord.
Qed.

Lemma planeE n0 n1 nz (A : 'M[C]_(nz, nh)) (z : 'I_nz) : (0 < n0)%N -> (0 < n1)%N -> indexed h n0 n1 ->
  List.nth_error (planes h n0 n1 A) z = Some (Some (\matrix_(x, y) cell_value h (row z A)^T x y)).
Proof.
move=> p0 p1 hi; rewrite /planes /get_ifft_amplitudes -map_comp nth_error_map.
rewrite nth_error_enum /=; congr Some.
have hsz : size [seq h i | i <- enum 'I_nh] = size [seq A z i | i <- enum 'I_nh] by rewrite !size_map.
case: (get_ifftP p0 p1 hsz) => [[_ ->]|[H _]]; last by case: H; exact/in_harmonics.
congr Some; apply/matrixP=> x y; rewrite !mxE zip_map big_map big_enum /=.
by apply: eq_bigr => i _; rewrite !mxE.
Qed.

Lemma entryE n0 n1 (P : 'M[C]_(n0, n1)) (x : 'I_n0) (y : 'I_n1) : entry P x y = Some (P x y).
Proof. by rewrite /entry !valK. Qed.

(** ** get_ifft_amplitudes *)
Lemma ifft_amplitudesP nz (A : 'M[C]_(nz, nh)) n0 n1 rest : (0 < n0)%N -> (0 < n1)%N ->
  (indexed h n0 n1 /\ exists a, ifft_amplitudes h A (n0 :: n1 :: rest) = Ok a /\
     nd_shape a = n0 :: n1 :: rest ++ [:: nz] /\
     forall (x : 'I_n0) (y : 'I_n1) t (z : 'I_nz), in_shape t rest ->
       nd_get a (val x :: val y :: t ++ [:: val z]) = Some (cell_value h (row z A)^T x y)) \/
  (~ indexed h n0 n1 /\ ifft_amplitudes h A (n0 :: n1 :: rest) = Err IndexError).
Proof.
move=> p0 p1; rewrite /ifft_amplitudes.
case: {-}_ / idP => [le|]; last by rewrite leqnn.
set B := \matrix_(_, _) _; have -> : B = A.
  by apply/matrixP=> z i; rewrite mxE; congr (A z _); apply: val_inj.
case: (indexedP p0 p1) => [[hi ->]|[hi /negPf ->]]; [left|right]; split=> //.
eexists; split; first by []; split=> //= x y t z ht.
have -> : in_shape (t ++ [:: val z]) (rest ++ [:: nz]).
  rewrite /in_shape; elim: t rest ht => [|b t IH] [|c r] //=; first by rewrite ltn_ord.
  by move=> /andP [-> /IH].
by rewrite last_cat /= planeE // entryE mxE.
Qed.

Lemma ifft_amplitudes_nil nz m (A : 'M[C]_(nz, m)) : ifft_amplitudes h A [::] = Err IndexError.
Proof. by rewrite /ifft_amplitudes; case: {-}_ / idP. Qed.

Lemma ifft_amplitudes_1dP m (u : 'rV[C]_m) shape : (1 < nh)%N -> ifft_amplitudes_1d h u shape = Err IndexError.
Proof.
move=> hn; rewrite /ifft_amplitudes_1d /ifft_amplitudes; case: {-}_ / idP => // le.
by have := leq_trans hn le.
Qed.
End Amps.

(** ** Parseval on the grid *)
Section Parseval.
Variables (nh : nat) (h : 'I_nh -> order) (n0 n1 : nat).
Hypotheses (p0 : (0 < n0)%N) (p1 : (0 < n1)%N) (hr : resolved h n0 n1).

Lemma wave_conj m n (x : 'I_n0) (y : 'I_n1) : conj (wave m n x y) = wave (- m) (- n) x y.
Proof. by rewrite !waveE conjM !root_conj; congr (root _ _ * root _ _); lia. Qed.
Lemma waveM m n m' n' (x : 'I_n0) (y : 'I_n1) : wave m n x y * wave m' n' x y = wave (m + m') (n + n') x y.
Proof. by rewrite !waveE mulrACA -!rootD; congr (root _ _ * root _ _); lia. Qed.

Lemma parseval (a b : 'cV[C]_nh) :
  mean (\matrix_(x < n0, y < n1) (cell_value h a x y * conj (cell_value h b x y))) =
  \sum_i a i ord0 * conj (b i ord0).
Proof.
rewrite /mean; set N := (_ * _)%:R; have N0 : N != 0 :> C by exact: NxNy_neq0.
have -> : \sum_x \sum_y (\matrix_(x < n0, y < n1) (cell_value h a x y * conj (cell_value h b x y))) x y =
  \sum_i \sum_j a i ord0 * conj (b j ord0) *
    \sum_(x < n0) \sum_(y < n1) wave ((h i).1 - (h j).1) ((h i).2 - (h j).2) x y.
  transitivity (\sum_(x < n0) \sum_(y < n1) \sum_i \sum_j
      a i ord0 * conj (b j ord0) * wave ((h i).1 - (h j).1) ((h i).2 - (h j).2) x y).
    apply: eq_bigr => x _; apply: eq_bigr => y _; rewrite mxE /cell_value conj_sum mulr_suml.
    apply: eq_bigr => i _; rewrite mulr_sumr; apply: eq_bigr => j _.
    by rewrite conjM wave_conj mulrACA waveM.
  transitivity (\sum_(x < n0) \sum_i \sum_(y < n1) \sum_j
      a i ord0 * conj (b j ord0) * wave ((h i).1 - (h j).1) ((h i).2 - (h j).2) x y).
    by apply: eq_bigr => x _; rewrite exchange_big.
  rewrite exchange_big /=; apply: eq_bigr => i _.
  transitivity (\sum_(x < n0) \sum_j \sum_(y < n1)
      a i ord0 * conj (b j ord0) * wave ((h i).1 - (h j).1) ((h i).2 - (h j).2) x y).
    by apply: eq_bigr => x _; rewrite exchange_big.
  rewrite exchange_big /=; apply: eq_bigr => j _.
  by rewrite mulr_sumr; apply: eq_bigr => x _; rewrite mulr_sumr.
rewrite mulr_suml; apply: eq_bigr => i _.
rewrite (bigD1 i) //= mulrDl [X in _ + X * _]big1 ?mul0r ?addr0 => [|j ji].
  by rewrite !Z.sub_diag wave_mean // !Zmod_0_l /= mulfK.
rewrite wave_mean //; case: ifP => [/andP [/Z.eqb_eq e1 /Z.eqb_eq e2]|]; rewrite ?mulr0 //.
by have : i != j by [rewrite eq_sym]; move/hr; case.
Qed.
End Parseval.

(** ** get_field_grid *)
Lemma mapr_map (A B : Type) (f : A -> res B) (g : A -> B) s :
  (forall a, List.In a s -> f a = Ok (g a)) -> mapr f s = Ok (map g s).
Proof.
elim: s => [|a s IH] H //=; rewrite H /=; last by left.
by rewrite IH // => b hb; apply: H; right.
Qed.

Section Run.
Variables (Nx Ny nh : nat).
Variable eig : forall m, 'M[C]_m -> 'rV[C]_m * 'M[C]_m.
Variable pw : planewave.
Variable rec : 'M[R]_2.
Variable h : 'I_nh -> order.
Variable form : formulation_t Nx Ny.
Variables (layers : seq (layer_in Nx Ny)) (i0 : 'I_nh) (k : nat).
Notation run_grid := (run_grid eig pw rec h form layers i0 k).
Notation run_field := (run_field eig pw rec h form layers i0 k).

Variable F : R -> fields nh.

Lemma get_fieldP (f : fields nh -> 'cV[C]_nh) (zs : seq R) n0 n1 : (0 < n0)%N -> (0 < n1)%N ->
  (indexed h n0 n1 -> exists a, get_field h f (map F zs) [:: n0; n1] = Ok a /\
     sampled h n0 n1 zs (fun z => f (F z)) a) /\
  (~ indexed h n0 n1 -> get_field h f (map F zs) [:: n0; n1] = Err IndexError).
Proof.
move=> p0 p1; rewrite /get_field.
case: (ifft_amplitudesP h (comp_rows f (map F zs)) [::] p0 p1) => [[hi [a [-> [hs hv]]]]|[hi ->]]; last by [].
split=> // _; exists a; split=> //; split; first by rewrite hs /= size_map.
move=> x y j; have hj : (j < size (map F zs))%N by rewrite size_map.
have := hv x y [::] (Ordinal hj) isT; rewrite /= => ->; congr Some.
apply: eq_bigr => i _; rewrite !mxE (tnth_nth (F 0%Re)) /= (nth_map 0%Re) //.
Qed.

Lemma get_fields3P (fx fy fz : fields nh -> 'cV[C]_nh) (zs : seq R) n0 n1 : (0 < n0)%N -> (0 < n1)%N ->
  (indexed h n0 n1 -> exists a, get_fields3 h fx fy fz (map F zs) [:: n0; n1] = Ok a /\
     sampled3 h n0 n1 zs (fun z => fx (F z)) (fun z => fy (F z)) (fun z => fz (F z)) a) /\
  (~ indexed h n0 n1 -> get_fields3 h fx fy fz (map F zs) [:: n0; n1] = Err IndexError).
Proof.
move=> p0 p1; rewrite /get_fields3.
have [gx ex] := get_fieldP fx zs p0 p1; have [gy _] := get_fieldP fy zs p0 p1.
have [gz _] := get_fieldP fz zs p0 p1.
split=> hi; last by rewrite ex.
have [a [-> [sa va]]] := gx hi; have [b [-> [_ vb]]] := gy hi; have [c [-> [_ vc]]] := gz hi.
exists (stack3 a b c); split=> //; split=> [|x y j] /=; first by rewrite sa.
by rewrite va vb vc.
Qed.

Lemma run_gridE l z zs shape field component :
  List.In field [:: "all"; "E"; "H"]%string -> List.In component [:: "all"; "x"; "y"; "z"]%string ->
  List.nth_error layers k = Some l ->
  (forall z', List.In z' (z :: zs) -> run_field z' = Ok (F z')) ->
  run_grid z zs shape field component =
  let sh := if shape is Some (n :: s) then n :: s else eps_shape (li_eps l) in
  let Fs := map F (z :: zs) in
  if String.eqb component "all" then
    select field (get_fields3 h (@f_ex nh) (@f_ey nh) (@f_ez nh) Fs sh) (get_fields3 h (@f_hx nh) (@f_hy nh) (@f_hz nh) Fs sh)
  else if String.eqb component "x" then
    select field (get_field h (@f_ex nh) Fs sh) (get_field h (@f_hx nh) Fs sh)
  else if String.eqb component "y" then
    select field (get_field h (@f_ey nh) Fs sh) (get_field h (@f_hy nh) Fs sh)
  else
    select field (get_field h (@f_ez nh) Fs sh) (get_field h (@f_hz nh) Fs sh).
Proof.
move=> hf hc hk hF; rewrite /Grid_Model.run_grid hk (mapr_map hF).
have -> : is_in field [:: "all"; "E"; "H"]%string by case: hf => [<-|[<-|[<-|]]].
by have -> : is_in component [:: "all"; "x"; "y"; "z"]%string by case: hc => [<-|[<-|[<-|[<-|]]]].
Qed.

Lemma is_inP s l : is_in s l -> List.In s l.
Proof. by elim: l => //= a l IH /orP [/String.eqb_eq ->|/IH]; [left|right]. Qed.

Lemma run_grid_fail z zs shape field component e : run_field z = Err e -> (k < size layers)%N ->
  List.In field [:: "all"; "E"; "H"]%string -> List.In component [:: "all"; "x"; "y"; "z"]%string ->
  run_grid z zs shape field component = Err e.
Proof.
move=> hF hk hf hc; rewrite /Grid_Model.run_grid.
have -> : is_in field [:: "all"; "E"; "H"]%string by case: hf => [<-|[<-|[<-|]]].
have -> : is_in component [:: "all"; "x"; "y"; "z"]%string by case: hc => [<-|[<-|[<-|[<-|]]]].
case E: (List.nth_error _ _) => [l|]; first by rewrite /= hF.
by move/List.nth_error_None: E; rewrite -[List.length _]/(size layers) => /leP; rewrite leqNgt hk.
Qed.

Lemma select_err field (E H : res nd) e : List.In field [:: "all"; "E"; "H"]%string ->
  E = Err e -> H = Err e -> select field E H = Err e.
Proof. by case=> [<-|[<-|[<-|]]] // -> ->. Qed.
End Run.

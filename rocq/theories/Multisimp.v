(** optimize.py: [simp] and [multi_simp] for complex permittivities. *)
From Coq Require Import Reals ZArith Lra.
From mathcomp Require Import all_ssreflect all_algebra.
From mathcomp Require Import complex.
From Verif Require Import Optimize_Model Optimize_Proofs.
From Verif Require Import RStruct Cplx Base Fourier_Model Sim_Model.

Set Implicit Arguments.
Unset Strict Implicit.
Unset Printing Implicit Defensive.

Import Order.TTheory GRing.Theory Num.Theory.
Local Open Scope ring_scope.
Local Open Scope complex_scope.

(** The complex numbers, under a name usable without the mathcomp notations. *)
Definition CC : Type := C.

(** optimize.py:21-22. *)
Definition csimp (x : R) (eps_min eps_max : C) (p : R) : C :=
  (eps_max - eps_min) * rc (pypow x p) + eps_min.

(** optimize.py:42-60: [linspace(0, 1, npts)][k]. *)
Definition pt (n k : nat) : R := if n == 1%N then 0%Re else (INR k / INR (n - 1))%Re.

Definition multi_simp (x : R) (epsilons : seq C) (p : R) : res C :=
  let n := size epsilons in
  if n == 2%N then Ok (csimp x (nth 0 epsilons 0%N) (nth 0 epsilons 1%N) p)
  else
    let M := \matrix_(i < n, j < n) rc (pypow (pt n i) (INR j * p)%Re) in
    let! Mi := linv M in
    let coefs := Mi *m \col_(i < n) nth 0 epsilons i in
    Ok (\sum_(j < n) coefs j ord0 * rc (pypow x (INR j * p)%Re)).

Lemma pt_lt n i j : (j < n)%N -> (i < j)%N -> (pt n i < pt n j)%Re.
Proof.
move=> jn ij; rewrite /pt; case: eqP => [n1|n1]; first by move: ij jn; rewrite n1; case: j => [|[]].
apply: Rmult_lt_compat_r; last by apply: lt_INR; apply/ssrnat.ltP.
apply: Rinv_0_lt_compat; apply: lt_0_INR; apply/ssrnat.ltP.
by move: n1 jn; case: n => [|[|n]] // _ _; rewrite subn1.
Qed.

Lemma pt_ge0 n i : (i < n)%N -> (0 <= pt n i)%Re.
Proof.
move=> i_n; rewrite /pt; case: eqP => [_|n1]; first exact: Rle_refl.
case: n n1 i_n => [|[|n]] // n1 _.
apply: Rmult_le_pos; first exact: pos_INR.
by left; apply: Rinv_0_lt_compat; apply: lt_0_INR; apply/ssrnat.ltP; rewrite subn1.
Qed.

Section Vdm.
Variables (n : nat) (y : 'I_n -> C).
Hypothesis yinj : injective y.

Lemma vdm_unit : \matrix_(i < n, j < n) (y i ^+ j) \in unitmx.
Proof.
rewrite -unitmx_tr -row_free_unit; apply: inj_row_free => v hv.
pose q : {poly C} := \poly_(k < n) (if insub k is Some j then v ord0 j else 0).
have qE i : q.[y i] = 0.
  rewrite horner_poly.
  have := congr1 (fun A : 'rV_n => A ord0 i) hv; rewrite !mxE => h.
  rewrite -[RHS]h; apply: eq_bigr => j _; rewrite !mxE.
  by rewrite valK.
have q0 : q = 0.
  apply/eqP; apply: contraT => qn0.
  have : (size [seq y i | i <- enum 'I_n] < size q)%N.
    apply: max_poly_roots => //.
    - by apply/allP => z /mapP [i _ ->]; apply/rootP; exact: qE.
    - by rewrite map_inj_uniq ?enum_uniq.
  by rewrite size_map size_enum_ord ltnNge size_poly.
apply/rowP => j; rewrite mxE.
have : q`_j = 0 by rewrite q0 coef0.
by rewrite coef_poly ltn_ord valK.
Qed.
End Vdm.

Lemma rcX (x : R) k : rc (x ^ k)%Re = rc x ^+ k.
Proof. by rewrite R_expE rmorphX. Qed.

Lemma rc_inj (x y : R) : rc x = rc y -> x = y.
Proof. by case. Qed.

Lemma pt_inj n p : (0 < p)%Re -> injective (fun i : 'I_n => rc (pypow (pt n i) p)).
Proof.
move=> hp i j; cbv beta => H; apply rc_inj in H; apply: val_inj.
case: (ltngtP (val i) (val j)) => // h; exfalso.
- apply: (Rlt_not_eq _ _ (pypow_lt hp (pt_ge0 (ltn_ord i)) (pt_lt (ltn_ord j) h))); exact: H.
- apply: (Rlt_not_eq _ _ (pypow_lt hp (pt_ge0 (ltn_ord j)) (pt_lt (ltn_ord i) h))); exact: esym H.
Qed.

Theorem multi_simp_hits (epsilons : seq C) (p : R) k :
  (0 < p)%Re -> (k < size epsilons)%N ->
  multi_simp (pt (size epsilons) k) epsilons p = Ok (nth 0 epsilons k).
Proof.
move=> hp kn; rewrite /multi_simp.
case: ifP => [/eqP n2|/eqP n2].
  rewrite n2 in kn *; congr (Ok _); rewrite /csimp /pt.
  case: k kn => [|[|k]] // _.
  - by rewrite [INR 0]/= /Rdiv Rmult_0_l (pypow_0 hp) mulr0 add0r.
  - have -> : (INR 1 / INR (2 - 1)%N)%Re = 1%Re by apply: Rinv_r; exact: R1_neq_R0.
    by rewrite pypow_1 mulr1 subrK.
set n := size epsilons in kn n2 *.
set M := \matrix_(i, j) _.
have ME : M = \matrix_(i < n, j < n) (rc (pypow (pt n i) p) ^+ j).
  apply/matrixP => i j; rewrite !mxE pypow_nat //; last exact: pt_ge0.
  by rewrite rcX.
have uM : M \in unitmx by rewrite ME; exact: vdm_unit (@pt_inj n p hp).
rewrite /linv uM /=; congr (Ok _).
have := congr1 (fun A : 'cV_n => A (Ordinal kn) ord0) (mulKVmx uM (\col_(i < n) nth 0 epsilons i)).
rewrite !mxE => <-; apply: eq_bigr => j _.
by rewrite mulrC; congr (_ * _); rewrite !mxE.
Qed.

Lemma csimp_0 a b p : (0 < p)%Re -> csimp 0%Re a b p = a.
Proof. by move=> hp; rewrite /csimp (pypow_0 hp) mulr0 add0r. Qed.

Lemma csimp_1 a b p : csimp 1%Re a b p = b.
Proof. by rewrite /csimp pypow_1 mulr1 subrK. Qed.

(** The same with the operations of the standard library. *)
Lemma nth_plain T (l : list T) k d d' : (k < size l)%N -> seq.nth d' l k = List.nth k l d.
Proof. by elim: l k => [|a l IH] [|k] //=; exact: IH. Qed.

Lemma multi_simp_plain (eps : list CC) (p : R) k d :
  (0 < p)%Re -> (k < List.length eps)%coq_nat ->
  multi_simp (if Nat.eqb (List.length eps) 1 then 0%Re
              else (INR k / INR (Nat.sub (List.length eps) 1))%Re) eps p = Ok (List.nth k eps d).
Proof.
move=> hp /ssrnat.ltP kn; rewrite -(nth_plain d 0 kn) -(multi_simp_hits hp kn).
congr (multi_simp _ _ _).
Qed.

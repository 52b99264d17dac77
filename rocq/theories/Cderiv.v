(** Derivatives of functions R -> C, componentwise (infrastructure). *)
From Coq Require Import Reals Lra FunctionalExtensionality.
From mathcomp Require Import all_ssreflect all_algebra.
From mathcomp Require Import complex.
From Verif Require Import RStruct Cplx.

Set Implicit Arguments.
Unset Strict Implicit.
Unset Printing Implicit Defensive.

Import Order.TTheory GRing.Theory Num.Theory.
Local Open Scope ring_scope.
Local Open Scope complex_scope.

Notation cre := (@complex.Re R).
Notation cim := (@complex.Im R).

(** [f] has derivative [d] at [z]. *)
Definition cderiv (f : R -> C) (z : R) (d : C) : Prop :=
  derivable_pt_lim (fun t => complex.Re (f t)) z (complex.Re d) /\
  derivable_pt_lim (fun t => complex.Im (f t)) z (complex.Im d).

Lemma cderiv_ext f g z d : (forall t, f t = g t) -> cderiv f z d -> cderiv g z d.
Proof. by move=> e; have -> : f = g by apply: functional_extensionality. Qed.

Lemma cderiv_const c z : cderiv (fun _ => c) z 0.
Proof. by split; apply: derivable_pt_lim_const. Qed.

Lemma cderiv_add f g z d e : cderiv f z d -> cderiv g z e ->
  cderiv (fun t => f t + g t) z (d + e).
Proof.
move=> [f1 f2] [g1 g2]; split.
- have -> : (fun t => complex.Re (f t + g t)) =
    plus_fct (fun t => complex.Re (f t)) (fun t => complex.Re (g t)).
    by apply: functional_extensionality=> t; rewrite /plus_fct; case: (f t) => ? ?; case: (g t).
  have -> : complex.Re (d + e) = Rplus (complex.Re d) (complex.Re e) by case: d {f1 f2} => ? ?; case: e {g1 g2}.
  exact: derivable_pt_lim_plus.
- have -> : (fun t => complex.Im (f t + g t)) =
    plus_fct (fun t => complex.Im (f t)) (fun t => complex.Im (g t)).
    by apply: functional_extensionality=> t; rewrite /plus_fct; case: (f t) => ? ?; case: (g t).
  have -> : complex.Im (d + e) = Rplus (complex.Im d) (complex.Im e) by case: d {f1 f2} => ? ?; case: e {g1 g2}.
  exact: derivable_pt_lim_plus.
Qed.

Lemma cderiv_scale c f z d : cderiv f z d -> cderiv (fun t => c * f t) z (c * d).
Proof.
move=> [f1 f2]; case: c => a b; split.
- have -> : (fun t => complex.Re ((a +i* b) * f t)) =
    minus_fct (mult_real_fct a (fun t => complex.Re (f t)))
              (mult_real_fct b (fun t => complex.Im (f t))).
    by apply: functional_extensionality=> t; rewrite /minus_fct /mult_real_fct; case: (f t).
  have -> : complex.Re ((a +i* b) * d) = Rminus (Rmult a (complex.Re d)) (Rmult b (complex.Im d)).
    by case: d {f1 f2}.
  by apply: derivable_pt_lim_minus; apply: derivable_pt_lim_scal.
- have -> : (fun t => complex.Im ((a +i* b) * f t)) =
    plus_fct (mult_real_fct a (fun t => complex.Im (f t)))
              (mult_real_fct b (fun t => complex.Re (f t))).
    by apply: functional_extensionality=> t; rewrite /plus_fct /mult_real_fct; case: (f t) => x y /=; rfold; ring.
  have -> : complex.Im ((a +i* b) * d) = Rplus (Rmult a (complex.Im d)) (Rmult b (complex.Re d)).
    by case: d {f1 f2} => x y /=; rfold; ring.
  by apply: derivable_pt_lim_plus; apply: derivable_pt_lim_scal.
Qed.

Lemma cderiv_sum (I : Type) (r : seq I) (f : I -> R -> C) (d : I -> C) z :
  (forall i, cderiv (f i) z (d i)) ->
  cderiv (fun t => \sum_(i <- r) f i t) z (\sum_(i <- r) d i).
Proof.
move=> h; elim: r => [|i r IH].
  apply: (@cderiv_ext (fun _ => 0)); first by move=> t; rewrite big_nil.
  by rewrite big_nil; apply: cderiv_const.
rewrite big_cons; apply: (@cderiv_ext (fun t => f i t + \sum_(j <- r) f j t)).
  by move=> t; rewrite big_cons.
exact: cderiv_add.
Qed.

Lemma derivable_pt_lim_eq f z d e : d = e -> derivable_pt_lim f z d -> derivable_pt_lim f z e.
Proof. by move=> ->. Qed.

(** d/dz exp(c z + k) = c exp(c z + k) *)
Lemma cderiv_exp (c k : C) z :
  cderiv (fun t => cexp (c * (real_complex R_rcfType t) + k)) z (c * cexp (c * (real_complex R_rcfType z) + k)).
Proof.
case: c => a b; case: k => k1 k2.
have lin u v : derivable_pt_lim (fun t => (u * t + v)%Re) z u.
  apply: (@derivable_pt_lim_eq _ _ (u * 1 + 0)%Re); first by ring.
  apply: derivable_pt_lim_plus; last exact: derivable_pt_lim_const.
  exact: (derivable_pt_lim_scal id u z 1 (derivable_pt_lim_id z)).
have E t : cexp ((a +i* b) * (real_complex R_rcfType t) + (k1 +i* k2)) =
  ((exp (a * t + k1) * cos (b * t + k2))%Re +i* (exp (a * t + k1) * sin (b * t + k2))%Re).
  rewrite /cexp /=; rfold.
  have -> : (a * t - b * 0 + k1)%Re = (a * t + k1)%Re by ring.
  by have -> : (a * 0 + b * t + k2)%Re = (b * t + k2)%Re by ring.
have dexp : derivable_pt_lim (fun t => exp (a * t + k1)%Re) z (exp (a * z + k1) * a)%Re.
  by apply: (derivable_pt_lim_comp (fun t => (a * t + k1)%Re) exp); [exact: lin|exact: derivable_pt_lim_exp].
have dcos : derivable_pt_lim (fun t => cos (b * t + k2)%Re) z (- sin (b * z + k2) * b)%Re.
  by apply: (derivable_pt_lim_comp (fun t => (b * t + k2)%Re) cos); [exact: lin|exact: derivable_pt_lim_cos].
have dsin : derivable_pt_lim (fun t => sin (b * t + k2)%Re) z (cos (b * z + k2) * b)%Re.
  by apply: (derivable_pt_lim_comp (fun t => (b * t + k2)%Re) sin); [exact: lin|exact: derivable_pt_lim_sin].
split.
- have -> : (fun t => complex.Re (cexp ((a +i* b) * (real_complex R_rcfType t) + (k1 +i* k2)))) =
    mult_fct (fun t => exp (a * t + k1)%Re) (fun t => cos (b * t + k2)%Re).
    by apply: functional_extensionality=> t; rewrite E.
  apply: derivable_pt_lim_eq (derivable_pt_lim_mult _ _ _ _ _ dexp dcos).
  by rewrite E /=; rfold; ring.
- have -> : (fun t => complex.Im (cexp ((a +i* b) * (real_complex R_rcfType t) + (k1 +i* k2)))) =
    mult_fct (fun t => exp (a * t + k1)%Re) (fun t => sin (b * t + k2)%Re).
    by apply: functional_extensionality=> t; rewrite E.
  apply: derivable_pt_lim_eq (derivable_pt_lim_mult _ _ _ _ _ dexp dsin).
  by rewrite E /=; rfold; ring.
Qed.

(** A function with a derivative everywhere equal to 0 is constant. *)
Lemma cderiv_unique f z d e : cderiv f z d -> cderiv f z e -> d = e.
Proof.
move=> [a b] [c e']; apply/eqP; rewrite eq_complex; apply/andP.
by split; apply/eqP; [apply: uniqueness_limite a c|apply: uniqueness_limite b e'].
Qed.

Lemma cderiv_mul f g z d e : cderiv f z d -> cderiv g z e ->
  cderiv (fun t => f t * g t) z (d * g z + f z * e).
Proof.
move=> [f1 f2] [g1 g2]; split.
- have -> : (fun t => complex.Re (f t * g t)) =
    minus_fct (mult_fct (fun t => complex.Re (f t)) (fun t => complex.Re (g t)))
              (mult_fct (fun t => complex.Im (f t)) (fun t => complex.Im (g t))).
    by apply: functional_extensionality=> t; rewrite /minus_fct /mult_fct; case: (f t) => ? ?; case: (g t).
  apply: derivable_pt_lim_eq (derivable_pt_lim_minus _ _ _ _ _
    (derivable_pt_lim_mult _ _ _ _ _ f1 g1) (derivable_pt_lim_mult _ _ _ _ _ f2 g2)).
  by case: d {f1 f2} => ? ?; case: e {g1 g2} => ? ? /=; case: (f z) => ? ?; case: (g z) => ? ? /=; rfold; ring.
- have -> : (fun t => complex.Im (f t * g t)) =
    plus_fct (mult_fct (fun t => complex.Re (f t)) (fun t => complex.Im (g t)))
              (mult_fct (fun t => complex.Im (f t)) (fun t => complex.Re (g t))).
    by apply: functional_extensionality=> t; rewrite /plus_fct /mult_fct; case: (f t) => ? ?; case: (g t) => ? ? /=; rfold; ring.
  apply: derivable_pt_lim_eq (derivable_pt_lim_plus _ _ _ _ _
    (derivable_pt_lim_mult _ _ _ _ _ f1 g2) (derivable_pt_lim_mult _ _ _ _ _ f2 g1)).
  by case: d {f1 f2} => ? ?; case: e {g1 g2} => ? ? /=; case: (f z) => ? ?; case: (g z) => ? ? /=; rfold; ring.
Qed.

Lemma cderiv_conj f z d : cderiv f z d -> cderiv (fun t => conjc (f t)) z (conjc d).
Proof.
move=> [f1 f2]; split.
- have -> : (fun t => complex.Re (conjc (f t))) = (fun t => complex.Re (f t)).
    by apply: functional_extensionality=> t; case: (f t).
  by case: d f1 {f2}.
- have -> : (fun t => complex.Im (conjc (f t))) = opp_fct (fun t => complex.Im (f t)).
    by apply: functional_extensionality=> t; rewrite /opp_fct; case: (f t).
  have -> : complex.Im (conjc d) = Ropp (complex.Im d) by case: d {f1 f2}.
  exact: derivable_pt_lim_opp.
Qed.

(** A real function with zero derivative everywhere is constant. *)
Lemma deriv0_const (f : R -> R) : (forall z, derivable_pt_lim f z 0%Re) -> forall x y, f x = f y.
Proof.
move=> hd.
have pr : derivable f by move=> z; exists 0%Re; exact: hd.
have h0 : forall z (p : derivable_pt f z), derive_pt f z p = 0%Re.
  by move=> z p; apply: (derive_pt_eq_0 _ _ _ p (hd z)).
have key a b : (a < b)%Re -> f a = f b.
  move=> ab; have [c [hc _]] := MVT_cor2 f (fun _ => 0%Re) a b ab (fun c _ => hd c).
  lra.
move=> x y; case: (Rtotal_order x y) => [h|[->|h]] //; first exact: key.
by symmetry; apply: key.
Qed.

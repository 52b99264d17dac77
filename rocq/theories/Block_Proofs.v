From mathcomp Require Import all_ssreflect all_algebra.
From Verif Require Import Base Block_Model.

Set Implicit Arguments.
Unset Strict Implicit.
Unset Printing Implicit Defensive.
Import GRing.Theory.
Local Open Scope ring_scope.

Section P.
Variable F : fieldType.
Implicit Types (a b : quad F) (A B : arr F).

Lemma blockE n a : shaped4 n n a ->
  exists M, block a = Ok M /\ nr M = (n + n)%N /\ nc M = (n + n)%N /\
   forall i j, at_ M i j =
     if (i < n)%N then (if (j < n)%N then at_ (q00 a) i j else at_ (q01 a) i (j - n))
     else (if (j < n)%N then at_ (q10 a) (i - n) j else at_ (q11 a) (i - n) (j - n)).
Proof.
case=> -[r0 c0] [[r1 c1] [[r2 c2] [r3 c3]]].
rewrite /block /hstack r0 r1 r2 r3 eqxx /= /vstack /= c0 c1 c2 c3 eqxx.
by eexists; split; first reflexivity.
Qed.

Lemma get_blockE n M (i j : nat) : nr M = (n + n)%N -> nc M = (n + n)%N -> (i < 2)%N -> (j < 2)%N ->
  shaped n n (@get_block F M i j n).
Proof.
move=> r c hi hj; split; rewrite /= ?r ?c.
- by case: i hi => [|[|//]] _; rewrite ?mul0n ?min0n ?subn0 ?mul1n ?mulSn ?mul0n ?addn0;
   rewrite ?(minn_idPl (leq_addr _ _)) // minnn addnK.
- by case: j hj => [|[|//]] _; rewrite ?mul0n ?min0n ?subn0 ?mul1n ?mulSn ?mul0n ?addn0;
   rewrite ?(minn_idPl (leq_addr _ _)) // minnn addnK.
Qed.

Lemma block2list_shape n M : nr M = (n + n)%N -> nc M = (n + n)%N -> shaped4 n n (@block2list F M n).
Proof. by move=> r c; repeat split; case: (@get_blockE n M _ _ r c (isT : (0 < 2)%N) (isT : (0 < 2)%N));
  case: (@get_blockE n M _ _ r c (isT : (1 < 2)%N) (isT : (1 < 2)%N)). Qed.

Lemma block_roundtrip n a : shaped4 n n a ->
  exists M, block a = Ok M /\ shaped (n + n) (n + n) M /\ same4 (block2list M n) a.
Proof.
move=> sh; case: (blockE sh) => M [E [r [c at_M]]]; exists M; split=> //; split=> //.
case: (block2list_shape r c) => -[s0 t0] [[s1 t1] [[s2 t2] [s3 t3]]].
case: sh => -[r0 c0] [[r1 c1] [[r2 c2] [r3 c3]]].
rewrite /same4 /same.
rewrite s0 s1 s2 s3 t0 t1 t2 t3 r0 r1 r2 r3 c0 c1 c2 c3.
split; [|split; [|split]]; do 2!(split=> //); move=> i j hi hj /=; rewrite at_M ?mul0n ?mul1n ?add0n.
- by rewrite hi hj.
- by rewrite hi ltnNge leq_addr /= addKn.
- by rewrite hj ltnNge leq_addr /= addKn.
- by rewrite !ltnNge !leq_addr /= !addKn.
Qed.

Lemma map2E n f A B : shaped n n A -> shaped n n B ->
  exists D, map2 f A B = Ok D /\ shaped n n D /\
    forall i j, (i < n)%N -> (j < n)%N -> at_ D i j = f (at_ A i j) (at_ B i j).
Proof.
move=> [rA cA] [rB cB]; rewrite /map2 rA rB cA cB /bdim eqxx /=.
eexists; split; first reflexivity; split=> // i j hi hj /=; rewrite /bidx.
case: eqP => [n1|_] //; rewrite n1 !ltnS !leqn0 in hi hj.
by rewrite (eqP hi) (eqP hj).
Qed.

Lemma nonzeroP n A : shaped n n A ->
  reflect (forall i j, (i < n)%N -> (j < n)%N -> at_ A i j != 0) (nonzero A).
Proof.
case=> rA cA; apply: (iffP forallP) => H.
- move=> i j hi hj.
  have hi' : (i < nr A)%N by rewrite rA.
  have hj' : (j < nc A)%N by rewrite cA.
  by move: (H (Ordinal hi')) => /forallP /(_ (Ordinal hj')).
- move=> i; apply/forallP => j; apply: H.
  + by rewrite -rA; exact: ltn_ord.
  + by rewrite -cA; exact: ltn_ord.
Qed.

Lemma adivE n A B : shaped n n A -> shaped n n B ->
  (forall i j, (i < n)%N -> (j < n)%N -> at_ B i j != 0) ->
  exists D, adiv A B = Ok D /\ shaped n n D /\
    forall i j, (i < n)%N -> (j < n)%N -> at_ D i j = at_ A i j / at_ B i j.
Proof. by move=> sA sB /(nonzeroP sB) nz; rewrite /adiv nz; exact: map2E. Qed.

Lemma dot2E n (a b c d : arr F) : shaped n n a -> shaped n n b -> shaped n n c -> shaped n n d ->
  exists D, @dot2 F a b c d = Ok D /\ shaped n n D /\
    forall i j, (i < n)%N -> (j < n)%N -> at_ D i j = at_ a i j * at_ b i j + at_ c i j * at_ d i j.
Proof.
move=> sa sb sc sd; rewrite /dot2 /amul /aadd.
case: (map2E (fun x y => x * y) sa sb) => X [-> [sX eX]] /=.
case: (map2E (fun x y => x * y) sc sd) => Y [-> [sY eY]] /=.
case: (map2E (fun x y => x + y) sX sY) => Z [-> [sZ eZ]] /=.
by exists Z; split=> //; split=> // i j hi hj; rewrite eZ // eX // eY.
Qed.

Lemma blockmatmulE n A B : shaped (n + n) (n + n) A -> shaped (n + n) (n + n) B ->
  let a := block2list A n in let b := block2list B n in
  exists M, blockmatmul A B n = Ok M /\ shaped (n + n) (n + n) M /\
   forall i j, (i < n)%N -> (j < n)%N ->
    [/\ at_ (q00 (block2list M n)) i j = at_ (q00 a) i j * at_ (q00 b) i j + at_ (q01 a) i j * at_ (q10 b) i j,
        at_ (q01 (block2list M n)) i j = at_ (q00 a) i j * at_ (q01 b) i j + at_ (q01 a) i j * at_ (q11 b) i j,
        at_ (q10 (block2list M n)) i j = at_ (q10 a) i j * at_ (q00 b) i j + at_ (q11 a) i j * at_ (q10 b) i j &
        at_ (q11 (block2list M n)) i j = at_ (q10 a) i j * at_ (q01 b) i j + at_ (q11 a) i j * at_ (q11 b) i j].
Proof.
move=> [rA cA] [rB cB] a b.
case: (block2list_shape rA cA) => a0 [a1 [a2 a3]].
case: (block2list_shape rB cB) => b0 [b1 [b2 b3]].
rewrite /blockmatmul -/a -/b.
case: (dot2E a0 b0 a1 b2) => X0 [-> [s0 e0]].
case: (dot2E a0 b1 a1 b3) => X1 [-> [s1 e1]].
case: (dot2E a2 b0 a3 b2) => X2 [-> [s2 e2]].
case: (dot2E a2 b1 a3 b3) => X3 [-> [s3 e3]].
cbn [bind].
have sh : shaped4 n n (Quad X0 X1 X2 X3) by [].
case: (block_roundtrip sh) => M [-> [sM sm]]; exists M; split=> //; split=> // i j hi hj.
case: sM => rM cM.
case: (block2list_shape rM cM) => -[k0 l0] [[k1 l1] [[k2 l2] [k3 l3]]].
case: sm => -[_ [_ m0]] [[_ [_ m1]] [[_ [_ m2]] [_ [_ m3]]]].
split.
- by rewrite m0 ?k0 ?l0 //; exact: e0.
- by rewrite m1 ?k1 ?l1 //; exact: e1.
- by rewrite m2 ?k2 ?l2 //; exact: e2.
- by rewrite m3 ?k3 ?l3 //; exact: e3.
Qed.

(** Pointwise determinant of the blocks of T. *)
Definition pdet (T : arr F) (n i j : nat) : F :=
  at_ T i j * at_ T (n + i) (n + j) - at_ T (n + i) j * at_ T i (n + j).

Lemma pdetE n T i j : let M := block2list T n in
  at_ (q00 M) i j * at_ (q11 M) i j - at_ (q10 M) i j * at_ (q01 M) i j = pdet T n i j.
Proof. by rewrite /= /pdet !mul0n !mul1n !add0n. Qed.

Lemma inv2by2blockE n T : shaped (n + n) (n + n) T ->
  (forall i j, (i < n)%N -> (j < n)%N -> pdet T n i j != 0) ->
  let t := block2list T n in
  exists V, inv2by2block T n = Ok V /\ shaped (n + n) (n + n) V /\
   forall i j, (i < n)%N -> (j < n)%N ->
    [/\ at_ (q00 (block2list V n)) i j = at_ (q11 t) i j / pdet T n i j,
        at_ (q01 (block2list V n)) i j = - at_ (q01 t) i j / pdet T n i j,
        at_ (q10 (block2list V n)) i j = - at_ (q10 t) i j / pdet T n i j &
        at_ (q11 (block2list V n)) i j = at_ (q00 t) i j / pdet T n i j].
Proof.
move=> [rT cT] nz t.
case: (block2list_shape rT cT) => a0 [a1 [a2 a3]].
rewrite /inv2by2block -/t.
case: (map2E (fun x y => x * y) a0 a3) => p [Ep [sp ep]]; rewrite /amul Ep.
case: (map2E (fun x y => x * y) a2 a1) => q [Eq [sq eq]]; rewrite Eq.
case: (map2E (fun x y => x - y) sp sq) => d [Ed [sd ed]]; rewrite /asub /=; cbn [bind]; rewrite Ed.
have ed' i j : (i < n)%N -> (j < n)%N -> at_ d i j = pdet T n i j.
  by move=> hi hj; rewrite ed // ep // eq // -pdetE.
have nz' i j : (i < n)%N -> (j < n)%N -> at_ d i j != 0 by move=> hi hj; rewrite ed' //; exact: nz.
cbn [bind].
have n1 : shaped n n (aneg (q01 t)) by case: a1.
have n2 : shaped n n (aneg (q10 t)) by case: a2.
case: (adivE a3 sd nz') => X0 [E0 [s0 e0]]; rewrite E0.
case: (adivE n1 sd nz') => X1 [E1 [s1 e1]]; rewrite E1.
case: (adivE n2 sd nz') => X2 [E2 [s2 e2]]; rewrite E2.
case: (adivE a0 sd nz') => X3 [E3 [s3 e3]]; rewrite E3.
cbn [bind].
have sh : shaped4 n n (Quad X0 X1 X2 X3) by [].
case: (block_roundtrip sh) => M [-> [sM sm]]; exists M; split=> //; split=> // i j hi hj.
case: sM => rM cM.
case: (block2list_shape rM cM) => -[k0 l0] [[k1 l1] [[k2 l2] [k3 l3]]].
case: sm => -[_ [_ m0]] [[_ [_ m1]] [[_ [_ m2]] [_ [_ m3]]]].
have M0 : at_ (q00 (block2list M n)) i j = at_ X0 i j by apply: m0; rewrite ?k0 ?l0.
have M1 : at_ (q01 (block2list M n)) i j = at_ X1 i j by apply: m1; rewrite ?k1 ?l1.
have M2 : at_ (q10 (block2list M n)) i j = at_ X2 i j by apply: m2; rewrite ?k2 ?l2.
have M3 : at_ (q11 (block2list M n)) i j = at_ X3 i j by apply: m3; rewrite ?k3 ?l3.
rewrite -(ed' i j hi hj); split.
- exact: etrans M0 (e0 i j hi hj).
- exact: etrans M1 (e1 i j hi hj).
- exact: etrans M2 (e2 i j hi hj).
- exact: etrans M3 (e3 i j hi hj).
Qed.

(** 2x2 algebra at one point. *)
Lemma inv_point (x y z w d : F) : d = x * w - z * y -> d != 0 ->
  [/\ x * (w / d) + y * (- z / d) = 1, x * (- y / d) + y * (x / d) = 0,
      z * (w / d) + w * (- z / d) = 0 & z * (- y / d) + w * (x / d) = 1] /\
  [/\ w / d * x + - y / d * z = 1, w / d * y + - y / d * w = 0,
      - z / d * x + x / d * z = 0 & - z / d * y + x / d * w = 1].
Proof.
move=> E nz; split; split; rewrite ?mulNr ?mulrN ?mulrA ?(mulrAC _ d^-1) ?mulrA.
- by rewrite (mulrC y z) -mulrBl -E divff.
- by rewrite (mulrC y x) addNr.
- by rewrite (mulrC w z) subrr.
- by rewrite (mulrC w x) addrC -mulrBl -E divff.
- by rewrite (mulrC w x) (mulrC y z) -mulrBl -E divff.
- by rewrite (mulrC w y) subrr.
- by rewrite (mulrC z x) addNr.
- by rewrite addrC -mulrBl -E divff.
Qed.
End P.

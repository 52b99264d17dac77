(** Fourier transforms, convolution matrices, real-space synthesis (C32 to C35). *)
From Coq Require Import Reals ZArith Lra Lia.
From mathcomp Require Import all_ssreflect all_algebra.
From mathcomp Require Import complex.
From Verif Require Import RStruct Cplx Base Fourier_Model Fourier_Spec Sim_Model.
From Verif Require Import Fourier_Proofs.

Set Implicit Arguments.
Unset Strict Implicit.
Unset Printing Implicit Defensive.

Import Order.TTheory GRing.Theory Num.Theory.
Local Open Scope ring_scope.
Local Open Scope complex_scope.

(** ** C32 *)
Theorem C32_inverse (Nx Ny : nat) (u v : 'M[C]_(Nx, Ny)) (c : C) : (0 < Nx)%N -> (0 < Ny)%N ->
  inverse_fourier_transform (fourier_transform u) = u /\
  fourier_transform (inverse_fourier_transform u) = u /\
  fourier_transform (c *: u + v) = c *: fourier_transform u + fourier_transform v.
Proof.
move=> Nx0 Ny0; split; first exact: ift_ft.
split; first exact: ft_ift.
apply/matrixP=> k l; rewrite !fourier_transformE [RHS]mxE [X in _ = X + _]mxE !fourier_transformE mulrA -mulrDl.
congr (_ / _); rewrite mulr_sumr -big_split; apply: eq_bigr => x _; rewrite mulr_sumr -big_split.
by apply: eq_bigr => y _; rewrite mxE [X in (X + _) * _]mxE mulrDl -!mulrA.
Qed.

Theorem C32_mean (Nx Ny : nat) (u : 'M[C]_(Nx.+1, Ny.+1)) : fourier_transform u ord0 ord0 = mean u.
Proof. by rewrite (@ft_coef Nx.+1 Ny.+1 isT isT u ord0 ord0 0 0 0 0)%Zc ?coef_mean //= Z.mul_0_r. Qed.
Print Assumptions C32_inverse.
Print Assumptions C32_mean.

(** ** C33 *)
Section T.
Variables (Nx Ny nh : nat).
Hypotheses (Nx0 : (0 < Nx)%N) (Ny0 : (0 < Ny)%N).
Variable h : 'I_nh -> order.

(** Entry (i,j) is the coefficient at h i - h j; defined exactly when every
    difference of two orders is a valid index of the table. *)
Theorem C33_entries (u : 'M[C]_(Nx, Ny)) :
  ((forall i j, index_ok Nx ((h i).1 - (h j).1) /\ index_ok Ny ((h i).2 - (h j).2)) /\
   get_toeplitz h u = Ok (\matrix_(i, j) coef u ((h i).1 - (h j).1) ((h i).2 - (h j).2))) \/
  (~ (forall i j, index_ok Nx ((h i).1 - (h j).1) /\ index_ok Ny ((h i).2 - (h j).2)) /\
   get_toeplitz h u = Err IndexError).
Proof.
rewrite /get_toeplitz; case: (toeplitzP Nx0 Ny0 h u) => [[h1 ->]|[h1 ->]]; by [left|right].
Qed.

Theorem C33_linear (c : C) (u v : 'M[C]_(Nx, Ny)) M M' :
  get_toeplitz h u = Ok M -> get_toeplitz h v = Ok M' -> get_toeplitz h (u + c *: v) = Ok (M + c *: M').
Proof.
rewrite /get_toeplitz; case E: (toeplitz h u) => [X|] // -[<-]; case E': (toeplitz h v) => [Y|] // -[<-].
by rewrite (toeplitzDZ Nx0 Ny0 c E E').
Qed.

Theorem C33_constant (c : C) M :
  (forall i j, i != j -> ~ ((((h i).1 - (h j).1) mod Z.of_nat Nx = 0)%Zc /\
                            (((h i).2 - (h j).2) mod Z.of_nat Ny = 0)%Zc)) ->
  get_toeplitz h (const_mx c : 'M[C]_(Nx, Ny)) = Ok M -> M = c%:M.
Proof.
rewrite /get_toeplitz => hs; case E: (toeplitz _ _) => [X|] // -[<-].
exact: (toeplitz_const Nx0 Ny0 hs E).
Qed.

Theorem C33_hermitian (u : 'M[C]_(Nx, Ny)) M : (forall x y, conj (u x y) = u x y) ->
  get_toeplitz h u = Ok M -> forall i j, M j i = conj (M i j).
Proof.
rewrite /get_toeplitz => hu; case E: (toeplitz _ _) => [X|] // -[<-].
exact: (toeplitz_herm Nx0 Ny0 hu E).
Qed.

(** ** C34 *)
Theorem C34_synthesis (hs : seq order) (us : seq C) : size hs = size us ->
  ((forall o, List.In o hs -> index_ok Nx o.1 /\ index_ok Ny o.2) /\
   exists f, get_ifft Nx Ny hs us = Some f /\
     forall x y, f x y = \sum_(p <- zip hs us) p.2 * wave p.1.1 p.1.2 x y) \/
  (~ (forall o, List.In o hs -> index_ok Nx o.1 /\ index_ok Ny o.2) /\ get_ifft Nx Ny hs us = None).
Proof.
move=> hsz; case: (get_ifftP Nx0 Ny0 hsz) => [[h1 h2]|[h1 h2]]; [left|right; split=> //].
by split=> //; eexists; split; [exact: h2|move=> x y; rewrite mxE].
Qed.

(** ** C35 *)
Theorem C35_get_epsilon (i0 : 'I_nh) (u e : 'M[C]_(Nx, Ny)) : h i0 = (0, 0)%Zc ->
  get_epsilon h i0 u = Some e ->
  forall x y, e x y = \sum_(i < nh) coef u (h i).1 (h i).2 * wave (h i).1 (h i).2 x y.
Proof. exact: get_epsilonP. Qed.

Theorem C35_mean (i0 : 'I_nh) (u e : 'M[C]_(Nx, Ny)) : h i0 = (0, 0)%Zc ->
  (forall i j, i != j -> ~ ((((h i).1 - (h j).1) mod Z.of_nat Nx = 0)%Zc /\
                            (((h i).2 - (h j).2) mod Z.of_nat Ny = 0)%Zc)) ->
  get_epsilon h i0 u = Some e -> mean e = mean u.
Proof. by move=> h0 hs; exact: (get_epsilon_mean Nx0 Ny0 h0 hs). Qed.
End T.
Print Assumptions C33_entries.
Print Assumptions C33_linear.
Print Assumptions C33_constant.
Print Assumptions C33_hermitian.
Print Assumptions C34_synthesis.
Print Assumptions C35_get_epsilon.
Print Assumptions C35_mean.

(** ** Concrete cases: orders 0, 1, -1 on a 4 x 1 grid *)
Definition h3 (i : 'I_3) : order := (nth 0%Zc [:: 0; 1; -1]%Zc i, 0%Zc).

Example C33_case : (forall i j, index_ok 4 ((h3 i).1 - (h3 j).1) /\ index_ok 1 ((h3 i).2 - (h3 j).2)) /\
  (forall i j, i != j -> ~ ((((h3 i).1 - (h3 j).1) mod Z.of_nat 4 = 0)%Zc /\
                            (((h3 i).2 - (h3 j).2) mod Z.of_nat 1 = 0)%Zc)).
Proof.
split; [move=> [[|[|[|i]]] hi] // [[|[|[|j]]] hj] //; rewrite /index_ok /=; lia|].
by move=> [[|[|[|i]]] hi] // [[|[|[|j]]] hj] // _ [].
Qed.

Example C35_case (u : 'M[C]_(4, 1)) : exists e, get_epsilon h3 ord0 u = Some e.
Proof.
have n4 : (0 < 4)%N by []. have n1 : (0 < 1)%N by [].
rewrite /get_epsilon; case: (toeplitzP n4 n1 h3 u) => [[_ ->]|[H _]]; last by case: H; have [] := C33_case.
set us : seq C := [seq (\matrix_(_, _) _) _ ord0 | _ <- _]; have hsz : size [seq h3 i | i <- enum 'I_3] = size us by rewrite !size_map.
case: (get_ifftP n4 n1 hsz) => [[_ ->]|[H _]]; first by eexists.
case: H => o /List.in_map_iff [i [<- _]].
by have [h _] := C33_case; have := h i ord0; rewrite /indexable /= !Z.sub_0_r.
Qed.

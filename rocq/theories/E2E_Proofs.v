(** Proofs about E2E_Model: the hypotheses on the orders that the theorems about runs
    make are provided by the constructor. *)
From Coq Require Import Reals ZArith String Lra Lia Permutation.
From Verif Require Lattice_Model Lattice_Spec Lattice_Proofs3 Init_Model Init_Proofs Init_Proofs2 Props_Init.
From mathcomp Require Import all_ssreflect all_algebra.
From mathcomp Require Import complex.
From Verif Require Import RStruct Cplx Base Fourier_Model Fourier_Spec Sim_Model Setup_Model E2E_Model Energy_Spec Recip_Spec.
From Verif Require Import Fourier_Proofs Run_Proofs2 Props_Energy.

Set Implicit Arguments.
Unset Strict Implicit.
Unset Printing Implicit Defensive.

Import Order.TTheory GRing.Theory Num.Theory.
Local Open Scope ring_scope.
Local Open Scope complex_scope.

Lemma in_nth (T : Type) (d x : T) (s : seq T) : List.In x s -> exists2 i, (i < size s)%N & nth d s i = x.
Proof.
elim: s => //= y s IH [<-|/IH [i hi e]]; first by exists 0%N.
by exists i.+1.
Qed.
Lemma nth_in (T : Type) (d : T) (s : seq T) i : (i < size s)%N -> List.In (nth d s i) s.
Proof. by elim: s i => //= y s IH [|i] hi; [left|right; apply: IH]. Qed.
Lemma nodup_nth (T : Type) (d : T) (s : seq T) : List.NoDup s -> forall i j, (i < size s)%N -> (j < size s)%N ->
  nth d s i = nth d s j -> i = j.
Proof.
elim: s => //= y s IH h; inversion h as [|? ? hy hs]; subst => -[|i] [|j] //= hi hj e.
- by case: hy; rewrite e; apply: nth_in.
- by case: hy; rewrite -e; apply: nth_in.
- by congr S; apply: IH.
Qed.
Lemma nth_errorP (T : Type) (d x : T) (s : seq T) i : List.nth_error s i = Some x -> (i < size s)%N /\ nth d s i = x.
Proof. by elim: s i => [|y s IH] [|i] //=; [move=> [->]|exact: IH]. Qed.

Section Harm.
Variables (n : nat) (G : seq order).
Hypothesis sz : size G = n.
Lemma harm_inj : List.NoDup G -> injective (@harm n G).
Proof. by move=> h i j e; apply/ord_inj/(nodup_nth h _ _ e); rewrite sz. Qed.
Lemma harm_in o : List.In o G -> exists i, @harm n G i = o.
Proof. by move=> /(in_nth (0%Zc, 0%Zc)) [i hi e]; rewrite sz in hi; exists (Ordinal hi). Qed.
Lemma in_harm i : List.In (@harm n G i) G.
Proof. by apply: nth_in; rewrite sz. Qed.
Lemma harm_opp : Lattice_Spec.negation_closed G -> opposite_closed (@harm n G).
Proof.
move=> h i; have := in_harm i; case e: (harm G i) => [a b] /h /harm_in [j ej].
by exists j.
Qed.

Lemma listing_fst (r : effs n) : List.map fst (listing G r) = G.
Proof.
have H (s : seq 'I_n) : List.map fst [seq (harm G i, (r.1 i ord0, r.2 i ord0)) | i <- s] =
  [seq nth (0%Zc, 0%Zc) G k | k <- [seq val i | i <- s]] by elim: s => //= i s ->.
by rewrite /listing H val_enum_ord -[RHS](mkseq_nth (0%Zc, 0%Zc)) sz.
Qed.
Lemma listing_in (r : effs n) i : List.In (harm G i, (r.1 i ord0, r.2 i ord0)) (listing G r).
Proof.
rewrite /listing; have : i \in enum 'I_n by rewrite mem_enum.
by elim: (enum 'I_n) => //= j s IH; rewrite inE => /orP [/eqP <-|/IH]; [left|right].
Qed.
Lemma in_listing (r : effs n) o x : List.In (o, x) (listing G r) ->
  exists i, [/\ harm G i = o, x.1 = r.1 i ord0 & x.2 = r.2 i ord0].
Proof.
rewrite /listing; elim: (enum 'I_n) => //= j s IH [[<- <-]|/IH //].
by exists j.
Qed.
Lemma listing_sum (f : R * R -> R) (r : effs n) :
  List.fold_right Rplus 0%Re (List.map (fun x => f x.2) (listing G r)) = \sum_i f (r.1 i ord0, r.2 i ord0).
Proof.
rewrite /listing -big_enum /=; elim: (enum 'I_n) => [|j s IH]; first by rewrite big_nil.
by rewrite big_cons /= IH.
Qed.
End Harm.

Section Sim.
Variables (Nx Ny : nat).
Hypotheses (Nx0 : (0 < Nx)%N) (Ny0 : (0 < Ny)%N).
Variable eig : forall m, 'M[C]_m -> 'rV[C]_m * 'M[C]_m.
Variable argsort : seq R -> seq nat.
Hypothesis hsort : Lattice_Model.argsort_ok argsort.
Variable tan : string -> 'M[C]_(Nx, Ny) -> res ('M[C]_(Nx, Ny) * 'M[C]_(Nx, Ny)).
Variable lattices : nat -> Lattice_Model.lattice.
Notation simulate := (simulate eig argsort tan lattices).

Lemma uniform_py (ls : seq (user_layer Nx Ny)) : List.forallb Init_Model.pl_uniform (List.map (@to_py Nx Ny) ls) =
  all (fun l => is_uniform (li_eps (ul_body l))) ls.
Proof. by elim: ls => //= l ls ->. Qed.

(** What a finished run went through. *)
Lemma simulateP layers pw nh form out : simulate layers pw nh form = Ok out ->
  exists s n (i0 : 'I_n) (r : effs n), [/\ Init_Model.sim_init argsort lattices (List.map (@to_py Nx Ny) layers) nh form = Ok s,
    n = Z.to_nat (Init_Model.sim_nh s) /\ size (Init_Model.sim_harmonics s) = n, val i0 = Init_Model.sim_index0 s,
    run_efficiencies eig pw (recip_mx (Init_Model.sim_recip s)) (harm (Init_Model.sim_harmonics s))
      (choose_form tan (Init_Model.sim_form s) (Lattice_Model.lt_is1D (Init_Model.sim_lattice s)))
      (List.map (@ul_body Nx Ny) layers) i0 = Ok r &
    out = listing (Init_Model.sim_harmonics s) r].
Proof.
rewrite /simulate => H; ubind H s hs; move: H; rewrite /compute; case: eqP => //= sz.
case: insubP => // i0 _ e0 H; ubind H r hr; case: H => <-.
by exists s, (Z.to_nat (Init_Model.sim_nh s)), i0, r.
Qed.

Lemma layers_lattice layers nh form s l :
  Init_Model.sim_init argsort lattices (List.map (@to_py Nx Ny) layers) nh form = Ok s ->
  List.In l layers -> Init_Model.sim_lattice s = lattices (ul_lat l).
Proof.
move=> hs hl; have [l0 [t [G [n [m [r [e [_ [hsame [_ hx]]]]]]]]]] := Init_Proofs.sim_init_inv _ _ _ _ _ hs.
have [_ [_ [_ [_ [_ [_ ->]]]]]] := hx; rewrite /= -(hsame (to_py l)) //.
exact: List.in_map.
Qed.
End Sim.

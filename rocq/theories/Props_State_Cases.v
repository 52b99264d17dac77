(** Concrete cases for the theorems of Props_State. *)
From Coq Require Import Reals ZArith String List Lra.
From mathcomp Require Import all_ssreflect all_algebra.
From mathcomp Require Import complex.
From Verif Require Import State_Model State_Spec State_Proofs State_World State_Stack State_Extra.
From Verif Require Import RStruct Cplx Base Fourier_Model Sim_Model Setup_Model Orders_Model.
From Verif Require Import Optics_Spec Energy_Proofs3 Orders_Proofs Fresnel_Proofs Aniso_Proofs Demo_Proofs.
From Verif Require Import State_Instance State_Instance2 Props_Optics Props_State.

Set Implicit Arguments.
Unset Strict Implicit.
Unset Printing Implicit Defensive.

Import Order.TTheory GRing.Theory Num.Theory.
Local Open Scope ring_scope.
Local Open Scope complex_scope.

Notation eps1 n := (EpsUniform 2 2 (rc (n * n)%Re)).
Notation wave l := (PlaneWave l 0 0 0).

(** Normal incidence from index n0 on index n1: R = ((n1 - n0) / (n1 + n0))^2. *)
Lemma normal (eig : forall m, 'M[C]_m -> 'rV[C]_m * 'M[C]_m) (l n0 n1 : R) (t0 t1 : option R) :
  (0 < l)%Re -> (0 < n0)%Re -> (0 < n1)%Re -> exists r,
  run_efficiencies eig (wave l) demo_rec demo_h (Original 2 2) [:: LayerIn t0 (eps1 n0); LayerIn t1 (eps1 n1)] ord0 = Ok r /\
  r.1 ord0 ord0 = ((n1 - n0) / (n1 + n0) * ((n1 - n0) / (n1 + n0)))%Re.
Proof.
move=> lp p0 p1.
have kp : (0 < 2 * PI / l)%Re by apply: Rdiv_lt_0_compat => //; have := PI_RGT_0; lra.
have ep0 : (0 < n0 * n0)%Re by exact: Rmult_lt_0_compat.
have ep1 : (0 < n1 * n1)%Re by exact: Rmult_lt_0_compat.
have c0 : (0 < cos (pw_theta (wave l)))%Re by rewrite /= cos_0; lra.
have hk : (n1 * n1 * (2 * PI / l * (2 * PI / l)) -
   n0 * n0 * (2 * PI / l * (2 * PI / l)) * (sin 0 * sin 0))%Re <> 0%Re.
  rewrite sin_0 !Rmult_0_r Rminus_0_r.
  by have := Rmult_lt_0_compat _ _ ep1 (Rmult_lt_0_compat _ _ kp kp); lra.
have [r [hr hR]] := @C54_fresnel 2 2 eig (wave l) demo_rec demo_h (Original 2 2) (n0 * n0)%Re (n1 * n1)%Re t0 t1
  lp c0 (erefl _) (erefl _) ep0 (Rgt_not_eq _ _ ep1) hk.
exists r; split=> //; rewrite hR [pw_psi _]/= [pw_theta _]/= [pw_lambda _]/= {r hr hR hk}.
have kzE n : (0 < n)%Re -> kz_of (n * n) (2 * PI / l) (n0 * n0 * (2 * PI / l * (2 * PI / l)) * (sin 0 * sin 0)) = rc (n * (2 * PI / l))%Re.
  move=> np; rewrite /kz_of sin_0 !Rmult_0_r Rminus_0_r.
  have -> : (n * n * (2 * PI / l * (2 * PI / l)) = (n * (2 * PI / l)) * (n * (2 * PI / l)))%Re by ring.
  by apply: demo_sqrt; apply/Rlt_le/Rmult_lt_0_compat.
rewrite !kzE // sin_0 cos_0 /fresnel_tm.
set k := (2 * PI / l)%Re in kp *.
have hd : (n0 + n1 <> 0)%Re by lra.
have np0 : (n1 * n1 * (n0 * k) + n0 * n0 * (n1 * k))%Re <> 0%Re.
  have -> : (n1 * n1 * (n0 * k) + n0 * n0 * (n1 * k) = n0 * n1 * k * (n0 + n1))%Re by ring.
  have := Rmult_lt_0_compat _ _ (Rmult_lt_0_compat _ _ (Rmult_lt_0_compat _ _ p0 p1) kp) (Rplus_lt_0_compat _ _ p0 p1); lra.
have -> : (rc (n1 * n1)%Re * rc (n0 * k)%Re - rc (n0 * n0)%Re * rc (n1 * k)%Re) /
   (rc (n1 * n1)%Re * rc (n0 * k)%Re + rc (n0 * n0)%Re * rc (n1 * k)%Re) = rc ((n1 - n0) / (n1 + n0))%Re :> C.
  rewrite -!rmorphM -rmorphB -rmorphD -fmorphV -rmorphM; congr (_ %:C).
  rewrite -(R_invE np0); rfold; by field; split; [lra|move: np0; lra].
have -> x : sqmod (rc x) = (x * x)%Re by rewrite /sqmod /=; rfold; ring.
by ring.
Qed.

Notation E := (eps_t 2 2).
Notation Pat := ('M[C]_(1 + 1) * 'M[C]_1)%type.
Notation G := ('rV[C]_(1 + 1) * 'M[C]_(1 + 1))%type.
Notation obj := (lobj (option R) E Pat 'M[C]_(1 + 1) G).
Notation layers_heap := (heap (option R) E Pat 'M[C]_(1 + 1) G).
Notation world := (world (param 2 2 1) (option R) E Pat 'M[C]_(1 + 1) G (smat 1)).
Notation AEff := (@AEff (smat 1) (amp 1) (effs 1) (fields 1) (R * R * R)%type (vec3 1 * vec3 1)%type).
Notation usable := (usable (@i_unif 2 2)).
Notation par l n := (Param (wave l) demo_rec demo_h (Original 2 2) (rc (n * n)%Re) ord0 (0%Re, 1%Re)).

Definition layer (e : E) : obj := LObj (Some 1%Re) e None None None None.
(** Layer 0 of index n0, layer 1 (and all others) of index n1. *)
Definition two_heap (n0 n1 : R) : layers_heap := fun a => layer (if a is 0%N then eps1 n0 else eps1 n1).
(** air, a patterned layer, index 3 *)
Definition three_heap : layers_heap := fun a =>
  layer (if a is 0%N then eps1 1 else if a is 1%N then EpsGrid demo_grid else eps1 3).

Lemma wave_a0 l : (0 < l)%Re -> pw_a0 (wave l) = Ok (0%Re, 1%Re).
Proof.
move=> lp.
have c0 : (0 < cos (pw_theta (wave l)))%Re by rewrite /= cos_0; lra.
have lp' : (0 < pw_lambda (wave l))%Re by [].
have [a ha] := pw_a0_ok lp' c0; rewrite ha.
have [h1 h2] := pw_a0_H lp' c0 ha.
have k0 : pw_k0 (wave l) <> 0%Re by have := Energy_Proofs3.k0_pos lp'; lra.
case: a ha h1 h2 => a1 a2 _ /= -> ->; congr (Ok (_, _)).
  by rewrite /pw_ky /pw_kz /pw_cy /pw_cz /= !sin_0 !cos_0; field.
by rewrite /pw_kx /pw_kz /pw_cx /pw_cz /= !sin_0 !cos_0; field.
Qed.

Lemma two_param l n0 n1 : (0 < l)%Re ->
  mk_param (wave l) demo_rec demo_h (Original 2 2) ord0 (data (two_heap n0 n1) [:: 0%N; 1%N]) = Ok (par l n0).
Proof. by move=> lp; rewrite /mk_param /= wave_a0. Qed.

Lemma two_usable n0 n1 : usable (two_heap n0 n1) [:: 0%N; 1%N].
Proof.
apply: usable_plain => [|a _]; last by case: a.
by constructor; [case=> //|constructor; [case|constructor]].
Qed.

Lemma three_usable : usable three_heap [:: 0%N; 1%N; 2%N].
Proof.
apply: usable_plain => [|a _]; last by case: a => [|[|a]].
by constructor; [case=> [//|[//|[]]]|constructor; [case=> //|constructor; [case|constructor]]].
Qed.

Lemma three_solve : fresh demo_eig three_heap (par 1 1) [:: 0%N; 1%N; 2%N] (QSolve R) = Ok (ADone _ _ _ _ _ _).
Proof.
have [e0 [e1 [e2 hs]]] := @demo_solve 2 2 isT isT demo_grid demo_mean.
have U := three_usable.
rewrite /fresh /i_ask fresh_answer //; cbn [answer_spec].
move: (views_stack demo_eig (par 1 1) (data three_heap [:: 0%N; 1%N; 2%N])).
rewrite -stack_as -[map _ _]/(demo_layers demo_grid) [solve_stack _ _ _ _ _ _ _]hs.
by case: (solved_views _ _ _ _ _ _ _).
Qed.

(** C15: the three-layer stack with a patterned layer; the efficiencies, asked for
    twice around a field, are the same values. *)
Example C15_case : exists r, forall w : world, w_heap w = three_heap ->
  snd (i_run demo_eig [:: ONew _ _ _ 0 (par 1 1) [:: 0%N; 1%N; 2%N]; OAsk _ _ _ 0 (QEff R); OAsk _ _ _ 0 (QSolve R);
                          OAsk _ _ _ 0 (QEff R)] w) =
  [:: None; Some (Ok (AEff r)); Some (Ok (ADone _ _ _ _ _ _)); Some (Ok (AEff r))].
Proof.
have [r hr] := @demo_eff 2 2 isT isT demo_grid demo_mean.
exists r => w hw.
have U : usable (w_heap w) [:: 0%N; 1%N; 2%N].
  rewrite hw; apply: usable_plain => [|a _]; last by case: a => [|[|a]].
  by constructor; [case=> [//|[//|[]]]|constructor; [case=> //|constructor; [case|constructor]]].
have P : mk_param demo_pw demo_rec demo_h (Original 2 2) ord0 (data (w_heap w) [:: 0%N; 1%N; 2%N]) = Ok (par 1 1).
  by rewrite hw /mk_param /= demo_a0.
have := @C15_cache_transparent 2 2 1 demo_eig w 0 (par 1 1) [:: 0%N; 1%N; 2%N] [:: QEff R; QSolve R; QEff R] U.
rewrite [List.map _ _]/= => ->.
have [hE _] := C15_numbers demo_eig U P.
rewrite [List.map _ _]/= hE hw -[List.map _ _]/(demo_layers demo_grid) hr.
by rewrite three_solve.
Qed.

Lemma scaleE (c : R) (r : effs 1) : (scale_effs c r).1 ord0 ord0 = (c * r.1 ord0 ord0)%Re.
Proof. by rewrite /scale_effs /= mxE. Qed.

(** C17: air on index 2, wavelengths 1 and 1/2.  The reflectance is 1/9; after the
    other simulation has computed, the answer is 2/9. *)
Example C17_case : exists r a, forall w : world, w_heap w = two_heap 1 2 ->
  w_sims w 0 = new_sim _ (par 1 1) [:: 0%N; 1%N] -> w_sims w 1 = new_sim _ (par (1 / 2) 1) [:: 0%N; 1%N] ->
  fresh demo_eig (w_heap w) (par 1 1) [:: 0%N; 1%N] (QEff R) = Ok (AEff r) /\ r.1 ord0 ord0 = (1 / 9)%Re /\
  List.nth_error (snd (i_run demo_eig [:: OAsk _ _ _ 0 (QSolve R); OAsk _ _ _ 1 (QEff R); OAsk _ _ _ 0 (QEff R)] w)) 2 =
    Some (Some (Ok (AEff a))) /\ a.1 ord0 ord0 = (2 / 9)%Re.
Proof.
have p1 : (0 < 1)%Re by lra. have p2 : (0 < 2)%Re by lra. have l1 : (0 < 1 / 2)%Re by lra.
have [r0 [h0 R0]] := normal demo_eig (Some 1%Re) (Some 1%Re) p1 p1 p2.
have [r1 [h1 R1]] := normal demo_eig (Some 1%Re) (Some 1%Re) l1 p1 p2.
exists r0, (scale_effs (1 / (1 / 2))%Re r1) => w hw s0 s1.
have c0 : (0 < cos (pw_theta (wave 1)))%Re by rewrite /= cos_0; lra.
have [A B] := @C17_shared_refuted 2 2 1 demo_eig (wave 1) (wave (1 / 2)) demo_rec demo_h (Original 2 2) ord0
  (two_heap 1 2) [:: 0%N; 1%N] _ _ r0 r1 (two_usable 1 2) (erefl _) (erefl _) (erefl _) p1 l1 c0
  (two_param 1 2 p1) (two_param 1 2 l1) h0 h1 w hw s0 s1.
split; first by rewrite hw; exact: A.
split; first by rewrite R0; field.
split; first by rewrite B.
by rewrite scaleE R1; field.
Qed.

(** C16: a substrate replaced after a solution; reset() gives the new reflectance,
    without it the old one stays. *)
Example C16_case : exists r r' : effs 1, r.1 ord0 ord0 = (1 / 9)%Re /\ r'.1 ord0 ord0 = (1 / 4)%Re /\
  forall w : world, w_heap w = two_heap 1 2 ->
  let start := [:: ONew _ _ _ 0%N (par 1 1) [:: 0%N; 1%N]; OAsk _ _ _ 0%N (QEff R); OEps _ _ _ 1%N (eps1 3)] in
  snd (i_run demo_eig (start ++ [:: OAsk _ _ _ 0%N (QEff R)])%list w) =
    [:: None; Some (Ok (AEff r)); None; Some (Ok (AEff r))] /\
  snd (i_run demo_eig (start ++ [:: OReset _ _ _ _ 0%N RAll; OAsk _ _ _ 0%N (QEff R)])%list w) =
    [:: None; Some (Ok (AEff r)); None; None; Some (Ok (AEff r'))].
Proof.
have p1 : (0 < 1)%Re by lra. have p2 : (0 < 2)%Re by lra. have p3 : (0 < 3)%Re by lra.
have [r [h hR]] := normal demo_eig (Some 1%Re) (Some 1%Re) p1 p1 p2.
have [r' [h' hR']] := normal demo_eig (Some 1%Re) (Some 1%Re) p1 p1 p3.
exists r, r'; split; [by rewrite hR; field|split; first by rewrite hR'; field].
move=> w hw.
set w1 := fst (i_exec demo_eig (ONew _ _ _ 0%N (par 1 1) [:: 0%N; 1%N]) w).
have U : usable (w_heap w) [:: 0%N; 1%N] by rewrite hw; exact: two_usable.
have A1 : snd (i_exec demo_eig (OAsk _ _ _ 0%N (QEff R)) w1) = Some (Ok (AEff r)).
  have := @C15_cache_transparent 2 2 1 demo_eig w 0 (par 1 1) [:: 0%N; 1%N] [:: QEff R] U.
  rewrite /i_run [List.map _ _]/= !run_cons -/(i_exec _ _ _) -/w1.
  rewrite [snd (_, _)]/= => -[] ->; congr Some.
  rewrite hw; have [-> _] := C15_numbers demo_eig (two_usable 1 2) (two_param 1 2 p1).
  by rewrite -[List.map _ _]/[:: LayerIn (Some 1%Re) (eps1 1); LayerIn (Some 1%Re) (eps1 2)] h.
set w2 := fst (i_exec demo_eig (OAsk _ _ _ 0%N (QEff R)) w1).
set w3 := fst (i_exec demo_eig (OEps _ _ _ 1%N (eps1 3)) w2).
have A2 : snd (i_exec demo_eig (OAsk _ _ _ 0%N (QEff R)) w3) = Some (Ok (AEff r)).
  have F : List.Forall (fun o => (exists a t, o = OThick _ _ _ a t) \/ (exists a e, o = OEps _ _ _ a e))
     [:: OEps (param 2 2 1) (option R) R 1%N (eps1 3)].
    by constructor; [right; do 2!eexists|constructor].
  exact: (C16_no_reset (or_intror (erefl _)) A1 F).
have H2 : [/\ same (two_heap 1 2) (w_heap w2), s_layers (w_sims w2 0%N) = [:: 0%N; 1%N] & s_par (w_sims w2 0%N) = par 1 1].
  rewrite /w2 /i_exec; cbn [State_Model.exec]; rewrite -/(i_ask _ _).
  have := @fr_ask _ _ _ _ _ _ _ _ _ _ _ _ _ (@i_unif 2 2) (@i_build_u 2 2 1) (@i_build_p 2 2 1) (@i_modes_u 2 2 1)
    (@i_modes_p 1 demo_eig) (@i_S0 2 2 1) (@i_step 2 2 1) (@i_amp0 2 2 1) (@i_ampN 2 2 1) (@i_ampI 2 2 1)
    (@i_eff 2 2 1) (@i_fld 2 2 1) (@i_str 2 2 1) (@i_cx 2 2 1) 0%Re (QEff R) (w_heap w1, w_sims w1 0%N).
  rewrite -/(i_ask _ _).
  case: (i_ask demo_eig (QEff R) (w_heap w1, w_sims w1 0%N)) => [[h1 m1] r1] /= [-> ->] _.
  by rewrite [w_heap w1]/= hw.
have [S2 L2 P2] := H2.
have [D [L P]] : data (w_heap w3) [:: 0%N; 1%N] = data (two_heap 1 3) [:: 0%N; 1%N] /\
   s_layers (w_sims w3 0%N) = [:: 0%N; 1%N] /\ s_par (w_sims w3 0%N) = par 1 1.
  split; last by [].
  have [t0 [e0 _]] := S2 0%N; have [t1 _] := S2 1%N.
  by rewrite /w3 /= /data /= -t0 -e0 -t1.
have U3 : usable (w_heap w3) [:: 0%N; 1%N].
  have [_ [_ c0]] := S2 0%N; have [_ [_ c1]] := S2 1%N.
  apply: usable_plain => [|a [<-|[<-|[]]]]; rewrite /w3 /= -?c0 -?c1 //.
  by constructor; [case=> //|constructor; [case|constructor]].
split.
  by rewrite /i_run !run_cons -!/(i_exec _ _ _) -/w1 -/w2 -/w3 A1 A2.
have A3 : snd (i_run demo_eig [:: OReset _ _ _ _ 0%N RAll; OAsk _ _ _ 0%N (QEff R)] w3) = [:: None; Some (Ok (AEff r'))].
  have := @C16_reset_all 2 2 1 demo_eig w3 0%N [:: QEff R].
  rewrite L P => /(_ U3) ->; congr [:: _; Some _].
  rewrite (C19_copies_partial demo_eig _ _ U3 (two_usable 1 3) D).
  have [-> _] := C15_numbers demo_eig (two_usable 1 3) (two_param 1 3 p1).
  by rewrite -[List.map _ _]/[:: LayerIn (Some 1%Re) (eps1 1); LayerIn (Some 1%Re) (eps1 3)] h'.
have rc3 o t v : snd (i_run demo_eig (o :: t) v) = snd (i_exec demo_eig o v) :: snd (i_run demo_eig t (fst (i_exec demo_eig o v))).
  by rewrite /i_run run_cons.
by rewrite [(_ ++ _)%list]/= rc3 -/w1 rc3 -/w2 A1 rc3 -/w3 A3.
Qed.

(** C57: superstrate of index 1 at construction, 2 now; substrate 3.  A new
    simulation has the reflectance 1/25, this one answers 1/50 after reset(). *)
Example C57_case : exists r a, forall w : world, w_heap w = two_heap 2 3 ->
  w_sims w 0 = new_sim _ (par 1 1) [:: 0%N; 1%N] ->
  fresh demo_eig (w_heap w) (par 1 2) [:: 0%N; 1%N] (QEff R) = Ok (AEff r) /\ r.1 ord0 ord0 = (1 / 25)%Re /\
  snd (i_run demo_eig [:: OReset _ _ _ _ 0 RAll; OAsk _ _ _ 0 (QEff R)] w) = [:: None; Some (Ok (AEff a))] /\
  a.1 ord0 ord0 = (1 / 50)%Re.
Proof.
have p1 : (0 < 1)%Re by lra. have p2 : (0 < 2)%Re by lra. have p3 : (0 < 3)%Re by lra.
have [r [h hR]] := normal demo_eig (Some 1%Re) (Some 1%Re) p1 p2 p3.
exists r, (scale_effs (Num.sqrt (1 * 1) / Num.sqrt (2 * 2))%Re r) => w hw hs.
have U : usable (w_heap w) (s_layers (w_sims w 0)) by rewrite hw hs; exact: two_usable.
have c0 : (0 < cos (pw_theta (wave 1)))%Re by rewrite /= cos_0; lra.
have q1 : (0 < 1 * 1)%Re by lra. have q2 : (0 < 2 * 2)%Re by lra.
have P : mk_param (wave 1) demo_rec demo_h (Original 2 2) ord0
  ((Some 1%Re, EpsUniform 2 2 (rc (1 * 1)%Re)) :: [::]) = Ok (s_par (w_sims w 0)).
  by rewrite hs /mk_param /= wave_a0.
have D : data (w_heap w) (s_layers (w_sims w 0)) = (Some 1%Re, eps1 2) :: [:: (Some 1%Re, eps1 3)] by rewrite hw hs.
have sq x : (0 < x)%Re -> Num.sqrt (x * x)%Re = x.
  by move=> /RltP x0; have := sqrtr_sqr x; rewrite expr2 (ger0_norm (ltW x0)).
split; [|split; [by rewrite hR; field|split]].
- rewrite hw; have [-> _] := C15_numbers demo_eig (two_usable 2 3) (two_param 2 3 p1).
  by rewrite -[List.map _ _]/[:: LayerIn (Some 1%Re) (eps1 2); LayerIn (Some 1%Re) (eps1 3)] h.
- exact: (C57_superstrate_refuted U c0 sin_0 q1 q2 P D h).
- by rewrite scaleE hR (sq 1%Re p1) (sq 2%Re p2); field.
Qed.

(** C19: air and a copy of it as substrate. *)
Definition copied (a c : nat) (h : layers_heap) : layers_heap :=
  upd h c (LObj (Some 1%Re) (o_eps (h a)) (Some a) (o_pat (h a)) (o_Q (h a)) (o_G (h a))).

Example C19_case :
  fresh demo_eig (copied 0 1 (two_heap 1 1)) (par 1 1) [:: 0%N; 1%N] (QEff R) = Err AttributeError /\
  exists r, fresh demo_eig (two_heap 1 1) (par 1 1) [:: 0%N; 1%N] (QEff R) = Ok (AEff r).
Proof.
have p1 : (0 < 1)%Re by lra.
split; last first.
  have [-> _] := C15_numbers demo_eig (two_usable 1 1) (two_param 1 1 p1).
  have [r [h _]] := normal demo_eig (Some 1%Re) (Some 1%Re) p1 p1 p1.
  by exists r; rewrite -[List.map _ _]/[:: LayerIn (Some 1%Re) (eps1 1); LayerIn (Some 1%Re) (eps1 1)] h.
apply: (@C19_uniform_refuted 2 2 1 demo_eig _ [:: 0%N] 1%N [::] 0%N) => //; last by right; left.
rewrite /fresh /i_ask fresh_answer.
  cbn [answer_spec].
  move: (views_stack demo_eig (par 1 1) (data (copied 0 1 (two_heap 1 1)) [:: 0%N])).
  have -> : p_stack demo_eig (par 1 1) (data (copied 0 1 (two_heap 1 1)) [:: 0%N]) = Ok [:: medium 1 (inl (rc (1 * 1)%Re))].
    rewrite -stack_as /solve_stack; have [-> ->] := demo_k (rc (1 * 1)%Re).
    by rewrite /= medium_uniform.
  by case: (solved_views _ _ _ _ _ _ _).
apply: usable_plain => [|a [<-|[]]] //.
by constructor; [case|constructor].
Qed.

(** A patterned layer and its copy below it, in the three-layer stack. *)
Example C19_copy_case : usable three_heap ([:: 0%N; 1%N] ++ [:: 2%N])%list /\ List.In 1%N [:: 0%N; 1%N] /\
  ~ List.In 3%N ([:: 0%N; 1%N] ++ [:: 2%N])%list /\ i_unif (o_eps (three_heap 1%N)) = false.
Proof.
split; [|split; [by right; left|split=> //]].
  apply: usable_plain => [|a _]; last by case: a => [|[|a]].
  by constructor; [case=> [//|[//|[]]]|constructor; [case=> //|constructor; [case|constructor]]].
by case=> [//|[//|[//|[]]]].
Qed.

(** C67: the patterned layer is the layer 1; as layer -2 its field is never computed. *)
Example C67_case z : Init_Model.pynth [:: 0%N; 1%N; 2%N] (-2)%Zc = Ok 1%N /\
  fresh demo_eig three_heap (par 1 1) [:: 0%N; 1%N; 2%N] (QField (-2)%Zc z) = Err UnboundLocalError.
Proof.
split=> //.
have h : (- Z.of_nat (length [:: 0%N; 1%N; 2%N]) <= -2 < -1)%Zc by [].
by have [_ [_ [-> _]]] := @C67_negative_refuted 2 2 1 demo_eig three_heap (par 1 1) [:: 0%N; 1%N; 2%N] (-2)%Zc z h; rewrite three_solve.
Qed.

(** Model of the numerical part of nannos/simulation.py, nannos/layers.py and
    nannos/excitation.py, in exact complex arithmetic.

    - [bk.linalg.solve]/[inv] are exact and raise LinAlgError on a singular matrix.
    - [bk.linalg.eig] is an arbitrary function [eig] (a section variable).
    - a computation dividing by zero (numpy continues with inf/nan) is [Err NaN].
    - vectors are columns, an eigenvalue array is a row.
    - the arrays of shape (nh,) or (2nh,) have their length in the type. *)
From Coq Require Import Reals ZArith.
From mathcomp Require Import all_ssreflect all_algebra.
From mathcomp Require Import complex.
From Verif Require Import RStruct Cplx Base Fourier_Model.

Set Implicit Arguments.
Unset Strict Implicit.
Unset Printing Implicit Defensive.

Import Order.TTheory GRing.Theory Num.Theory.
Local Open Scope ring_scope.
Local Open Scope complex_scope.

Notation conj := (@conjc R_rcfType).
Notation rc x := (real_complex R_rcfType x).

(** numpy's principal complex square root [x ** 0.5] ([sqrtc]: real part >= 0,
    negative reals go to the positive imaginary axis; signed zeros ignored). *)
Definition csqrt (z : C) : C := sqrtc z.

(** numpy.linalg.solve *)
Definition solve m p (A : 'M[C]_m) (B : 'M[C]_(m, p)) : res 'M[C]_(m, p) :=
  if A \in unitmx then Ok (invmx A *m B) else Err LinAlgError.

(** numpy.linalg.inv (simulation.py:24 [_inv]) *)
Definition linv m (A : 'M[C]_m) : res 'M[C]_m :=
  if A \in unitmx then Ok (invmx A) else Err LinAlgError.

(** simulation.py:855-856 [phasor] on an array of eigenvalues. *)
Definition phasor m (q : 'rV[C]_m) (z : R) : 'rV[C]_m :=
  map_mx (fun x => cexp ('i * x * rc z)) q.

(** ------------------------------------------------------------------ *)
(** * excitation.py *)

(** PlaneWave attributes (excitation.py:34-39); angles in radians, i.e. after
    the multiplication by pi/180 at line 37. *)
Record planewave := PlaneWave { pw_lambda : R; pw_theta : R; pw_phi : R; pw_psi : R }.

(** excitation.py:16,34-38: construction from degrees. *)
Definition mk_planewave (wavelength theta_deg phi_deg psi_deg : R) : planewave :=
  PlaneWave wavelength (theta_deg * (PI / 180))%Re (phi_deg * (PI / 180))%Re
            (psi_deg * (PI / 180))%Re.

Section PW.
Variable pw : planewave.
Let theta := pw_theta pw. Let phi := pw_phi pw. Let psi := pw_psi pw.
(** excitation.py:39-43 *)
Definition pw_k0 : R := (2 * PI * (1 / pw_lambda pw))%Re.
(** excitation.py:44-50 *)
Definition pw_kx : R := (pw_k0 * (sin theta * cos phi))%Re.
Definition pw_ky : R := (pw_k0 * (sin theta * sin phi))%Re.
Definition pw_kz : R := (pw_k0 * cos theta)%Re.
(** excitation.py:52-62 *)
Definition pw_cx : R := (cos psi * cos theta * cos phi - sin psi * sin phi)%Re.
Definition pw_cy : R := (cos psi * cos theta * sin phi + sin psi * cos phi)%Re.
Definition pw_cz : R := (- cos psi * sin theta)%Re.
(** excitation.py:66-67, entries of Q = omega^2 I - K (symmetric). *)
Definition pw_Q11 : R := (pw_k0 * pw_k0 - pw_ky * pw_ky)%Re.
Definition pw_Q12 : R := (pw_kx * pw_ky)%Re.
Definition pw_Q22 : R := (pw_k0 * pw_k0 - pw_kx * pw_kx)%Re.
(** excitation.py:68; a real [** 0.5] (nan when negative, [sqrt] gives 0). *)
Definition pw_q : R := sqrt (pw_k0 * pw_k0 - pw_kx * pw_kx - pw_ky * pw_ky)%Re.
(** excitation.py:69-71: a0 = inv(Q) * (omega*q) @ (-amplitude[1], amplitude[0]);
    the 2x2 inverse by cofactors, [Err] when Q is singular. *)
Definition pw_det : R := (pw_Q11 * pw_Q22 - pw_Q12 * pw_Q12)%Re.
Definition pw_a0 : res (R * R) :=
  if Req_EM_T pw_det 0 then Err LinAlgError
  else let c := (pw_k0 * pw_q / pw_det)%Re in
       Ok ((c * (pw_Q22 * - pw_cy - pw_Q12 * pw_cx))%Re,
           (c * (- pw_Q12 * - pw_cy + pw_Q11 * pw_cx))%Re).
End PW.

(** ------------------------------------------------------------------ *)
(** * Layers *)

(** What a layer's [epsilon] can be: a scalar, an isotropic grid, a (3,3,Nx,Ny)
    grid, or a uniform 3x3 tensor (helpers.py:51-65, see Classify_Model). *)
Inductive eps_t (Nx Ny : nat) : Type :=
| EpsUniform (e : C)
| EpsGrid (u : 'M[C]_(Nx, Ny))
| EpsTensorGrid (u : 'I_3 -> 'I_3 -> 'M[C]_(Nx, Ny))
| EpsTensorUniform (e : 'M[C]_3).

(** Formulations (simulation.py:75-83, 660-676).  For the formulations with a vector
    field, [tan u] is what [layer.get_tangent_field] (and [get_jones_field]) returns for
    a layer of (zz) permittivity [u], or its exception: any function here, the one of the
    code in Tangent_Model.  Layers with the same array share their field; a [tangent_field]
    given to the constructor of one of two such layers is not represented. *)
Inductive formulation_t (Nx Ny : nat) : Type :=
| Original
| Tangent1D
| TangentLike (tan : 'M[C]_(Nx, Ny) -> res ('M[C]_(Nx, Ny) * 'M[C]_(Nx, Ny))).

Section Sim.
Variables (Nx Ny nh : nat).
(** bk.linalg.eig: eigenvalues and matrix of right eigenvectors *)
Variable eig : forall m, 'M[C]_m -> 'rV[C]_m * 'M[C]_m.
(** Simulation attributes: omega, kx, ky and the harmonics. *)
Variable omega : R.
Variables kx ky : 'rV[C]_nh.
Variable h : 'I_nh -> order.

Notation n2 := (nh + nh)%N.
Let Kx : 'M[C]_nh := diag_mx kx.     (* simulation.py:128 *)
Let Ky : 'M[C]_nh := diag_mx ky.     (* simulation.py:129 *)

(** simulation.py:869-870: einsum "i,ik->ik" of diag(A) and B *)
Definition matmuldiag (A B : 'M[C]_nh) : 'M[C]_nh :=
  \matrix_(i, k) (A i i * B i k).

(** simulation.py:868-879 *)
Definition build_Kmatrix (u kx_ ky_ : 'M[C]_nh) : 'M[C]_n2 :=
  let kxu := matmuldiag kx_ u in
  let kyu := matmuldiag ky_ u in
  block_mx (matmuldiag kx_^T kxu^T)^T (matmuldiag ky_^T kxu^T)^T
           (matmuldiag kx_^T kyu^T)^T (matmuldiag ky_^T kyu^T)^T.

Definition pointwise_inv (u : 'M[C]_(Nx, Ny)) : res 'M[C]_(Nx, Ny) :=
  if [forall i, forall j, u i j != 0] then Ok (map_mx (fun x => x^-1) u) else Err NaN.

(** simulation.py:577-586 *)
Definition get_toeplitz (u : 'M[C]_(Nx, Ny)) : res 'M[C]_nh :=
  of_option IndexError (toeplitz h u).

(** simulation.py:781-784, isotropic case *)
Definition nu_hat_inv_iso (u : 'M[C]_(Nx, Ny)) : res 'M[C]_nh :=
  let! nu := pointwise_inv u in
  let! nuhat := get_toeplitz nu in
  linv nuhat.

Definition block4 (a : 'I_2 -> 'I_2 -> 'M[C]_nh) : 'M[C]_n2 :=
  block_mx (a ord0 ord0) (a ord0 ord_max) (a ord_max ord0) (a ord_max ord_max).

(** simulation.py:577-581, transverse=True, as the block matrix *)
Definition toeplitz_transverse (u : 'I_2 -> 'I_2 -> 'M[C]_(Nx, Ny)) : res 'M[C]_n2 :=
  let! a := get_toeplitz (u ord0 ord0) in
  let! b := get_toeplitz (u ord0 ord_max) in
  let! c := get_toeplitz (u ord_max ord0) in
  let! d := get_toeplitz (u ord_max ord_max) in
  Ok (block_mx a b c d).

Definition xy (i : 'I_2) : 'I_3 := widen_ord (leqnSn 2) i.

(** simulation.py:772-779, anisotropic case.  The four transverse components,
    arrays of shape (Nx,Ny), are put in one array of shape (2 Nx, 2 Ny) which
    helpers.py:91-122 cuts again in blocks of shape (N,N) with N =
    epsilon.shape[2] = Nx: block (a,b) is columns b*Nx .. (b+1)*Nx-1.  This gives
    the components back when Nx = Ny; for Nx < Ny the blocks mix the components;
    for Nx > Ny the right blocks are narrower than the left ones, which numpy
    rejects when it multiplies them (ValueError; the case Nx = 2 Ny - 1, where
    the right blocks have one column and are broadcast, is not modelled). *)
Definition block_col (u : 'I_2 -> 'I_2 -> 'M[C]_(Nx, Ny)) (a : 'I_2) (i : 'I_Nx) (c : nat) : C :=
  match insub c : option 'I_Ny with
  | Some l => u a ord0 i l
  | None => if insub (c - Ny)%N is Some l then u a ord_max i l else 0
  end.
Definition recut (u : 'I_2 -> 'I_2 -> 'M[C]_(Nx, Ny)) (a b : 'I_2) : 'M[C]_Nx :=
  \matrix_(i, j) block_col u a i (b * Nx + j)%N.

(** helpers.py:114-122, pointwise inverse of 2x2 matrices. *)
Definition inv2x2_grid (u : 'I_2 -> 'I_2 -> 'M[C]_Nx) : res ('I_2 -> 'I_2 -> 'M[C]_Nx) :=
  let det := \matrix_(i, j) (u ord0 ord0 i j * u ord_max ord_max i j
                             - u ord_max ord0 i j * u ord0 ord_max i j) in
  if [forall i, forall j, det i j != 0] then
    Ok (fun a b => \matrix_(i, j)
          (if (a == ord0) && (b == ord0) then u ord_max ord_max i j / det i j
           else if (a == ord0) then - u ord0 ord_max i j / det i j
           else if (b == ord0) then - u ord_max ord0 i j / det i j
           else u ord0 ord0 i j / det i j))
  else Err NaN.

Definition nu_hat_inv_aniso (u : 'I_3 -> 'I_3 -> 'M[C]_(Nx, Ny)) : res 'M[C]_n2 :=
  if (Ny < Nx)%N then Err ValueError else
  let! nu := inv2x2_grid (recut (fun a b => u (xy a) (xy b))) in
  let! a := of_option IndexError (toeplitz h (nu ord0 ord0)) in
  let! b := of_option IndexError (toeplitz h (nu ord0 ord_max)) in
  let! c := of_option IndexError (toeplitz h (nu ord_max ord0)) in
  let! d := of_option IndexError (toeplitz h (nu ord_max ord_max)) in
  linv (block_mx a b c d).

(** helpers.py:81-88 [norm]: machine epsilon plus the Euclidean norm. *)
Definition machine_eps : R := (/ 2 ^ 52)%Re.
Definition norm2 (t0 t1 : C) : R :=
  machine_eps + complex.Re (csqrt (t0 * conj t0 + t1 * conj t1)).
Definition nt2 (t0 t1 : C) : C := rc (norm2 t0 t1) ^+ 2.

(** simulation.py:825-834, the projector blocks
    Pi = [[Pyy, Pyx],[Pxy, Pxx]] of Toeplitz matrices. *)
Definition proj_blocks (t0 t1 : 'M[C]_(Nx, Ny)) : res 'M[C]_n2 :=
  let p a b := \matrix_(i, j) (a i j * conj (b i j) / nt2 (t0 i j) (t1 i j)) in
  let! Pxx := get_toeplitz (p t0 t0) in
  let! Pyy := get_toeplitz (p t1 t1) in
  let! Pxy := get_toeplitz (p t0 t1) in
  let! Pyx := get_toeplitz (p t1 t0) in
  Ok (block_mx Pyy Pyx Pxy Pxx).

(** simulation.py:822-847 [_get_Peps], direct=False (the only value used) *)
Definition get_Peps (eps_para nuinv : 'M[C]_n2) (t0 t1 : 'M[C]_(Nx, Ny))
  : res 'M[C]_n2 :=
  let! Pi := proj_blocks t0 t1 in
  Ok (eps_para - (eps_para - nuinv) *m Pi).

(** Attributes that build_matrix sets on a layer (simulation.py:692-703).
    [None] for eps_hat/matrix/Peps/Kmu in the uniform case, where they are not set. *)
Record built := Built {
  bt_Qeps : 'M[C]_n2;
  bt_eps_hat : option 'M[C]_nh;
  bt_Peps : option 'M[C]_n2;
  bt_Kmu : option 'M[C]_n2;
  bt_matrix : option 'M[C]_n2 }.

Definition omega2 : C := rc (omega * omega)%Re.

(** simulation.py:640-654,686,690-703 with mu a scalar (mu = 1 is forced by
    Layer.__init__, layers.py:70-74; kept symbolic here). *)
Definition assemble (mu : C) (eps_hat eps_hat_inv : 'M[C]_nh) (Peps : 'M[C]_n2) : res built :=
  if mu == 0 then Err NaN else
  let Keps := build_Kmatrix eps_hat_inv Ky (- Kx) in
  let Kmu := build_Kmatrix (mu^-1)%:M Kx Ky in
  let Pmu : 'M[C]_n2 := block_mx mu%:M 0 0 mu%:M in
  let matrix := omega2 *: (Peps *m Pmu) - (Peps *m Keps + Kmu *m Pmu) in
  Ok (Built (omega2 *: Pmu - Keps) (Some eps_hat) (Some Peps) (Some Kmu) (Some matrix)).

(** simulation.py:588-708 [build_matrix] for a layer that is not a copy. *)
Definition build_matrix (form : formulation_t Nx Ny) (mu : C) (eps : eps_t Nx Ny) : res built :=
  match eps with
  | EpsUniform e =>                                   (* 606-629, 702 *)
      if e == 0 then Err NaN else
      let Keps := build_Kmatrix (e^-1)%:M Ky (- Kx) in
      let Pmu : 'M[C]_n2 := block_mx mu%:M 0 0 mu%:M in
      Ok (Built (omega2 *: Pmu - Keps) None None None None)
  | EpsTensorUniform e =>
      (* 606-629 runs on the 3x3 array (1/epsilon * IdG needs nh = 3 or 1) and
         layers.py:144-146 raises NotImplementedError afterwards *)
      Err NotImplementedError
  | EpsGrid u =>
      let! eps_hat := get_toeplitz u in               (* 637 *)
      let! eps_hat_inv := linv eps_hat in             (* 638 *)
      let eps_para : 'M[C]_n2 := block_mx eps_hat 0 0 eps_hat in   (* 651 *)
      let! Peps :=
        match form with
        | Original => Ok eps_para                     (* 660-661 *)
        | Tangent1D =>                                (* 663-666 *)
            let! nu := nu_hat_inv_iso u in Ok (block_mx eps_hat 0 0 nu)
        | TangentLike tan =>                          (* 667-676, 787-847 *)
            let! t := tan u in
            let! nu := nu_hat_inv_iso u in
            get_Peps eps_para (block_mx nu 0 0 nu) t.1 t.2
        end in
      assemble mu eps_hat eps_hat_inv Peps
  | EpsTensorGrid u =>
      let! eps_hat := get_toeplitz (u ord_max ord_max) in
      let! eps_hat_inv := linv eps_hat in
      let! eps_para := toeplitz_transverse (fun a b => u (xy a) (xy b)) in  (* 649 *)
      let! Peps :=
        match form with
        | Original => Ok eps_para
        | Tangent1D =>
            (* 664-666: nuhat_inv is then a nested list; block() of it has the
               wrong shape, and numpy raises *)
            Err ValueError
        | TangentLike tan =>
            let! t := tan (u ord_max ord_max) in
            let! nu := nu_hat_inv_aniso u in
            get_Peps eps_para nu t.1 t.2
        end in
      assemble mu eps_hat eps_hat_inv Peps
  end.

(** ------------------------------------------------------------------ *)
(** * Modes *)

(** A solved layer: thickness and eigen-data. [sl_eps]: the uniform scalar, or
    the Toeplitz matrix eps_hat (used by get_field_fourier, 319-323). *)
Record slayer := SLayer {
  sl_thick : option R;
  sl_q : 'rV[C]_n2;
  sl_phi : 'M[C]_n2;
  sl_Qeps : 'M[C]_n2;
  sl_eps : C + 'M[C]_nh }.

(** layers.py:157-173 [solve_uniform] for scalar epsilon and mu *)
Definition uniform_q (e mu : C) : 'rV[C]_n2 :=
  let q : 'rV[C]_nh :=
    \row_i csqrt (e * mu * omega2 - kx ord0 i ^+ 2 - ky ord0 i ^+ 2) in
  row_mx q q.

(** layers.py:208-209: q = w**0.5, flipped where Im q < 0 *)
Definition branch (w : C) : C :=
  let q := csqrt w in if (complex.Im q < 0) then - q else q.

(** layers.py:176-213 [solve_eigenproblem] (not a copy) *)
Definition eigen_q (m : 'M[C]_n2) : 'rV[C]_n2 := map_mx branch (eig m).1.
Definition eigen_phi (m : 'M[C]_n2) : 'M[C]_n2 := (eig m).2.

(** simulation.py:187-191: build the matrix and solve one (original) layer *)
Definition solve_layer (form : formulation_t Nx Ny) (thick : option R)
  (mu : C) (eps : eps_t Nx Ny) : res slayer :=
  let! b := build_matrix form mu eps in
  match eps, bt_matrix b, bt_eps_hat b with
  | EpsUniform e, _, _ =>
      Ok (SLayer thick (uniform_q e mu) 1%:M (bt_Qeps b) (inl e))
  | _, Some m, Some eh =>
      Ok (SLayer thick (eigen_q m) (eigen_phi m) (bt_Qeps b) (inr eh))
  | _, _, _ => Err AttributeError
  end.

(** ------------------------------------------------------------------ *)
(** * Scattering matrix *)

(** [layer.thickness or 0] (simulation.py:258-259) *)
Definition thick0 (l : slayer) : R := odflt 0 (sl_thick l).

Definition q_ok (l : slayer) : bool := [forall i, sl_q l ord0 i != 0].

(** [1 / layer.eigenvalues]; used only when [q_ok] *)
Definition qinv (l : slayer) : 'rV[C]_n2 := map_mx (fun x => x^-1) (sl_q l).

(** simulation.py:885-886: einsum "ik,k->ik" *)
Definition scale_cols (A : 'M[C]_n2) (d : 'rV[C]_n2) : 'M[C]_n2 :=
  \matrix_(i, k) (A i k * d ord0 k).

(** simulation.py:882-890 [_build_Mmatrix] *)
Definition build_Mmatrix (l : slayer) : 'M[C]_(n2 + n2) :=
  let a := sl_Qeps l *m scale_cols (sl_phi l) (qinv l) in
  block_mx a (- a) (sl_phi l) (sl_phi l).

(** simulation.py:910-918 [_build_Imatrix] *)
Definition build_Imatrix (l1 l2 : slayer) : res 'M[C]_(n2 + n2) :=
  if q_ok l1 && q_ok l2 then solve (build_Mmatrix l1) (build_Mmatrix l2) else Err NaN.

Record smat := SMat { S11 : 'M[C]_n2; S12 : 'M[C]_n2; S21 : 'M[C]_n2; S22 : 'M[C]_n2 }.

(** simulation.py:240-243 *)
Definition smat_id : smat := SMat 1%:M 0 0 1%:M.

(** simulation.py:257-277, one turn of the loop *)
Definition smat_step (l l' : slayer) (S : smat) : res smat :=
  let f := diag_mx (phasor (sl_q l) (thick0 l)) in
  let f' := diag_mx (phasor (sl_q l') (thick0 l')) in
  let! I_ := build_Imatrix l l' in
  let I11 := ulsubmx I_ in let I12 := ursubmx I_ in
  let I21 := dlsubmx I_ in let I22 := drsubmx I_ in
  let A := I11 - f *m S12 S *m I21 in
  let! s11 := solve A (f *m S11 S) in
  let! s12 := solve A ((f *m S12 S *m I22 - I12) *m f') in
  let s21 := S22 S *m I21 *m s11 + S21 S in
  let s22 := S22 S *m I21 *m s12 + S22 S *m I22 *m f' in
  Ok (SMat s11 s12 s21 s22).

(** simulation.py:256-278 without the cache: the loop over the interfaces of the
    sub-stack [l :: rest] (the cache is modelled in Cache_Model). *)
Fixpoint smat_loop (S : smat) (l : slayer) (rest : seq slayer) : res smat :=
  match rest with
  | [::] => Ok S
  | l' :: rest' => let! S' := smat_step l l' S in smat_loop S' l' rest'
  end.

(** get_S_matrix on a stack; with a single layer the loop body never runs and
    [S] is unbound (simulation.py:279-284). *)
Definition smatrix (stack : seq slayer) : res smat :=
  match stack with
  | [::] | [:: _] => Err UnboundLocalError
  | l :: rest => smat_loop smat_id l rest
  end.

(** ------------------------------------------------------------------ *)
(** * Amplitudes and fields *)

Definition amp := ('cV[C]_n2 * 'cV[C]_n2)%type.

(** simulation.py:763-768 [_solve_ext] *)
Definition solve_ext (S : smat) (a0 bN : 'cV[C]_n2) : amp :=
  (S11 S *m a0 + S12 S *m bN, S21 S *m a0 + S22 S *m bN).

(** simulation.py:751-761 [_solve_int] given the two partial S matrices *)
Definition solve_int (S P : smat) (a0 : 'cV[C]_n2) : res amp :=
  let! ai := solve (1%:M - S12 S *m S21 P) (S11 S *m a0) in
  Ok (ai, S21 P *m ai).

(** simulation.py:731-744 [_get_amplitudes] with translate=False, for an index
    already normalised to 0..len(layers)-1.  Splitting [stack] at position [k]
    gives the sub-stacks of [indices=(0,k)] and [indices=(k,n_interfaces)]. *)
Definition get_amplitudes (stack : seq slayer) (k : nat) (a0 bN : 'cV[C]_n2) : res amp :=
  if k == 0%N then
    let! Sm := smatrix stack in Ok (a0, (solve_ext Sm a0 bN).2)
  else if k == (size stack).-1 then
    let! Sm := smatrix stack in Ok ((solve_ext Sm a0 bN).1, bN)
  else
    let! Sm := smatrix (take k.+1 stack) in
    let! P := smatrix (drop k stack) in
    solve_int Sm P a0.

(** elementwise product of a vector with an array of phases *)
Definition vmul m (d : 'rV[C]_m) (v : 'cV[C]_m) : 'cV[C]_m :=
  \col_i (v i ord0 * d ord0 i).

(** simulation.py:923-927 [_translate_amplitudes]; [thickness - z] raises
    TypeError when thickness is None. *)
Definition translate (l : slayer) (z : R) (p : amp) : res amp :=
  match sl_thick l with
  | None => Err TypeError
  | Some t => Ok (vmul (phasor (sl_q l) z) p.1, vmul (phasor (sl_q l) (t - z)%Re) p.2)
  end.

Record fields := Fields {
  f_ex : 'cV[C]_nh; f_ey : 'cV[C]_nh; f_ez : 'cV[C]_nh;
  f_hx : 'cV[C]_nh; f_hy : 'cV[C]_nh; f_hz : 'cV[C]_nh }.

(** simulation.py:311-323: the six components from translated amplitudes *)
Definition field_of (l : slayer) (p : amp) : res fields :=
  if ~~ q_ok l || (rc omega == 0) then Err NaN else
  let ht := sl_phi l *m (p.1 + p.2) in
  let hx := usubmx ht in let hy := dsubmx ht in
  let A : 'cV[C]_n2 := \col_i ((p.1 - p.2) i ord0 / (rc omega * sl_q l ord0 i)) in
  let et := sl_Qeps l *m (sl_phi l *m A) in
  let ey := - usubmx et in let ex := dsubmx et in
  let hz : 'cV[C]_nh :=
    \col_i ((kx ord0 i * ey i ord0 - ky ord0 i * ex i ord0) / rc omega) in
  let ez0 : 'cV[C]_nh :=
    \col_i ((ky ord0 i * hx i ord0 - kx ord0 i * hy i ord0) / rc omega) in
  let! ez :=
    match sl_eps l with
    | inl e => if e == 0 then Err NaN else Ok (e^-1 *: ez0)
    | inr eps_hat => solve eps_hat ez0
    end in
  Ok (Fields ex ey ez hx hy hz).

(** simulation.py:300-333 [get_field_fourier] at one z, by normalised index *)
Definition get_field_fourier (stack : seq slayer) (k : nat) (a0 bN : 'cV[C]_n2) (z : R)
  : res fields :=
  match List.nth_error stack k with
  | None => Err IndexError
  | Some l =>
      let! p := get_amplitudes stack k a0 bN in
      let! p' := translate l z p in
      field_of l p'
  end.

(** ------------------------------------------------------------------ *)
(** * Power *)

(** simulation.py:286-298 [get_z_poynting_flux] *)
Definition poynting (l : slayer) (an bn : 'cV[C]_n2) : 'cV[R]_nh * 'cV[R]_nh :=
  let A := sl_Qeps l *m sl_phi l *m
           diag_mx (\row_i ((rc omega * sl_q l ord0 i)^-1)) in
  let phia := sl_phi l *m an in let phib := sl_phi l *m bn in
  let Aa := A *m an in let Ab := A *m bn in
  let half : C := 2%:R^-1 in
  let cross := \col_i (half * (conj (phib i ord0) * Aa i ord0
                               - conj (Ab i ord0) * phia i ord0)) : 'cV[C]_n2 in
  let forward_xy := \col_i (rc (complex.Re (conj (Aa i ord0) * phia i ord0))
                            + cross i ord0) : 'cV[C]_n2 in
  let backward_xy := \col_i (- rc (complex.Re (conj (Ab i ord0) * phib i ord0))
                             + conj (cross i ord0)) : 'cV[C]_n2 in
  (map_mx (@complex.Re _) (usubmx forward_xy + dsubmx forward_xy),
   map_mx (@complex.Re _) (usubmx backward_xy + dsubmx backward_xy)).

(** Result of diffraction_efficiencies(orders=True) *)
Definition effs := ('cV[R]_nh * 'cV[R]_nh)%type.

(** simulation.py:473-478, orders=True, complex=False; [flux] is
    self.incident_flux. *)
Definition efficiencies (flux : R) (stack : seq slayer) (a0 bN : 'cV[C]_n2) : res effs :=
  let! Sm := smatrix stack in
  match stack with
  | [::] => Err IndexError
  | l0 :: rest =>
      let lN := last l0 rest in
      if ~~ (q_ok l0 && q_ok lN) || (rc omega == 0) then Err NaN else
      let p := solve_ext Sm a0 bN in
      let bwd_in := (poynting l0 a0 p.2).2 in
      let fwd_out := (poynting lN p.1 bN).1 in
      if (flux == 0) then Err NaN else
      Ok (map_mx (fun x => - x / flux) bwd_in, map_mx (fun x => x / flux) fwd_out)
  end.

(** simulation.py:479-481: orders=False *)
Definition total (r : effs) : R * R :=
  (\sum_i r.1 i ord0, \sum_i r.2 i ord0).

(** simulation.py:518-557 [get_z_stress_tensor_integral], given the fields *)
Definition csum (f : 'I_nh -> C) : C := \sum_i f i.
Definition stress (l : slayer) (F : fields) : R * R * R :=
  let c (v : 'cV[C]_nh) i := v i ord0 in
  let dz i := (ky ord0 i * c (f_hx F) i - kx ord0 i * c (f_hy F) i) / rc omega in
  let: (dx, dy) :=
    match sl_eps l with
    | inl e => (e *: f_ex F, e *: f_ey F)
    | inr eh => (eh *m f_ex F, - (eh *m - f_ey F))
    end in
  (complex.Re (csum (fun i => c (f_ex F) i * conj (dz i) + c (f_hx F) i * conj (c (f_hz F) i))),
   complex.Re (csum (fun i => c (f_ey F) i * conj (dz i) + c (f_hy F) i * conj (c (f_hz F) i))),
   2%:R^-1 * complex.Re (csum (fun i =>
       c (f_ez F) i * conj (dz i) + c (f_hz F) i * conj (c (f_hz F) i)
     - c (f_ex F) i * conj (c dx i) - c (f_ey F) i * conj (c dy i)
     - c (f_hx F) i * conj (c (f_hx F) i) - c (f_hy F) i * conj (c (f_hy F) i)))).

End Sim.

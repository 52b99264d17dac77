(** Model of nannos/utils/helpers.py:135-161 [_apply_filter] (apply_filter is the
    same function, helpers.py:164). *)
From Coq Require Import Reals ZArith.
From mathcomp Require Import all_ssreflect all_algebra.
From mathcomp Require Import complex.
From Verif Require Import RStruct Cplx Base Fourier_Model Sim_Model.

Set Implicit Arguments.
Unset Strict Implicit.
Unset Printing Implicit Defensive.

Import Order.TTheory GRing.Theory Num.Theory.
Local Open Scope ring_scope.
Local Open Scope complex_scope.

(** numpy.linspace(-w, w, N)[i] *)
Definition lin (w : R) (N i : nat) : R :=
  if (N <= 1)%N then (- w)%Re else (- w + INR i * ((w + w) / INR (N - 1)))%Re.

(** helpers.py:150,152: exp(-t^2 / r^2) *)
Definition gauss (w r : R) (N i : nat) : R := exp (- (lin w N i * lin w N i) / (r * r))%Re.

(** numpy.trapz with unit spacing *)
Definition trapz (N : nat) (f : nat -> R) : R := \sum_(i < N.-1) ((f i + f i.+1) / 2)%Re.

(** helpers.py:150-153: the normalised bump *)
Definition bump (w r : R) (N i : nat) : R := (gauss w r N i / trapz N (gauss w r N))%Re.

(** numpy.fft.fftshift on both axes: rolls by N//2, entry i comes from
    (i - N//2) mod N. *)
Definition unshift (N : nat) (i : 'I_N) : 'I_N :=
  Ordinal (ltn_pmod (i + (N - N %/ 2)) (leq_ltn_trans (leq0n i) (ltn_ord i))).
Definition fftshift Nx Ny (A : 'M[C]_(Nx, Ny)) : 'M[C]_(Nx, Ny) :=
  \matrix_(i, j) A (unshift i) (unshift j).

(** helpers.py:143-149: half widths; [vectors] gives vectors[0][0], vectors[1][1]. *)
Definition half_widths (Nx Ny : nat) (vectors : option (R * R)) : R * R :=
  match vectors with
  | None => (INR Nx / 2, INR Ny / 2)%Re
  | Some (a, b) => (a / 2, b / 2)%Re
  end.

(** helpers.py:155 *)
Definition kernel (Nx Ny : nat) (vectors : option (R * R)) (rx ry : R) : 'M[C]_(Nx, Ny) :=
  let w := half_widths Nx Ny vectors in
  \matrix_(i, j) rc (bump w.1 rx Nx i * bump w.2 ry Ny j)%Re.

(** helpers.py:135-161; [x] is a complex (or real) image, a scalar radius is the
    pair (r, r).  A radius of zero in one direction only divides by zero, and so
    does the normalisation of an axis with a single point. *)
Definition apply_filter Nx Ny (vectors : option (R * R)) (rx ry : R) (x : 'M[C]_(Nx, Ny))
  : res 'M[C]_(Nx, Ny) :=
  if (rx == 0) && (ry == 0) then Ok x
  else if (rx == 0) || (ry == 0) || (Nx <= 1)%N || (Ny <= 1)%N then Err NaN
  else
    let kernel_ft := fourier_transform (kernel Nx Ny vectors rx ry) in
    let img_ft := fourier_transform x in
    let img2_ft := \matrix_(i, j) (kernel_ft i j * img_ft i j) in
    let out := map_mx (fun z => rc (complex.Re z)) (inverse_fourier_transform img2_ft) in
    Ok (map_mx (fun z => z * (Nx * Ny)%:R) (fftshift out)).

(** ** Specification *)
(** The periodic extension of an image. *)
Definition per Nx Ny (u : 'M[C]_(Nx, Ny)) (m n : Z) : C :=
  match insub (Z.to_nat (m mod Z.of_nat Nx)) : option 'I_Nx,
        insub (Z.to_nat (n mod Z.of_nat Ny)) : option 'I_Ny with
  | Some i, Some j => u i j
  | _, _ => 0
  end.
(** Translation by (p,q) and reflection through the origin of a periodic image. *)
Definition translated Nx Ny (p q : Z) (u : 'M[C]_(Nx, Ny)) : 'M[C]_(Nx, Ny) :=
  \matrix_(i, j) per u (Z.of_nat i - p) (Z.of_nat j - q).
Definition reflected Nx Ny (u : 'M[C]_(Nx, Ny)) : 'M[C]_(Nx, Ny) :=
  \matrix_(i, j) per u (- Z.of_nat i) (- Z.of_nat j).

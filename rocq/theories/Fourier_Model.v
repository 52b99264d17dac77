(** Model of nannos/formulations/fft.py and of the code of
    nannos/simulation.py that indexes Fourier tables.

    Numpy's [fft2]/[ifft2] are modelled by their defining sums (exact complex
    arithmetic); an array of shape (Nx,Ny) is a matrix ['M[C]_(Nx,Ny)]. *)
From Coq Require Import Reals ZArith.
From mathcomp Require Import all_ssreflect all_algebra.
From mathcomp Require Import complex.
From Verif Require Import RStruct Cplx.

Set Implicit Arguments.
Unset Strict Implicit.
Unset Printing Implicit Defensive.

Import Order.TTheory GRing.Theory Num.Theory.
Local Open Scope ring_scope.
Local Open Scope complex_scope.

(** exp(2*pi*i*m/N): the characters used by the discrete Fourier transform. *)
Definition root (N : nat) (m : Z) : C :=
  cexp ('i * ((2 * PI * IZR m / INR N)%Re)%:C).

Section Arrays.
Variables (Nx Ny : nat).

(** numpy.fft.fft2 over the last two axes (fft.py:27):
    sum over x,y of u[x,y] exp(-2 pi i (k x/Nx + l y/Ny)). *)
Definition fft2 (u : 'M[C]_(Nx, Ny)) : 'M[C]_(Nx, Ny) :=
  \matrix_(k < Nx, l < Ny)
    \sum_(x < Nx) \sum_(y < Ny)
      u x y * (root Nx (- (Z.of_nat k * Z.of_nat x)) *
               root Ny (- (Z.of_nat l * Z.of_nat y))).

(** numpy.fft.ifft2 (fft.py:38), which divides by Nx*Ny. *)
Definition ifft2 (u : 'M[C]_(Nx, Ny)) : 'M[C]_(Nx, Ny) :=
  \matrix_(x < Nx, y < Ny)
    ((\sum_(k < Nx) \sum_(l < Ny)
       u k l * (root Nx (Z.of_nat k * Z.of_nat x) *
                root Ny (Z.of_nat l * Z.of_nat y)))
     / (Nx * Ny)%:R).

(** nannos/formulations/fft.py:21-29 [fourier_transform] (s=None). *)
Definition fourier_transform (u : 'M[C]_(Nx, Ny)) : 'M[C]_(Nx, Ny) :=
  map_mx (fun c => c / (Nx * Ny)%:R) (fft2 u).

(** nannos/formulations/fft.py:32-40 [inverse_fourier_transform] (s=None). *)
Definition inverse_fourier_transform (u : 'M[C]_(Nx, Ny)) : 'M[C]_(Nx, Ny) :=
  map_mx (fun c => c * (Nx * Ny)%:R) (ifft2 u).

End Arrays.

(** Python indexing of an axis of length N with an integer d: negative indices
    count from the end, anything else out of range is an IndexError ([None]). *)
Definition pyidx (N : nat) (d : Z) : option 'I_N :=
  if ((0 <=? d)%Zc && (d <? Z.of_nat N)%Zc) then insub (Z.to_nat d)
  else if ((- Z.of_nat N <=? d)%Zc && (d <? 0)%Zc) then insub (Z.to_nat (d + Z.of_nat N))
  else None.

(** A[d0, d1] *)
Definition pyget Nx Ny (u : 'M[C]_(Nx, Ny)) (d0 d1 : Z) : option C :=
  match pyidx Nx d0, pyidx Ny d1 with
  | Some i, Some j => Some (u i j)
  | _, _ => None
  end.

(** An order (i1,i2); a harmonics table is a function from positions. *)
Definition order := (Z * Z)%type.

(** nannos/simulation.py:577-586 [_get_toeplitz_matrix], transverse=False:
    [uft[delta[0], delta[1]]] with delta = harmonics[:,jx]-harmonics[:,jy].
    Numpy raises IndexError (here [None]) if any index is out of range. *)
Definition toeplitz Nx Ny nh (h : 'I_nh -> order) (u : 'M[C]_(Nx, Ny))
  : option 'M[C]_nh :=
  let uft := fourier_transform u in
  let at_ i j := pyget uft ((h i).1 - (h j).1)%Zc ((h i).2 - (h j).2)%Zc in
  if [forall i, forall j, isSome (at_ i j)]
  then Some (\matrix_(i, j) odflt 0 (at_ i j)) else None.

(** [f = zeros(shape); f[h0,h1] = 1.0] (simulation.py:339-340, 355-357). *)
Definition unit_at Nx Ny (o : order) : option 'M[C]_(Nx, Ny) :=
  match pyidx Nx o.1, pyidx Ny o.2 with
  | Some i, Some j => Some (delta_mx i j)
  | _, _ => None
  end.

(** nannos/simulation.py:335-343 [get_ifft] and, for each z-slice, 345-365
    [get_ifft_amplitudes]: accumulate [s += a * f] over the orders, then apply
    the inverse transform on the two grid axes.  [axes=(0,1)] of an array of
    shape (Nx,Ny). *)
Fixpoint accum Nx Ny (hs : seq order) (us : seq C) (s : 'M[C]_(Nx, Ny))
  : option 'M[C]_(Nx, Ny) :=
  match hs, us with
  | o :: hs', a :: us' =>
      if unit_at Nx Ny o is Some f then accum hs' us' (s + a *: f) else None
  | _, _ => Some s
  end.

Definition get_ifft Nx Ny (hs : seq order) (us : seq C) : option 'M[C]_(Nx, Ny) :=
  omap (@inverse_fourier_transform Nx Ny) (accum hs us 0).

(** get_ifft_amplitudes: one grid per z-slice (rows of [amplitudes]).  The code
    broadcasts over the trailing axis; here the slices are listed. *)
Definition get_ifft_amplitudes Nx Ny (hs : seq order) (amps : seq (seq C))
  : seq (option 'M[C]_(Nx, Ny)) :=
  [seq get_ifft Nx Ny hs us | us <- amps].

(** nannos/simulation.py:710-725 [get_epsilon] on a patterned isotropic layer:
    the column of the Toeplitz matrix at the zeroth order, transformed back. *)
Definition get_epsilon Nx Ny nh (h : 'I_nh -> order) (i0 : 'I_nh)
  (u : 'M[C]_(Nx, Ny)) : option 'M[C]_(Nx, Ny) :=
  if toeplitz h u is Some m
  then get_ifft Nx Ny [seq h i | i <- enum 'I_nh] [seq m i i0 | i <- enum 'I_nh]
  else None.

(** The zz, xz and yz components of the Maxwell stress of harmonic fields, summed
    over the diffraction orders (twice their time and cell average, as for the
    Poynting flux Re(E x conj H)). *)
From Coq Require Import Reals ZArith.
From mathcomp Require Import all_ssreflect all_algebra.
From mathcomp Require Import complex.
From Verif Require Import RStruct Cplx Base Sim_Model.

Set Implicit Arguments.
Unset Strict Implicit.
Unset Printing Implicit Defensive.

Import GRing.Theory.
Local Open Scope ring_scope.

(** T_ab = Re(E_a conj D_b + H_a conj B_b) - delta_ab/2 Re(E . conj D + H . conj B), B = H *)
Definition z_stress nh (F : fields nh) (Dx Dy Dz : 'cV[C]_nh) : R * R * R :=
  let c (v : 'cV[C]_nh) i := v i ord0 in
  (\sum_i complex.Re (c (f_ex F) i * conj (c Dz i) + c (f_hx F) i * conj (c (f_hz F) i)),
   \sum_i complex.Re (c (f_ey F) i * conj (c Dz i) + c (f_hy F) i * conj (c (f_hz F) i)),
   \sum_i 2%:R^-1 * complex.Re (c (f_ez F) i * conj (c Dz i) + c (f_hz F) i * conj (c (f_hz F) i)
     - c (f_ex F) i * conj (c Dx i) - c (f_ey F) i * conj (c Dy i)
     - c (f_hx F) i * conj (c (f_hx F) i) - c (f_hy F) i * conj (c (f_hy F) i))).

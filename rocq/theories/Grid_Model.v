(** Fields on a grid: get_ifft_amplitudes, get_field_grid, get_Efield_grid and
    get_Hfield_grid (nannos/simulation.py:345-439), in exact arithmetic, numpy
    backend. *)
From Coq Require Import Reals ZArith String.
From mathcomp Require Import all_ssreflect all_algebra.
From mathcomp Require Import complex.
From Verif Require Import RStruct Cplx Base Fourier_Model Sim_Model Setup_Model.

Set Implicit Arguments.
Unset Strict Implicit.
Unset Printing Implicit Defensive.

Import GRing.Theory.
Local Open Scope ring_scope.

(** An array of any number of axes: its shape, and its entries ([None] outside). *)
Record nd := Nd { nd_shape : seq nat; nd_get : seq nat -> option C }.

(** t is an index of an array of shape s *)
Definition in_shape (t s : seq nat) : bool := all2 (fun i n => i < n)%N t s.

Section Amplitudes.
Variables (nh : nat) (h : 'I_nh -> order).

(** simulation.py:353-360 on the plane of the first two axes: [s += a * f] over the
    harmonics, then the inverse transform over axes 0 and 1. *)

(** shape of two axes or more: [f[h0,h1,None] = 1.0] fills all the other axes, the
    last of which is the one of the amplitudes. *)
Definition planes (n0 n1 nz : nat) (A : 'M[C]_(nz, nh)) : seq (option 'M[C]_(n0, n1)) :=
  get_ifft_amplitudes n0 n1 [seq h i | i <- enum 'I_nh] [seq [seq A z i | i <- enum 'I_nh] | z <- enum 'I_nz].

(** shape of one axis: the second index h1 falls on the axis of the amplitudes. *)
Definition plane1 (n0 nz : nat) (A : 'M[C]_(nz, nh)) : option 'M[C]_(n0, nz) :=
  omap (@inverse_fourier_transform n0 nz)
    (foldl (fun s i => if s is Some s then
       if unit_at n0 nz (h i) is Some f then Some (s + \matrix_(x, z) (A z i * f x z)) else None else None)
     (Some 0) (enum 'I_nh)).

Definition entry (n0 n1 : nat) (P : 'M[C]_(n0, n1)) (x y : nat) : option C :=
  if (insub x, insub y) is (Some x, Some y) then Some (P x y) else None.

(** get_ifft_amplitudes of a two-dimensional array of amplitudes, one row per
    position; a missing column [amplitudes[:, i]] is an IndexError.  No axis at all
    is too many indices for [f], also an IndexError. *)
Definition ifft_amplitudes (nz m : nat) (B : 'M[C]_(nz, m)) (shape : seq nat) : res nd :=
  match @idP (nh <= m)%N with
  | ReflectF _ => Err IndexError
  | ReflectT le =>
      let A : 'M[C]_(nz, nh) := \matrix_(z, i) B z (widen_ord le i) in
      match shape with
      | [::] => Err IndexError
      | [:: n0] =>
          let! P := of_option IndexError (plane1 n0 A) in
          Ok (Nd [:: n0; nz] (fun t => match t with [:: x; z] => entry P x z | _ => None end))
      | n0 :: n1 :: rest =>
          if [forall i, isSome (unit_at n0 n1 (h i))] then
            Ok (Nd (shape ++ [:: nz]) (fun t =>
              match t with
              | x :: y :: t' =>
                  if in_shape t' (rest ++ [:: nz]) then
                    if List.nth_error (planes n0 n1 A) (last 0%N t') is Some (Some P)
                    then entry P x y else None
                  else None
              | _ => None
              end))
          else Err IndexError
      end
  end.

(** of a one-dimensional array: [reshape(amplitudes, amplitudes.shape + (1,))]
    (simulation.py:349-351) *)
Definition ifft_amplitudes_1d (m : nat) (u : 'rV[C]_m) (shape : seq nat) : res nd :=
  ifft_amplitudes (u^T) shape.
End Amplitudes.

(** bk.stack of three arrays of one shape *)
Definition stack3 (a b c : nd) : nd :=
  Nd (3%N :: nd_shape a) (fun t =>
    match t with
    | 0%N :: t' => nd_get a t' | 1%N :: t' => nd_get b t' | 2%N :: t' => nd_get c t'
    | _ => None
    end).

(** What get_field_grid returns: one array or the pair (E, H) *)
Inductive grid_out := One of nd | Both of nd & nd.

(** layer.epsilon.shape, numbers being stored as arrays without axes (layers.py:62) *)
Definition eps_shape Nx Ny (e : eps_t Nx Ny) : seq nat :=
  match e with
  | EpsUniform _ => [::]
  | EpsGrid _ => [:: Nx; Ny]
  | EpsTensorGrid _ => [:: 3; 3; Nx; Ny]%N
  | EpsTensorUniform _ => [:: 3; 3]%N
  end.

Section Grid.
Variables (Nx Ny nh : nat).
Variable eig : forall m, 'M[C]_m -> 'rV[C]_m * 'M[C]_m.
Variable pw : planewave.
Variable rec : 'M[R]_2.
Variable h : 'I_nh -> order.
Variable form : formulation_t Nx Ny.

(** fields_fourier[:, i], one row per height *)
Definition comp_rows (f : fields nh -> 'cV[C]_nh) (Fs : seq (fields nh)) : 'M[C]_(size Fs, nh) :=
  \matrix_(z, i) f (tnth (in_tuple Fs) z) i ord0.

(** simulation.py:385-386 [_get_field] *)
Definition get_field (f : fields nh -> 'cV[C]_nh) (Fs : seq (fields nh)) (shape : seq nat) : res nd :=
  ifft_amplitudes h (comp_rows f Fs) shape.

(** [bk.stack([_get_field(f, i) for i in range(3)])] *)
Definition get_fields3 (fx fy fz : fields nh -> 'cV[C]_nh) Fs shape : res nd :=
  let! a := get_field fx Fs shape in let! b := get_field fy Fs shape in
  let! c := get_field fz Fs shape in Ok (stack3 a b c).

Definition is_in (s : string) (l : seq string) : bool := has (String.eqb s) l.

(** E then H when both are asked for (simulation.py:388-423) *)
Definition select (field : string) (E H : res nd) : res grid_out :=
  if String.eqb field "all" then let! e := E in let! h := H in Ok (Both e h)
  else if String.eqb field "H" then let! h := H in Ok (One h)
  else let! e := E in Ok (One e).

(** get_field_grid(k, z, shape, field, component) of a new simulation
    (simulation.py:367-429).  [z] is a number or a list of at least one; shape=None
    and shape=() both mean the shape of the layer's permittivity. *)
Definition run_grid (layers : seq (layer_in Nx Ny)) (i0 : 'I_nh) (k : nat) (z : R) (zs : seq R)
  (shape : option (seq nat)) (field component : string) : res grid_out :=
  if ~~ is_in field [:: "all"; "E"; "H"]%string then Err ValueError else
  if ~~ is_in component [:: "all"; "x"; "y"; "z"]%string then Err ValueError else
  let! l := of_option IndexError (List.nth_error layers k) in
  let sh := if shape is Some (n :: s) then n :: s else eps_shape (li_eps l) in
  let! Fs := mapr (run_field eig pw rec h form layers i0 k) (z :: zs) in
  if String.eqb component "all" then
    select field (get_fields3 (@f_ex nh) (@f_ey nh) (@f_ez nh) Fs sh) (get_fields3 (@f_hx nh) (@f_hy nh) (@f_hz nh) Fs sh)
  else if String.eqb component "x" then
    select field (get_field (@f_ex nh) Fs sh) (get_field (@f_hx nh) Fs sh)
  else if String.eqb component "y" then
    select field (get_field (@f_ey nh) Fs sh) (get_field (@f_hy nh) Fs sh)
  else
    select field (get_field (@f_ez nh) Fs sh) (get_field (@f_hz nh) Fs sh).

(** simulation.py:431-439 *)
Definition run_E_grid layers i0 k z zs shape component := run_grid layers i0 k z zs shape "E" component.
Definition run_H_grid layers i0 k z zs shape component := run_grid layers i0 k z zs shape "H" component.
End Grid.
